(** Model of src/lookup/permute.rs, subset_equality.rs and mod.rs. Definitions only. *)
From mathcomp Require Import all_ssreflect all_algebra.
From Coq Require Import String.
From Verif Require Import Base ModelPoly ModelVO ModelOracle.

Set Implicit Arguments.
Unset Strict Implicit.
Unset Printing Implicit Defensive.

Import GRing.Theory.
Local Open Scope ring_scope.

Section Lookup.
Variable F : fieldType.
Variable env : fenv F.

(** permute.rs:11-15: the BTreeMap of multiplicities, sorted by key. *)
Fixpoint count_add (x : F) (m : seq (F * nat)) : seq (F * nat) :=
  match m with
  | [::] => [:: (x, 1%N)]
  | (y, c) :: m' => if x == y then (y, c.+1) :: m'
                    else if fle env x y then (x, 1%N) :: m
                    else (y, c) :: count_add x m'
  end.
(** permute.rs:11-15, over the whole table. *)
Definition table_counts (s : seq F) : seq (F * nat) := foldl (fun m x => count_add x m) [::] s.

(** permute.rs:24-28: decrement, panic when the element is not in the table. *)
Fixpoint count_dec (x : F) (m : seq (F * nat)) : res (seq (F * nat)) :=
  match m with
  | [::] => Panic PExplicit
  | (y, c) :: m' => if x == y then c' <- usub c 1 ;; Ok ((y, c') :: m')
                    else m'' <- count_dec x m' ;; Ok ((y, c) :: m'')
  end.

(** permute.rs:21-32. State: previous a', permuted table so far, unassigned indices (a stack,
    top first), counts. *)
Record perm_state := PermState {
  ps_prev : option F;
  ps_table : seq F;
  ps_free : seq nat;
  ps_counts : seq (F * nat) }.
(** permute.rs:21-32, one iteration. *)
Definition permute_step (st : perm_state) (ia : nat * F) : res perm_state :=
  let: (index, a) := ia in
  let fresh := match ps_prev st with None => true | Some b => a != b end in
  if fresh then
    m <- count_dec a (ps_counts st) ;;
    Ok (PermState (Some a) (set_nth 0 (ps_table st) index a) (ps_free st) m)
  else
    Ok (PermState (Some a) (ps_table st) (index :: ps_free st) (ps_counts st)).

(** permute.rs:34-39 *)
Fixpoint assign_n (n : nat) (el : F) (st : seq F * seq nat) : res (seq F * seq nat) :=
  match n with
  | 0 => Ok st
  | n'.+1 => match st.2 with
             | [::] => Panic PUnwrap
             | i :: free => assign_n n' el (set_nth 0 st.1 i el, free)
             end
  end.
(** permute.rs:34-39, over all counts. *)
Definition assign_rest (m : seq (F * nat)) (st : seq F * seq nat) : res (seq F * seq nat) :=
  rfoldM (fun st ec => assign_n ec.2 ec.1 st) st m.

(** permute.rs:5-43 *)
Definition permute_for_lookup (a s : seq F) : res (seq F * seq F) :=
  _ <- rassert (size a == size s) ;;
  let a' := sort (fle env) a in
  st <- rfoldM permute_step (PermState None (nseq (size a) 0) [::] (table_counts s))
          (enumerate a') ;;
  '(table, free) <- assign_rest (ps_counts st) (ps_table st, ps_free st) ;;
  _ <- rassert (nilp free) ;;
  Ok (a', table).

(** src/lookup/mod.rs:68 *)
Definition LOOKUP_MINIMAL_SCALING_FACTOR : nat := 4.

(** src/piop/prover.rs:32-44: LookupProverOracles and its verifier counterpart, in order (a, s, a', s'). *)
Record lookup_oracles O := LookupOracles { lo_a : O; lo_s : O; lo_a' : O; lo_s' : O }.

(** The compression loop [for (expr_i, theta_i) in exprs.zip(powers) { agg += expr_i? * theta_i }]
    (src/lookup/mod.rs:166-171, 223-228, 288-293, 326-331, 478-481, 519-523). *)
Definition compress {A} (theta : F) (f : A -> res F) (xs : seq A) : res F :=
  rfoldM (fun agg xt => v <- f xt.1 ;; Ok (agg + v * xt.2)) 0
    (zip xs (powers (size xs) 1 theta)).

(** The table-query closure (src/lookup/mod.rs:261-286, 300-324, 494-517): only fixed table
    oracles are allowed; [q] queries the resolved oracle. *)
Definition table_leaf {P A} (ts : seq (oracle P)) (q : oracle P -> res A) (tq : oquery) : res A :=
  let l := oq_label tq in
  match oq_type tq with
  | Witness => Err (WitnessTableNotAllowed l)
  | Instance => Err (InstanceTableNotAllowed l)
  | Fixed => o <- resolve ts l (MissingFixedOracle l) ;; q o
  end.

(** src/lookup/mod.rs:361-364: blinding values for a' and s', drawn alternately. *)
Fixpoint draw_pairs {Z} (zk_rand : Z -> F * Z) (n : nat) (zk : Z) : seq F * seq F * Z :=
  match n with
  | 0 => ([::], [::], zk)
  | n'.+1 => let: (x, zk1) := zk_rand zk in
             let: (y, zk2) := zk_rand zk1 in
             let: (xs, ys, zk3) := draw_pairs zk_rand n' zk2 in
             (x :: xs, y :: ys, zk3)
  end.

(** src/lookup/mod.rs:70-401 *)
Definition construct_a_and_s_polys_prover {Z} (zk_rand : Z -> F * Z)
    (ws ins fs ts : seq (poracle F)) (usable_rows lookup_index : nat)
    (exprs : seq (expr F oquery)) (table_queries : seq oquery) (theta : F)
    (d ext : domain F) (zk : Z) : res (lookup_oracles (poracle F) * Z) :=
  _ <- rassert (size exprs == size table_queries) ;;
  let row o i r := query_at_omega_in_original_domain o i r in
  let cos o i r := query_in_coset o i r in
  a_evals <- rmapM (fun i => compress theta (fun e => eval_res e
                (query_leaf ws ins fs (fun o => row o i) (fun o => row o i) (fun o => row o i)))
                exprs) (iota 0 (dsize d)) ;;
  a_coset <- rmapM (fun i => compress theta (fun e => eval_res e
                (query_leaf ws ins fs (fun o => cos o i) (fun o => cos o i) (fun o => cos o i)))
                exprs) (iota 0 (dsize ext)) ;;
  let name s := ("lookup_" ++ s ++ show_nat lookup_index ++ "_poly")%string in
  let a_poly := ptrim (ifft d a_evals) in
  _ <- rassert (a_coset == coset_fft env ext a_poly) ;;
  s_evals <- rmapM (fun i => compress theta
                (table_leaf ts (fun o => idx (po_evals o) i)) table_queries)
               (iota 0 (dsize d)) ;;
  s_coset <- rmapM (fun i => compress theta
                (table_leaf ts (fun o => query_in_coset o i curr)) table_queries)
               (iota 0 (dsize ext)) ;;
  let s_poly := ptrim (ifft d s_evals) in
  _ <- rassert (s_coset == coset_fft env ext s_poly) ;;
  a_rows <- slice_to a_evals usable_rows ;;
  s_rows <- slice_to s_evals usable_rows ;;
  '(a1, s1) <- permute_for_lookup a_rows s_rows ;;
  let: (ra, rs, zk') := draw_pairs zk_rand (dsize d - usable_rows) zk in
  let a'_evals := a1 ++ ra in
  let s'_evals := s1 ++ rs in
  _ <- rassert (size a'_evals == dsize d) ;;
  _ <- rassert (size s'_evals == dsize d) ;;
  let a'_poly := ptrim (ifft d a'_evals) in
  let s'_poly := ptrim (ifft d s'_evals) in
  Ok (LookupOracles
        (Oracle (name "a_"%string) [:: curr] (PData Witness a_poly a_evals (Some a_coset) false))
        (Oracle (name "s_"%string) [:: curr] (PData Witness s_poly s_evals (Some s_coset) false))
        (Oracle (name "a_prime_"%string) [:: curr; prev]
           (PData Witness a'_poly a'_evals (Some (coset_fft env ext a'_poly)) false))
        (Oracle (name "s_prime_"%string) [:: curr]
           (PData Witness s'_poly s'_evals (Some (coset_fft env ext s'_poly)) false)),
      zk').

(** subset_equality.rs:45-51 *)
Fixpoint se_rows (a s a' s' : seq F) (beta gamma : F) (rows : seq nat) (z_prev : F)
  : res (seq F) :=
  match rows with
  | [::] => Ok [::]
  | i :: rows' =>
      ai <- idx a i ;; si <- idx s i ;;
      a'i <- idx a' i ;; s'i <- idx s' i ;;
      dinv <- finv ((a'i + beta) * (s'i + gamma)) ;;
      let z := z_prev * ((ai + beta) * (si + gamma) * dinv) in
      zs <- se_rows a s a' s' beta gamma rows' z ;;
      Ok (z :: zs)
  end.

(** subset_equality.rs:30-78 *)
Definition se_construct_agg_poly {Z} (zk_rand : Z -> F * Z)
    (lo : lookup_oracles (poracle F)) (beta gamma : F) (lookup_index u : nat)
    (d ext : domain F) (zk : Z) : res (poracle F * Z) :=
  zs <- se_rows (po_evals (lo_a lo)) (po_evals (lo_s lo)) (po_evals (lo_a' lo))
          (po_evals (lo_s' lo)) beta gamma (iota 0 u) 1 ;;
  zu <- idx (1 :: zs) u ;;
  _ <- rassert (zu == 1) ;;
  t1 <- usub (dsize d) 1 ;;
  t <- usub t1 u ;;
  let: (blind, zk') := draw_n zk_rand t zk in
  let z_evals := (1 :: zs) ++ blind in
  let poly := ptrim (ifft d z_evals) in
  Ok (Oracle ("lookup_" ++ show_nat lookup_index ++ "_agg_poly")%string [:: curr; next]
        (PData Witness poly z_evals (Some (coset_fft env ext poly)) false), zk').

(** subset_equality.rs:84-133 *)
Definition se_instantiate (l0_coset q_last_coset : seq F) (q_blind : poracle F)
    (lo : lookup_oracles (poracle F)) (z : poracle F) (beta gamma : F) (i : nat)
    (alphas : seq F) : res F :=
  _ <- rassert (size alphas == 3%N) ;;
  a <- query_in_coset (lo_a lo) i curr ;;
  a' <- query_in_coset (lo_a' lo) i curr ;;
  s <- query_in_coset (lo_s lo) i curr ;;
  s' <- query_in_coset (lo_s' lo) i curr ;;
  zx <- query_in_coset z i curr ;;
  zwx <- query_in_coset z i next ;;
  qb <- query_in_coset q_blind i curr ;;
  al0 <- idx alphas 0 ;;
  l0 <- idx l0_coset i ;;
  ql <- idx q_last_coset i ;;
  al1 <- idx alphas 1 ;;
  al2 <- idx alphas 2 ;;
  let zk_part := 1 - (qb + ql) in
  let lhs := zwx * (a' + beta) * (s' + gamma) in
  let rhs := zx * (a + beta) * (s + gamma) in
  Ok (0 + al0 * l0 * (1 - zx) + al1 * (zk_part * (lhs - rhs)) + al2 * ql * (zx * zx - zx)).

(** src/lookup/mod.rs:536-592 *)
Definition lookup_instantiate (l0_coset q_last_coset : seq F) (q_blind : poracle F)
    (lo : lookup_oracles (poracle F)) (z : poracle F) (beta gamma : F) (i : nat)
    (alphas : seq F) : res F :=
  _ <- rassert (size alphas == 5%N) ;;
  e <- se_instantiate l0_coset q_last_coset q_blind lo z beta gamma i (take 3 alphas) ;;
  a' <- query_in_coset (lo_a' lo) i curr ;;
  a'p <- query_in_coset (lo_a' lo) i prev ;;
  s' <- query_in_coset (lo_s' lo) i curr ;;
  qb <- query_in_coset q_blind i curr ;;
  al3 <- idx alphas 3 ;;
  l0 <- idx l0_coset i ;;
  ql <- idx q_last_coset i ;;
  al4 <- idx alphas 4 ;;
  let zk_part := 1 - (ql + qb) in
  Ok (0 + e + al3 * l0 * (a' - s') + al4 * zk_part * (a' - s') * (a' - a'p)).

Section Open.
Variable C : Type.

(** src/lookup/mod.rs:404-534. The rotation of instance and fixed queries, and of table
    queries, is not used. *)
Definition construct_a_and_s_verifier
    (ws : seq (voracle F C)) (ins : seq (ioracle F)) (fs ts : seq (voracle F C))
    (lookup_index : nat) (exprs : seq (expr F oquery)) (table_queries : seq oquery)
    (theta xi : F) (omegas : seq F) : res (voracle F C * voracle F C) :=
  _ <- rassert (size exprs == size table_queries) ;;
  agg_a <- compress theta (fun e => eval_res e (fun q =>
             match oq_type q with
             | Witness =>
                 p <- compute_evaluation_point (oq_rot q) xi omegas ;;
                 o <- resolve ws (oq_label q) (MissingWitnessOracle (oq_label q)) ;;
                 vo_query o p
             | Instance =>
                 o <- resolve ins (oq_label q) (MissingInstanceOracle (oq_label q)) ;;
                 io_query o xi
             | Fixed =>
                 o <- resolve fs (oq_label q) (MissingFixedOracle (oq_label q)) ;;
                 vo_query o xi
             end)) exprs ;;
  agg_s <- compress theta (table_leaf ts (fun o => vo_query o xi)) table_queries ;;
  let name s := ("lookup_" ++ s ++ show_nat lookup_index ++ "_poly")%string in
  Ok (Oracle (name "a_"%string) [:: curr] (@VData F C Witness [:: (xi, agg_a)] None false),
      Oracle (name "s_"%string) [:: curr] (@VData F C Witness [:: (xi, agg_s)] None false)).

(** subset_equality.rs:135-175 *)
Definition se_open (l0 q_last : F) (q_blind : voracle F C) (lo : lookup_oracles (voracle F C))
    (z : voracle F C) (beta gamma xi : F) (d : domain F) (alphas : seq F) : res F :=
  _ <- rassert (size alphas == 3%N) ;;
  a <- vo_query (lo_a lo) xi ;;
  a' <- vo_query (lo_a' lo) xi ;;
  s <- vo_query (lo_s lo) xi ;;
  s' <- vo_query (lo_s' lo) xi ;;
  zx <- vo_query z xi ;;
  zwx <- vo_query z (element d 1 * xi) ;;
  al0 <- idx alphas 0 ;;
  qb <- vo_query q_blind xi ;;
  al1 <- idx alphas 1 ;;
  al2 <- idx alphas 2 ;;
  let zk_part := 1 - (q_last + qb) in
  let lhs := zwx * (a' + beta) * (s' + gamma) in
  let rhs := zx * (a + beta) * (s + gamma) in
  Ok (0 + al0 * l0 * (1 - zx) + al1 * zk_part * (lhs - rhs) + al2 * q_last * (zx * zx - zx)).

(** src/lookup/mod.rs:594-647 *)
Definition lookup_open (l0 q_last : F) (q_blind : voracle F C) (lo : lookup_oracles (voracle F C))
    (z : voracle F C) (beta gamma xi : F) (d : domain F) (alphas : seq F) : res F :=
  _ <- rassert (size alphas == 5%N) ;;
  e <- se_open l0 q_last q_blind lo z beta gamma xi d (take 3 alphas) ;;
  winv <- finv (element d 1) ;;
  a' <- vo_query (lo_a' lo) xi ;;
  a'p <- vo_query (lo_a' lo) (winv * xi) ;;
  s' <- vo_query (lo_s' lo) xi ;;
  qb <- vo_query q_blind xi ;;
  al3 <- idx alphas 3 ;;
  al4 <- idx alphas 4 ;;
  let zk_part := 1 - (q_last + qb) in
  Ok (0 + e + al3 * l0 * (a' - s') + al4 * zk_part * (a' - s') * (a' - a'p)).
End Open.
End Lookup.
