(** Model of src/permutation/mod.rs and src/permutation/grand_product.rs. Definitions only. *)
From mathcomp Require Import all_ssreflect all_algebra.
From Coq Require Import String.
From Verif Require Import Base ModelPoly ModelVO ModelOracle.

Set Implicit Arguments.
Unset Strict Implicit.
Unset Printing Implicit Defensive.

Import GRing.Theory.
Local Open Scope ring_scope.

Section Permutation.
Variable F : fieldType.
Variable env : fenv F.

(** src/data_structures.rs:19-24 *)
Record permutation_info := PermutationInfo { pi_u : nat; pi_deltas : seq F }.
(** src/data_structures.rs:28-33 and 37-42 (the two functions have the same body). *)
Definition permutation_info_empty := PermutationInfo 0 [::].
(** src/data_structures.rs:37-42 *)
Definition permutation_info_dummy := PermutationInfo 0 [::].

(** src/permutation/mod.rs:20-25 *)
Record permutation_argument := PermutationArgument {
  pa_max_cols : nat;
  pa_usable_rows : nat;
  pa_deltas : seq F }.

(** src/permutation/mod.rs:46 *)
Definition PERM_MINIMAL_SCALING_FACTOR : nat := 2.

(** src/permutation/mod.rs:48-60 *)
Definition perm_new (scaling_factor : nat) (info : permutation_info) : res permutation_argument :=
  max_cols <- usub scaling_factor 1 ;;
  Ok (PermutationArgument max_cols (pi_u info) (pi_deltas info)).

(** src/permutation/mod.rs:62-73 *)
Definition number_of_z_polys (pa : permutation_argument) (k : nat) : res nat :=
  if k == 0%N then Ok 0%N
  else
    q <- udiv k (pa_max_cols pa) ;;
    r <- umod k (pa_max_cols pa) ;;
    Ok (if r != 0%N then q.+1 else q).

(** src/permutation/mod.rs:75-84 *)
Definition number_of_alphas (num_of_z_polys : nat) : nat := (2 * num_of_z_polys + 1 + 1 - 1)%N.

(** grand_product.rs:60-67: the products of one row, over the columns of a chunk. *)
Definition gp_row (ws ss : seq (seq F)) (ds : seq F) (beta gamma x : F) (i : nat)
  : res (F * F) :=
  rfoldM (fun acc col =>
            w <- idx col.1.1 i ;;
            s <- idx col.1.2 i ;;
            Ok (acc.1 * (w + beta * col.2 * x + gamma),
                acc.2 * (w + beta * s + gamma)))
    (1, 1) (zip (zip ws ss) ds).

(** grand_product.rs:59-71 *)
Fixpoint gp_rows (d : domain F) (ws ss : seq (seq F)) (ds : seq F) (beta gamma : F)
    (rows : seq nat) (z_prev : F) : res (seq F) :=
  match rows with
  | [::] => Ok [::]
  | i :: rows' =>
      '(nom, denom) <- gp_row ws ss ds beta gamma (element d i) i ;;
      dinv <- finv denom ;;
      let z := z_prev * (nom * dinv) in
      zs <- gp_rows d ws ss ds beta gamma rows' z ;;
      Ok (z :: zs)
  end.

(** grand_product.rs:32-104 *)
Definition gp_construct_agg_poly {Z} (zk_rand : Z -> F * Z)
    (chunk_index : nat) (is_last : bool) (init_value : F)
    (sigmas ws : seq (poracle F)) (deltas : seq F) (beta gamma : F) (u : nat)
    (d ext : domain F) (zk : Z) : res (poracle F * Z) :=
  zs <- gp_rows d (map (@po_evals F) ws) (map (@po_evals F) sigmas) deltas beta gamma
          (iota 0 u) init_value ;;
  t1 <- usub (dsize d) 1 ;;
  t <- usub t1 u ;;
  let: (blind, zk') := draw_n zk_rand t zk in
  let z_evals := (init_value :: zs) ++ blind in
  _ <- rassert (size z_evals == dsize d) ;;
  let z_poly := ptrim (ifft d z_evals) in
  let rots := if is_last then [:: curr; next]
              else sinsert rot_lt (u, Plus) [:: curr; next] in
  Ok (Oracle ("agg_permutation_" ++ show_nat chunk_index)%string rots
        (PData Witness z_poly z_evals (Some (coset_fft env ext z_poly)) false), zk').

(** permutation/mod.rs:109-138. [prev] is the polynomial built by the previous iteration.
    The three chunk lists have equal length (checked before), so [i == num_of_chunks - 1]
    means that no chunk is left. *)
Fixpoint construct_agg_polys_loop {Z} (zk_rand : Z -> F * Z) (pa : permutation_argument)
    (beta gamma : F) (d ext : domain F)
    (i : nat) (prev : option (poracle F))
    (cs : seq (seq (poracle F) * seq (poracle F) * seq F)) (zk : Z)
  : res (seq (poracle F) * Z) :=
  match cs with
  | [::] => Ok ([::], zk)
  | (ws, ss, ds) :: cs' =>
      init <- (match prev with
               | None => Ok 1
               | Some z => idx (po_evals z) (pa_usable_rows pa)
               end) ;;
      '(z, zk1) <- gp_construct_agg_poly zk_rand i (nilp cs') init ss ws ds beta gamma
                     (pa_usable_rows pa) d ext zk ;;
      '(zs, zk2) <- construct_agg_polys_loop zk_rand pa beta gamma d ext i.+1 (Some z) cs' zk1 ;;
      Ok (z :: zs, zk2)
  end.

(** permutation/mod.rs:87-144 *)
Definition construct_agg_polys {Z} (zk_rand : Z -> F * Z) (pa : permutation_argument)
    (ws sigmas : seq (poracle F)) (beta gamma : F) (d ext : domain F) (zk : Z)
  : res (seq (poracle F) * Z) :=
  _ <- rassert (size ws == size sigmas) ;;
  _ <- rassert (size ws == size (pa_deltas pa)) ;;
  wc <- chunksR (pa_max_cols pa) ws ;;
  sc <- chunksR (pa_max_cols pa) sigmas ;;
  dc <- chunksR (pa_max_cols pa) (pa_deltas pa) ;;
  '(zs, zk') <- construct_agg_polys_loop zk_rand pa beta gamma d ext 0 None
                  (zip (zip wc sc) dc) zk ;;
  z_last <- last_unwrap zs ;;
  e <- idx (po_evals z_last) (pa_usable_rows pa) ;;
  _ <- rassert (e == 1) ;;
  Ok (zs, zk').

(** grand_product.rs:107-144 and 146-177 share one shape: [q x] queries oracle [x] at the
    current point, [zc], [zn] are z at the current and at the next point, [x] is the point the
    identity permutation is evaluated at. Queries happen in the order of the Rust code. *)
Definition gp_expr {O1 O2} (q_last : F) (q_blind : res F) (zn zc : res F)
    (qw : O1 -> res F) (qs : O2 -> res F)
    (sigmas : seq O2) (ws : seq O1) (ds : seq F) (beta gamma x : F) : res F :=
  qb <- q_blind ;;
  let zk_part := 1 - (q_last + qb) in
  lhs0 <- zn ;;
  rhs0 <- zc ;;
  '(lhs, rhs) <- rfoldM (fun acc col =>
      w <- qw col.1.1 ;;
      s <- qs col.1.2 ;;
      Ok (acc.1 * (w + beta * s + gamma),
          acc.2 * (w + beta * col.2 * x + gamma)))
    (lhs0, rhs0) (zip (zip ws sigmas) ds) ;;
  Ok (zk_part * (lhs - rhs)).

(** grand_product.rs:107-144 *)
Definition gp_instantiate (q_last_coset : seq F) (q_blind z : poracle F)
    (sigmas ws : seq (poracle F)) (ds : seq F) (beta gamma omega : F) (i : nat) : res F :=
  ql <- idx q_last_coset i ;;
  gp_expr ql (query_in_coset q_blind i curr)
    (query_in_coset z i next) (query_in_coset z i curr)
    (fun o => query_in_coset o i curr) (fun o => query_in_coset o i curr)
    sigmas ws ds beta gamma (mult_gen env * omega).

(** permutation/mod.rs:154-242 *)
Definition perm_instantiate (pa : permutation_argument)
    (l0_coset q_last_coset : seq F) (q_blind : poracle F) (ws sigmas aggs : seq (poracle F))
    (i : nat) (omega beta gamma : F) (alphas : seq F) : res F :=
  _ <- rassert (size ws == size sigmas) ;;
  _ <- rassert (size ws == size (pa_deltas pa)) ;;
  wc <- chunksR (pa_max_cols pa) ws ;;
  sc <- chunksR (pa_max_cols pa) sigmas ;;
  dc <- chunksR (pa_max_cols pa) (pa_deltas pa) ;;
  _ <- rassert (size wc == size sc) ;;
  _ <- rassert (size wc == size dc) ;;
  _ <- rassert (size aggs == size wc) ;;
  _ <- rassert (number_of_alphas (size aggs) == size alphas) ;;
  a0 <- idx alphas 0 ;;
  l0 <- idx l0_coset i ;;
  z0 <- idx aggs 0 ;;
  z0e <- query_in_coset z0 i curr ;;
  let e0 := a0 * l0 * (1 - z0e) in
  e1 <- rfoldM (fun acc kc =>
          let: (k, (w, s, ds)) := kc in
          a <- idx alphas (k + 1) ;;
          z <- idx aggs k ;;
          g <- gp_instantiate q_last_coset q_blind z s w ds beta gamma omega i ;;
          Ok (acc + a * g)) e0 (enumerate (zip (zip wc sc) dc)) ;;
  m <- usub (size aggs) 1 ;;
  e2 <- rfoldM (fun acc k =>
          a <- idx alphas (k + (1 + size aggs)) ;;
          zk1 <- idx aggs k.+1 ;;
          x <- query_in_coset zk1 i curr ;;
          zk <- idx aggs k ;;
          y <- query_in_coset zk i (pa_usable_rows pa, Plus) ;;
          Ok (acc + a * l0 * (x - y))) e1 (iota 0 m) ;;
  zl <- last_unwrap aggs ;;
  zle <- query_in_coset zl i curr ;;
  al <- last_unwrap alphas ;;
  ql <- idx q_last_coset i ;;
  Ok (e2 + al * ql * (zle * zle - zle)).

Section Open.
Variable C : Type.

(** grand_product.rs:146-177 *)
Definition gp_open (q_last : F) (q_blind z : voracle F C) (sigmas ws : seq (voracle F C))
    (ds : seq F) (beta gamma : F) (d : domain F) (xi : F) : res F :=
  gp_expr q_last (vo_query q_blind xi)
    (vo_query z (element d 1 * xi)) (vo_query z xi)
    (fun o => vo_query o xi) (fun o => vo_query o xi)
    sigmas ws ds beta gamma xi.

(** permutation/mod.rs:245-325 *)
Definition perm_open (pa : permutation_argument) (l0 q_last : F) (q_blind : voracle F C)
    (aggs sigmas ws : seq (voracle F C)) (beta gamma : F) (d : domain F) (xi : F)
    (alphas : seq F) : res F :=
  _ <- rassert (size ws == size sigmas) ;;
  _ <- rassert (size ws == size (pa_deltas pa)) ;;
  wc <- chunksR (pa_max_cols pa) ws ;;
  sc <- chunksR (pa_max_cols pa) sigmas ;;
  dc <- chunksR (pa_max_cols pa) (pa_deltas pa) ;;
  _ <- rassert (size wc == size sc) ;;
  _ <- rassert (size wc == size dc) ;;
  _ <- rassert (size aggs == size wc) ;;
  _ <- rassert (number_of_alphas (size aggs) == size alphas) ;;
  a0 <- idx alphas 0 ;;
  z0 <- idx aggs 0 ;;
  z0e <- vo_query z0 xi ;;
  let e0 := a0 * l0 * (1 - z0e) in
  e1 <- rfoldM (fun acc kc =>
          let: (k, (w, s, ds)) := kc in
          a <- idx alphas (k + 1) ;;
          z <- idx aggs k ;;
          g <- gp_open q_last q_blind z s w ds beta gamma d xi ;;
          Ok (acc + a * g)) e0 (enumerate (zip (zip wc sc) dc)) ;;
  m <- usub (size aggs) 1 ;;
  e2 <- rfoldM (fun acc k =>
          a <- idx alphas (k + (1 + size aggs)) ;;
          zk1 <- idx aggs k.+1 ;;
          x <- vo_query zk1 xi ;;
          zk <- idx aggs k ;;
          y <- vo_query zk (element d (pa_usable_rows pa) * xi) ;;
          Ok (acc + a * l0 * (x - y))) e1 (iota 0 m) ;;
  zl <- last_unwrap aggs ;;
  zle <- vo_query zl xi ;;
  al <- last_unwrap alphas ;;
  Ok (e2 + al * q_last * (zle * zle - zle)).
End Open.
End Permutation.
