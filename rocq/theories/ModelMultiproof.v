(** Model of src/multiproof: poly.rs, piop/prover.rs, piop/verifier.rs, piop/mod.rs.
    Definitions only. *)
From mathcomp Require Import all_ssreflect all_algebra.
From Verif Require Import Base ModelPoly ModelVO ModelOracle ModelPC.

Set Implicit Arguments.
Unset Strict Implicit.
Unset Printing Implicit Defensive.

Import GRing.Theory.
Local Open Scope ring_scope.

Section Poly.
Variable F : fieldType.

(** src/multiproof/poly.rs:9-24, one basis polynomial: [others] are the points with another
    index, in order. *)
Definition lagrange_basis_one (x_i : F) (others : seq F) : res (lpoly F) :=
  rfoldM (fun l_i elem =>
            let nom := ptrim [:: - elem; 1] in
            inv <- finv (x_i - elem) ;;
            Ok (pmul l_i (pscale inv nom))) (ptrim [:: 1]) others.
(** src/multiproof/poly.rs:8-26, for each point in turn. *)
Fixpoint lagrange_basis_from (before points : seq F) : res (seq (lpoly F)) :=
  match points with
  | [::] => Ok [::]
  | x :: rest =>
      l <- lagrange_basis_one x (before ++ rest) ;;
      ls <- lagrange_basis_from (rcons before x) rest ;;
      Ok (l :: ls)
  end.
(** src/multiproof/poly.rs:5-27 *)
Definition construct_lagrange_basis (points : seq F) : res (seq (lpoly F)) :=
  lagrange_basis_from [::] points.

(** src/multiproof/poly.rs:29-39 *)
Definition construct_vanishing (points : seq F) : lpoly F :=
  foldl (fun v p => pmul v (ptrim [:: - p; 1])) (ptrim [:: 1]) points.
End Poly.

(** Order of [BTreeSet<Rotation>] keys (src/multiproof/piop/prover.rs:46-58): lexicographic on the sorted elements. *)
Fixpoint rots_lt (a b : seq rotation) : bool :=
  match a, b with
  | [::], [::] => false
  | [::], _ => true
  | _, [::] => false
  | x :: a', y :: b' => rot_lt x y || ((x == y) && rots_lt a' b')
  end.

(** [opening_sets.entry(key).or_default().push(v)], a BTreeMap as a list sorted by key:
    src/multiproof/piop/prover.rs:46-58, src/multiproof/piop/mod.rs:156-167. *)
Fixpoint oset_add {V} (k : seq rotation) (v : V) (m : seq (seq rotation * seq V))
  : seq (seq rotation * seq V) :=
  match m with
  | [::] => [:: (k, [:: v])]
  | (k', vs) :: m' => if k == k' then (k', rcons vs v) :: m'
                      else if rots_lt k k' then (k, [:: v]) :: m
                      else (k', vs) :: oset_add k v m'
  end.
(** src/multiproof/piop/prover.rs:46-58, src/multiproof/piop/mod.rs:156-167. *)
Definition opening_sets {V} (key : V -> seq rotation) (vs : seq V)
  : seq (seq rotation * seq V) :=
  foldl (fun m v => oset_add (key v) v m) [::] vs.

Section Multiopen.
Variables (F : fieldType) (env : fenv F) (PC : pcs F) (FS : fsrng F).

(** src/multiproof/mod.rs:17-23 *)
Record mo_proof := MoProof {
  mp_q_evals : seq F;
  mp_f_commit : pc_com PC;
  mp_opening : pc_proof PC }.

(** The evaluations of the batched polynomial at the rotated points, one (point, value) per
    rotation: src/multiproof/piop/prover.rs:98-116 and src/multiproof/piop/mod.rs:189-209. [query] queries
    one oracle; [dup] is the outcome when two rotations give the same point.
    Simplification: the BTreeMap<F, F> keeps insertion order here; its consumers (vanishing
    and interpolation polynomials) do not depend on the order. *)
Fixpoint batched_evals {O} (query : O -> F -> res F) (dup : rotation -> res (seq (F * F)))
    (omegas : seq F) (xi : F) (pows : seq F) (os : seq O)
    (rots : seq rotation) (acc : seq (F * F)) : res (seq (F * F)) :=
  match rots with
  | [::] => Ok acc
  | r :: rots' =>
      pt <- compute_evaluation_point r xi omegas ;;
      ev <- rfoldM (fun e ox => v <- query ox.1 pt ;; Ok (e + ox.2 * v)) 0 (zip os pows) ;;
      if pt \in map fst acc then dup r
      else batched_evals query dup omegas xi pows os rots' (rcons acc (pt, ev))
  end.

(** src/multiproof/piop/prover.rs:85-119. [x1_powers[i]] is always in range since an opening
    set has at most as many members as there are oracles. *)
Definition mo_prover_item (pows omegas : seq F) (xi : F)
    (s : seq rotation * seq (poracle F * pc_rand PC))
  : res (lpoly F * pc_rand PC * seq (F * F)) :=
  let: (rots, os) := s in
  let q := foldl (fun q ox => padd q (pscale ox.2 (po_poly ox.1.1))) [::] (zip os pows) in
  let r := foldl (fun r ox => pc_add_rand r (pc_scale_rand ox.1.2 ox.2)) (pc_empty PC)
             (zip os pows) in
  evs <- batched_evals (@po_query F) (fun rot => Err (RepeatedRotation rot.1 rot.2))
           omegas xi pows (map fst os) rots [::] ;;
  Ok (q, r, evs).

(** src/multiproof/piop/prover.rs:145-165 *)
Definition mo_f_poly (item : lpoly F * pc_rand PC * seq (F * F)) : res (lpoly F) :=
  pdiv item.1.1 (construct_vanishing (map fst item.2)).

(** src/multiproof/piop/mod.rs:61-129 with src/multiproof/piop/prover.rs:41-242 and src/multiproof/piop/verifier.rs:40-76. *)
Definition mo_prove (ck : pc_ck PC) (oracles : seq (poracle F)) (rands : seq (pc_rand PC))
    (xi : F) (domain_size : nat) (fs : fs_state FS) (zk : pc_zk PC)
  : res (mo_proof * fs_state FS * pc_zk PC) :=
  let: (x1, fs) := fs_rand fs in
  let: (x2, fs) := fs_rand fs in
  let sets := opening_sets (fun or => o_rots or.1) (zip oracles rands) in
  d <- opt_unwrap (domain_new env domain_size) ;;
  let pows := powers (size oracles) 1 x1 in
  items <- rmapM (mo_prover_item pows (elements d) xi) sets ;;
  f_polys <- rmapM mo_f_poly items ;;
  let f_agg := foldl (fun f fx => padd f (pscale fx.2 fx.1)) [::]
                 (zip f_polys (powers (size f_polys) 1 x2)) in
  '(fcs, frs, zk) <- commit_all ck [:: (f_agg, Some 1%N)] zk ;;
  f_rand <- idx frs 0 ;;
  let fs := fs_absorb fs (coms_bytes fcs) in
  let: (x3, fs) := fs_rand fs in
  let q_evals := [seq peval it.1.1 x3 | it <- items] in
  let fs := fs_absorb fs (fs_bytes PC q_evals) in
  let: (x4, fs) := fs_rand fs in
  let x4_powers := powers (size items) x4 x4 in
  let final_poly := foldl (fun f ix => padd f (pscale ix.2 ix.1.1.1)) f_agg
                      (zip items x4_powers) in
  let final_rand := foldl (fun r ix => pc_add_rand r (pc_scale_rand ix.1.1.2 ix.2)) f_rand
                      (zip items x4_powers) in
  _ <- pc_commit1 ck final_poly (pc_empty PC) ;;
  opening <- pc_open ck final_poly x3 final_rand ;;
  f_commit <- idx fcs 0 ;;
  Ok (MoProof q_evals f_commit opening, fs, zk).

(** src/multiproof/piop/mod.rs:177-212 *)
Definition mo_verifier_item (pows omegas : seq F) (xi : F)
    (s : seq rotation * seq (voracle F (pc_com PC)))
  : res (pc_com PC * seq (F * F)) :=
  let: (rots, os) := s in
  q <- rfoldM (fun q ox => c <- get_commitment ox.1 ;; Ok (pc_add q (pc_scale c ox.2)))
         (pc_zero PC) (zip os pows) ;;
  evs <- batched_evals (@vo_query F (pc_com PC)) (fun _ => Panic PExplicit)
           omegas xi pows os rots [::] ;;
  Ok (q, evs).

(** src/multiproof/piop/mod.rs:218-236 *)
Definition mo_f_eval (x3 : F) (evs : seq (F * F)) (q_eval : F) : res F :=
  let z_h := construct_vanishing (map fst evs) in
  bases <- construct_lagrange_basis (map fst evs) ;;
  let r_poly := foldl (fun r lv => padd r (pscale lv.2 lv.1)) [::] (zip bases (map snd evs)) in
  zinv <- finv (peval z_h x3) ;;
  Ok ((q_eval - peval r_poly x3) * zinv).

(** src/multiproof/piop/mod.rs:215-237 (and the same zip at 258-259): the lazy iterator [qs] is
    zipped with [proof.q_evals]. The iteration stops at the shorter one; the next element of
    [qs] is computed before the end of [q_evals] is noticed, so a panic in it still happens
    while an error in it is dropped. *)
Fixpoint mo_zip (pows omegas : seq F) (xi x3 : F)
    (sets : seq (seq rotation * seq (voracle F (pc_com PC)))) (q_evals : seq F)
  : res (seq (pc_com PC * F * F)) :=
  match sets, q_evals with
  | [::], _ => Ok [::]
  | s :: _, [::] =>
      match mo_verifier_item pows omegas xi s with Panic p => Panic p | _ => Ok [::] end
  | s :: sets', qe :: q_evals' =>
      '(q, evs) <- mo_verifier_item pows omegas xi s ;;
      fe <- mo_f_eval x3 evs qe ;;
      rest <- mo_zip pows omegas xi x3 sets' q_evals' ;;
      Ok ((q, fe, qe) :: rest)
  end.

(** src/multiproof/piop/mod.rs:132-289 *)
Definition mo_verify (vk : pc_vk PC) (proof : mo_proof) (oracles : seq (voracle F (pc_com PC)))
    (xi : F) (domain_size : nat) (fs : fs_state FS) : res unit :=
  d <- opt_unwrap (domain_new env domain_size) ;;
  let: (x1, fs) := fs_rand fs in
  let: (x2, fs) := fs_rand fs in
  let fs := fs_absorb fs (pc_bytes (mp_f_commit proof)) in
  let: (x3, fs) := fs_rand fs in
  let fs := fs_absorb fs (fs_bytes PC (mp_q_evals proof)) in
  let: (x4, fs) := fs_rand fs in
  let sets := opening_sets (fun o => o_rots o) oracles in
  let pows := powers (size oracles) 1 x1 in
  items <- mo_zip pows (elements d) xi x3 sets (mp_q_evals proof) ;;
  let x2_powers := powers (size oracles) 1 x2 in
  let x4_powers := powers (size (mp_q_evals proof)) x4 x4 in
  let e0 := foldl (fun e ix => e + ix.2 * ix.1.1.2) 0 (zip items x2_powers) in
  let fin := foldl (fun ce ix => (pc_add ce.1 (pc_scale ix.1.1.1 ix.2), ce.2 + ix.2 * ix.1.2))
               (mp_f_commit proof, e0) (zip items x4_powers) in
  b <- pc_check vk fin.1 x3 fin.2 (mp_opening proof) ;;
  if b then Ok tt else Err OpeningCheckFailed.
End Multiopen.
