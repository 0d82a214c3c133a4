(** Specification for soundness: the verifier's inputs, what it is entitled to assume about them, and
    the polynomials a prover is bound to by its commitments. *)
From mathcomp Require Import all_ssreflect all_algebra.
From Coq Require Import String.
From Verif Require Import Base ModelPoly ModelVO ModelOracle ModelPC ModelPermutation ModelLookup ModelIndexer
  ModelMultiproof ModelProtocol Spec SpecProtocol SpecPIOP SpecMultiopen.

Set Implicit Arguments.
Unset Strict Implicit.
Unset Printing Implicit Defensive.

Import GRing.Theory.
Local Open Scope ring_scope.

Section Sound.
Variables (F : fieldType) (PC : pcs F).
Notation com := (pc_com PC).

(** Everything verify takes besides the proof. *)
Record vinput := VInput {
  s_vk : verifier_key F;
  s_pre : verifier_pre PC;
  s_ws : seq (voracle F com);
  s_ins : seq (ioracle F);
  s_vos : seq (generic_vo F);
  s_d : domain F;
  s_zh : lpoly F }.
Definition s_perm (S : vinput) : permutation_argument F := ix_perm (vk_index (s_vk S)).
Definition s_lookups (S : vinput) : seq (generic_lookup_vo F) := ix_lookups (vk_index (s_vk S)).
Definition verdict (env : fenv F) (FS : fsrng F) (pvk : pc_vk PC) (S : vinput) (pf : tp_proof PC) : res unit :=
  (tp_verify env FS pvk (s_vk S) (s_pre S) pf (s_ws S) (s_ins S) (s_vos S) (dsize (s_d S)) (s_zh S)).1.

(** A lookup whose expressions and tables the verifier can evaluate from what is opened. *)
Definition readable (S : vinput) (l : generic_lookup_vo F) : Prop :=
  exists es tqs, [/\ gl_get_expressions l = Ok es, gl_get_table_queries l = Ok tqs, size es = size tqs,
    exprs_ok (s_ws S) (s_ins S) (vp_fixed (s_pre S)) (dsize (s_d S)) es /\ exprs_declared (s_ws S) (vp_fixed (s_pre S)) es &
    [/\ table_queries_ok (vp_table (s_pre S)) tqs, tables_declared (vp_table (s_pre S)) tqs &
        forall e q, occurs e es -> occurs q (leaves e) -> oq_type q <> Witness -> oq_rot q = curr]].

(** The circuit as the verifier knows it is well formed: distinct labels, rotations within the table,
    all preprocessed columns committed to, permutation and blinding columns opened at the unrotated point only,
    copied columns there too, gates [es] and lookups readable, and as many permutation columns as copied columns. *)
Record verifiable (S : vinput) (es : seq (expr F oquery)) : Prop := Verifiable {
  rd_labels : [/\ uniq (map (@o_label _) (s_ws S)), uniq (map (@o_label _) (s_ins S)),
    uniq (map (@o_label _) (vp_fixed (s_pre S))) & uniq (map (@o_label _) (vp_table (s_pre S)))];
  rd_rots : [/\ rots_below (s_ws S) (dsize (s_d S)), rots_below (vp_fixed (s_pre S)) (dsize (s_d S)) &
    rots_below (vp_table (s_pre S)) (dsize (s_d S))];
  rd_flat : forall v, occurs v (vp_perm (s_pre S) ++ [:: vp_q_blind (s_pre S)]) -> o_rots v = [:: curr];
  rd_copied : forall v, occurs v (s_ws S) -> vd_permute (o_data v) -> curr \in o_rots v;
  rd_committed : forall v, occurs v (vp_fixed (s_pre S) ++ vp_table (s_pre S) ++ vp_perm (s_pre S) ++ [:: vp_q_blind (s_pre S)]) ->
    exists c, get_commitment v = Ok c;
  rd_gates : [/\ (0 < size (s_vos S))%N, map (@gv_get_expression F) (s_vos S) = map Ok es,
    exprs_ok (s_ws S) (s_ins S) (vp_fixed (s_pre S)) (dsize (s_d S)) es & exprs_declared (s_ws S) (vp_fixed (s_pre S)) es];
  rd_lookups : forall l, occurs l (s_lookups S) -> readable S l;
  rd_rows : (1 < dsize (s_d S))%N /\ (pa_usable_rows (s_perm S) < dsize (s_d S))%N;
  rd_perm : let K := size [seq v <- s_ws S | vd_permute (o_data v)] in
    K <> 0%N -> [/\ (0 < pa_max_cols (s_perm S))%N, size (vp_perm (s_pre S)) = K & size (pa_deltas (s_perm S)) = K];
  rd_usable : [\/ (0 < pa_usable_rows (s_perm S))%N, [seq v <- s_ws S | vd_permute (o_data v)] = [::] | s_lookups S = [::]] }.

(** ** What the prover is bound to *)
Section Committed.
Variable op : com -> {poly F}.
(** The column over [d] with the polynomial [p]. *)
Definition column (d : domain F) (l : label) (rots : seq rotation) (p : lpoly F) (copied : bool) : poracle F :=
  Oracle l rots (PData Witness p [seq peval p (element d i) | i <- iota 0 (dsize d)] None copied).
Definition committed (d : domain F) (v : voracle F com) : poracle F :=
  column d (o_label v) (o_rots v) (op (ok_or (pc_zero PC) (get_commitment v))) (vd_permute (o_data v)).
Definition unnamed (d : domain F) (c : com) : poracle F := column d ""%string [::] (op c) false.
Definition public_input (d : domain F) (o : ioracle F) : poracle F := column d (o_label o) (o_rots o) (o_data o) false.

(** The commitments of a proof that come before alpha: witness [W], permuted lookup columns [L] (two
    for each lookup), permutation products [Z] and lookup products [LZ]. *)
Record commitments := Commitments { cm_w : seq com; cm_l : seq com; cm_z : seq com; cm_lz : seq com }.
Definition bound_ws (S : vinput) (W : seq com) : seq (poracle F) := map (committed (s_d S)) (register_commitments (s_ws S) W).
Definition bound_ins (S : vinput) : seq (poracle F) := map (public_input (s_d S)) (s_ins S).
Definition bound_fs (S : vinput) : seq (poracle F) := map (committed (s_d S)) (vp_fixed (s_pre S)).
Definition bound_ts (S : vinput) : seq (poracle F) := map (committed (s_d S)) (vp_table (s_pre S)).
(** The compressed columns of a lookup. *)
Definition bound_a (S : vinput) (theta : F) (W : seq com) (l : generic_lookup_vo F) : {poly F} :=
  lookup_poly (bound_ws S W) (bound_ins S) (bound_fs S) (dgen (s_d S)) (ok_or [::] (gl_get_expressions l)) theta.
Definition bound_s (S : vinput) (theta : F) (l : generic_lookup_vo F) : {poly F} :=
  compressed theta%:P [seq Poly (poly_named (bound_ts S) (oq_label q)) | q <- ok_or [::] (gl_get_table_queries l)].
Definition bound (S : vinput) (theta : F) (cm : commitments) : assignment F :=
  Assignment (bound_ws S (cm_w cm)) (bound_ins S) (bound_fs S) (committed (s_d S) (vp_q_blind (s_pre S)))
    (map (committed (s_d S)) (vp_perm (s_pre S))) (map (unnamed (s_d S)) (cm_z cm))
    [seq LookupOracles (column (s_d S) ""%string [::] (bound_a S theta (cm_w cm) lc.1) false) (column (s_d S) ""%string [::] (bound_s S theta lc.1) false)
           (unnamed (s_d S) (nth (pc_zero PC) lc.2 0)) (unnamed (s_d S) (nth (pc_zero PC) lc.2 1))
      | lc <- zip (s_lookups S) (chunks 2 (cm_l cm))]
    (map (unnamed (s_d S)) (cm_lz cm)).
(** The right number of commitments. *)
Definition well_counted (S : vinput) (cm : commitments) : Prop :=
  let K := size [seq v <- s_ws S | vd_permute (o_data v)] in
  [/\ size (cm_w cm) = size (s_ws S), size (cm_l cm) = (2 * size (s_lookups S))%N, size (cm_lz cm) = size (s_lookups S) &
      size (cm_z cm) = if K == 0%N then 0%N else size (chunks (pa_max_cols (s_perm S)) (iota 0 K))].
(** All committed polynomials, the preprocessed ones included, have at most [B] coefficients. *)
Definition small (S : vinput) (cm : commitments) (B : nat) : Prop :=
  (forall c, occurs c (cm_w cm ++ cm_l cm ++ cm_z cm ++ cm_lz cm) -> (size (op c) <= B)%N) /\
  (forall v c, occurs v (vp_fixed (s_pre S) ++ vp_table (s_pre S) ++ vp_perm (s_pre S) ++ [:: vp_q_blind (s_pre S)]) ->
     get_commitment v = Ok c -> (size (op c) <= B)%N).
End Committed.

(** [pf] carries exactly these commitments (and quotient commitments [Q]) and any evaluations. *)
Definition carries (pf : tp_proof PC) (cm : commitments) (Q : seq com) : Prop :=
  [/\ tp_witness_commitments pf = cm_w cm, tp_lookup_commitments pf = cm_l cm, tp_z_commitments pf = cm_z cm,
      tp_lookup_z_commitments pf = cm_lz cm & tp_quotient_commitments pf = Q].
Definition with_opening (pf : tp_proof PC) (mo : mo_proof PC) : tp_proof PC :=
  TPProof (tp_witness_commitments pf) (tp_witness_evals pf) (tp_fixed_evals pf) (tp_table_evals pf) (tp_perm_evals pf)
    (tp_q_blind_eval pf) (tp_lookup_commitments pf) (tp_lookup_z_commitments pf) (tp_lookup_evals pf) (tp_lookup_z_evals pf)
    (tp_z_commitments pf) (tp_z_evals pf) (tp_quotient_commitments pf) (tp_quotient_evals pf) mo.

(** The sets of rotations at which the verifier opens its oracles, in order. *)
Definition opened_rots (S : vinput) (nq : nat) : seq (seq rotation) :=
  let u := pa_usable_rows (s_perm S) in
  let K := size [seq v <- s_ws S | vd_permute (o_data v)] in
  let nz := if K == 0%N then 0%N else size (chunks (pa_max_cols (s_perm S)) (iota 0 K)) in
  map (@o_rots _) (s_ws S) ++ flatten [seq [:: [:: curr; prev]; [:: curr]] | l <- s_lookups S] ++
  [seq [:: curr; next] | l <- s_lookups S] ++ nseq nq [:: curr] ++
  [seq if k != nz.-1 then sinsert rot_lt (u, Plus) [:: curr; next] else [:: curr; next] | k <- iota 0 nz] ++
  map (@o_rots _) (vp_fixed (s_pre S) ++ vp_table (s_pre S) ++ vp_perm (s_pre S) ++ [:: vp_q_blind (s_pre S)]).

(** The rest of the protocol once theta, beta, gamma and the commitments [cm] are chosen. The moves
    alternate: alpha is drawn, the prover chooses quotient commitments [Q], xi is drawn, the prover
    chooses all evaluations ([base]), x1 and x2 are drawn, the prover chooses [f_commit], x3 is drawn, the
    prover chooses as many [q_evals] as there are opening sets, x4 is drawn, the prover chooses the
    opening proof [pi]. At most so many alphas leave the prover quotient commitments for which more than
    so many xi leave it evaluations for which, and so on, verify accepts. [D] bounds the degree of the
    constraints, [B] the number of coefficients of each committed polynomial. *)
Definition rarely_accepted (env : fenv F) (pvk : pc_vk PC) (op : com -> {poly F}) (S : vinput) (cm : commitments) (B D : nat)
    (theta beta gamma : F) : Prop :=
  at_most (size (s_vos S) + 2 * size (cm_z cm) + 5 * size (s_lookups S)) (fun alpha =>
    exists2 Q, (forall c, occurs c Q -> (size (op c) <= B)%N) &
    let R := opened_rots S (size Q) in
    ~ at_most (maxn D (size (recombined (dsize (s_d S)) (map op Q)) + size (Poly (s_zh S))).-2) (fun xi =>
      exists2 base, carries base cm Q &
    ~ at_most (size R).-1 (fun x1 =>
    ~ at_most (size (undup R)).-1 (fun x2 => exists2 f_commit, (size (op f_commit) <= B)%N &
    ~ at_most (B + size (flatten R)).-1 (fun x3 => exists2 q_evals, size q_evals = size (undup R) &
    ~ at_most (size (undup R)) (fun x4 => exists pi,
      verdict env (scripted [:: theta; beta; gamma; alpha; xi; x1; x2; x3; x4]) pvk S
        (with_opening base (MoProof q_evals f_commit pi)) = Ok tt)))))).

(** A bound on the degree of the constraints when no polynomial has more than [B] coefficients. *)
Definition constraint_degree (S : vinput) (es : seq (expr F oquery)) (B : nat) : nat :=
  let k := (maxn B (dsize (s_d S))).-1 in
  let les := flatten [seq ok_or [::] (gl_get_expressions l) | l <- s_lookups S] in
  maxn (max_degree k es) (maxn ((pa_max_cols (s_perm S) + 2) * k) (4 * maxn k (max_degree k les))).
End Sound.
