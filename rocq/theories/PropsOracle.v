(** Property theorems C12-C18: queries of concrete oracles, rotations, claimed evaluations.
    The vocabulary is in Spec.v; the proofs are in ProofOracle.v. *)
From mathcomp Require Import all_ssreflect all_algebra.
From Verif Require Import Base ModelPoly ModelVO ModelOracle Spec ProofBase ProofDomain ProofOracle.

Set Implicit Arguments.
Unset Strict Implicit.
Unset Printing Implicit Defensive.

Import GRing.Theory.
Local Open Scope ring_scope.

(** ** C12 *)
(** For every rotation, of any size: either the query panics, which happens exactly when a
    backwards rotation lands [k >= 1] whole turns behind the first row, or it returns the
    value of the polynomial at the rotated coset point. *)
Theorem c12_coset_query (F : fieldType) (env : fenv F) (d ext : domain F) (p : poracle F) (i : nat) (r : rotation) :
  fenv_ok env -> std_domain env d -> std_domain env ext -> (dsize d <= dsize ext)%N ->
  size (po_evals p) = dsize d -> (size (po_poly p) <= dsize ext)%N -> (i < dsize ext)%N ->
  let ratio := (dsize ext %/ dsize d)%N in
  query_in_coset (compute_extended_evals env ext p) i r =
    if [&& r.2, (i < r.1 * ratio)%N & (dsize ext %| r.1 * ratio - i)%N] then Panic PIndex
    else Ok (peval (po_poly p) (rot_point (dgen d) r (mult_gen env * dgen ext ^+ i))).
Proof. by move=> eok; apply: (query_in_coset_poly eok). Qed.
Print Assumptions c12_coset_query.

Theorem c12_coset_query_rotations_below_n (F : fieldType) (env : fenv F) (d ext : domain F) (p : poracle F)
    (i : nat) (r : rotation) :
  fenv_ok env -> std_domain env d -> std_domain env ext -> (dsize d <= dsize ext)%N ->
  size (po_evals p) = dsize d -> (size (po_poly p) <= dsize ext)%N -> (i < dsize ext)%N ->
  (r.1 < dsize d)%N ->
  query_in_coset (compute_extended_evals env ext p) i r =
  Ok (peval (po_poly p) (rot_point (dgen d) r (mult_gen env * dgen ext ^+ i))).
Proof. by move=> eok; apply: query_coset_in_bounds. Qed.
Print Assumptions c12_coset_query_rotations_below_n.

(** ** C13 *)
Theorem c13_row_query (F : fieldType) (p : poracle F) (i : nat) (r : rotation) :
  let n := size (po_evals p) in (i < n)%N ->
  query_at_omega_in_original_domain p i r =
    if [&& r.2, (i < r.1)%N & (n %| r.1 - i)%N] then Panic PIndex
    else Ok ((po_evals p)`_(rot_row n r i)).
Proof. exact: query_row. Qed.
Print Assumptions c13_row_query.

Theorem c13_row_value_is_polynomial_value (F : fieldType) (env : fenv F) (d : domain F) (p : poracle F)
    (i : nat) (r : rotation) :
  fenv_ok env -> std_domain env d -> interpolates d p -> (i < dsize d)%N ->
  (po_evals p)`_(rot_row (dsize d) r i) = peval (po_poly p) (rot_point (dgen d) r (dgen d ^+ i)).
Proof. by move=> eok sd [sz Hp]; apply: (query_row_poly eok). Qed.
Print Assumptions c13_row_value_is_polynomial_value.

(** ** C14 *)
(** Refuted: turning back by exactly [n] rows from row 0 indexes one past the end, for every
    column and every extended domain. *)
Theorem c14_row_query_out_of_bounds_refuted (F : fieldType) (p : poracle F) :
  (0 < size (po_evals p))%N ->
  query_at_omega_in_original_domain p 0 (size (po_evals p), true) = Panic PIndex.
Proof. exact: row_query_oob. Qed.
Print Assumptions c14_row_query_out_of_bounds_refuted.

Theorem c14_coset_query_out_of_bounds_refuted (F : fieldType) (env : fenv F) (d ext : domain F) (p : poracle F) :
  fenv_ok env -> std_domain env d -> std_domain env ext -> (dsize d <= dsize ext)%N ->
  size (po_evals p) = dsize d -> (size (po_poly p) <= dsize ext)%N ->
  query_in_coset (compute_extended_evals env ext p) 0 (dsize d, true) = Panic PIndex.
Proof. by move=> eok; apply: coset_query_oob. Qed.
Print Assumptions c14_coset_query_out_of_bounds_refuted.

(** What holds: no rotation by fewer than [n] rows is out of bounds. *)
Theorem c14_rotations_below_n_in_bounds_partial (F : fieldType) (p : poracle F) (i : nat) (r : rotation) :
  let n := size (po_evals p) in (i < n)%N -> (r.1 < n)%N ->
  query_at_omega_in_original_domain p i r = Ok ((po_evals p)`_(rot_row n r i)).
Proof. exact: query_row_in_bounds. Qed.
Print Assumptions c14_rotations_below_n_in_bounds_partial.

(** ** C15 *)
Theorem c15_lagrange_query (F : fieldType) (env : fenv F) (d : domain F) (p : poracle F)
    (L : nat -> {poly F}) (x : F) (ls : seq F) :
  fenv_ok env -> std_domain env d -> interpolates d p ->
  (forall i, (i < dsize d)%N -> (size (L i) <= dsize d)%N) ->
  (forall i j, (i < dsize d)%N -> (j < dsize d)%N -> (L i).[dgen d ^+ j] = (i == j)%:R) ->
  ls = [seq (L i).[x] | i <- iota 0 (dsize d)] ->
  query_in_evals_form p ls = peval (po_poly p) x.
Proof. by move=> eok sd [sz Hp]; apply: (evals_form eok). Qed.
Print Assumptions c15_lagrange_query.

(** The Lagrange polynomials the hypothesis asks for exist for every domain. *)
Theorem c15_lagrange_basis_exists (F : fieldType) (env : fenv F) (d : domain F) :
  fenv_ok env -> std_domain env d -> exists L : nat -> {poly F},
  (forall i, (i < dsize d)%N -> (size (L i) <= dsize d)%N) /\
  (forall i j, (i < dsize d)%N -> (j < dsize d)%N -> (L i).[dgen d ^+ j] = (i == j)%:R).
Proof. by move=> eok; apply: lagrange_exists. Qed.
Print Assumptions c15_lagrange_basis_exists.

(** ** C16 *)
Theorem c16_rotation_points (F : fieldType) (d : domain F) (r : rotation) (l : label) (x : F) :
  domain_ok d -> (r.1 < dsize d)%N ->
  compute_evaluation_point r x (elements d) = Ok (rot_point (dgen d) r x) /\
  exists l', get_point_info r l x (elements d) = Ok (l', rot_point (dgen d) r x).
Proof.
move=> dok lt; split; first exact: compute_point_ok.
by exists (pinfo (dgen d) r l x).1; rewrite point_info_ok.
Qed.
Print Assumptions c16_rotation_points.

(** Rotations by [n] rows or more, in either direction, panic on both sides. *)
Theorem c16_large_rotations_panic (F : fieldType) (d : domain F) (r : rotation) (l : label) (x : F) :
  (0 < r.1)%N -> (dsize d <= r.1)%N ->
  compute_evaluation_point r x (elements d) = Panic PIndex /\
  get_point_info r l x (elements d) = Panic PIndex.
Proof. by move=> r0 le; split; [apply: compute_point_oob | apply: point_info_oob]. Qed.
Print Assumptions c16_large_rotations_panic.

Theorem c16_same_point_iff_same_row (F : fieldType) (d : domain F) (r r' : rotation) (x : F) :
  domain_ok d -> x != 0 ->
  rot_point (dgen d) r x = rot_point (dgen d) r' x <->
  rot_row (dsize d) r 0 = rot_row (dsize d) r' 0.
Proof. exact: rot_point_eq. Qed.
Print Assumptions c16_same_point_iff_same_row.

(** ** C17 *)
(** [h] is any history of registrations; the last registration at [x] is what counts. *)
Theorem c17_last_registration_wins (F : fieldType) (C : Type) (o : voracle F C) (h1 h2 : seq (F * F)) (x v : F) :
  (forall e, e \in h2 -> e.1 != x) ->
  vo_query (foldl (fun o e => register_eval_at_challenge e.1 e.2 o) o (h1 ++ (x, v) :: h2)) x = Ok v.
Proof. exact: history_last. Qed.
Print Assumptions c17_last_registration_wins.

Theorem c17_other_points_unaffected (F : fieldType) (C : Type) (o : voracle F C) (h : seq (F * F)) (x : F) :
  (forall e, e \in h -> e.1 != x) ->
  let o' := foldl (fun o e => register_eval_at_challenge e.1 e.2 o) o h in
  vo_query o' x = vo_query o x /\ same_but_evals o o'.
Proof. by move=> H; split; [apply: history_none | apply: history_same]. Qed.
Print Assumptions c17_other_points_unaffected.

Theorem c17_missing_evaluation (F : fieldType) (C : Type) (k : oracle_type) (l : label) (c : option C) (b : bool)
    (h : seq (F * F)) (x : F) :
  (forall e, e \in h -> e.1 != x) ->
  vo_query (foldl (fun o e => register_eval_at_challenge e.1 e.2 o) (vo_new F k l c b) h) x
  = Err (MissingConcreteEval l).
Proof. by move=> H; apply: etrans (history_none _ H) _. Qed.
Print Assumptions c17_missing_evaluation.

(** ** C18 *)
Theorem c18_evaluations_reach_their_oracle (F : fieldType) (C : Type) (ps : seq (poracle F))
    (vs : seq (voracle F C)) (pl : label) (x : F) (d : domain F) (missing : label -> error) :
  domain_ok d -> uniq [seq o_label p | p <- ps] -> rots_below ps (dsize d) ->
  [seq (o_label o, o_rots o) | o <- vs] = [seq (o_label o, o_rots o) | o <- ps] ->
  exists qs evs vs',
  (* both sides enumerate the same queries; the prover answers each of them *)
  [/\ get_query_set ps pl x (elements d) = Ok qs, get_query_set vs pl x (elements d) = Ok qs,
      evaluate_query_set ps qs = Ok evs, size evs = size qs &
  (* and the verifier's registration loop succeeds *)
      register_evals vs missing (zip qs evs) = Ok vs' /\
  forall j p, idx ps j = Ok p -> exists v v',
    [/\ idx vs j = Ok v, idx vs' j = Ok v', same_but_evals v v' &
        forall y, vo_query v' y = if y \in [seq rot_point (dgen d) r x | r <- o_rots p]
                                  then Ok (peval (po_poly p) y) else vo_query v y]].
Proof. exact: evals_alignment. Qed.
Print Assumptions c18_evaluations_reach_their_oracle.

(** ** Non-vacuity *)
From Coq Require Import NArith String.
From Verif Require Import Field97 Concrete ProofConcrete.
Local Close Scope ring_scope.

Definition ex_col : poracle f97_fieldType := porc Witness 4 "a" (col [:: 3; 1; 4; 15]%nat) false.

Example ex_env : fenv_ok env97. Proof. exact: env97_ok. Qed.
Example ex_domains : std_domain env97 (dom97 4) /\ std_domain env97 (dom97 16).
Proof. exact: (conj dom97_4 dom97_16). Qed.
Example ex_interpolates : interpolates (dom97 4) ex_col. Proof. by []. Qed.
Example ex_poly_fits : (size (po_poly ex_col) <= 16)%nat. Proof. by vm_compute. Qed.
Example ex_row_back : query_at_omega_in_original_domain ex_col 1 (3, true)%nat = Ok (n97 4).
Proof. by congr Ok; apply/eqP; vm_compute. Qed.
Example ex_row_turn : query_at_omega_in_original_domain ex_col 0 (4, true)%nat = Panic PIndex.
Proof. by []. Qed.

(** Two oracles with several rotations, for C18. *)
Definition ex_rots (rs : seq rotation) (p : poracle f97_fieldType) : poracle f97_fieldType :=
  Oracle (o_label p) rs (o_data p).
Definition ex_ps : seq (poracle f97_fieldType) :=
  [:: ex_rots [:: (0, false); (1, false); (3, true)]%nat ex_col;
      ex_rots [:: (2, true)]%nat (porc Witness 4 "b" (col [:: 9; 2; 6; 5]%nat) false)].
Definition ex_vs : seq (voracle f97_fieldType unit) :=
  [seq Oracle (o_label p) (o_rots p) (VData Witness [::] (Some tt) false) | p <- ex_ps].
Example ex_c18_hyps : [/\ domain_ok (dom97 4), uniq [seq o_label p | p <- ex_ps], rots_below ex_ps 4 &
  [seq (o_label o, o_rots o) | o <- ex_vs] = [seq (o_label o, o_rots o) | o <- ex_ps]].
Proof.
have H := std_domain_ok env97_ok dom97_4.
split; [exact: H | by [] | | by []].
move=> [|[|j]] //= o [<-] r; rewrite /= !inE; last by move/eqP=> ->.
by case/or3P => /eqP ->.
Qed.
