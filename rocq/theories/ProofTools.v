(** Helpers for concrete examples over F_97. *)
From mathcomp Require Import all_ssreflect all_algebra.
From Coq Require Import String NArith.
From Verif Require Import Base ModelPoly ModelVO ModelOracle Spec SpecProtocol ProofBase ProofColumns
  Field97 Concrete ProofConcrete.

Set Implicit Arguments.
Unset Strict Implicit.
Unset Printing Implicit Defensive.

(** Boolean forms of statements about outcomes, to be settled by computation. *)
Definition ok_is (A : eqType) (r : res A) (v : A) : bool := if r is Ok a then a == v else false.
Lemma ok_isP (A : eqType) (r : res A) v : ok_is r v -> r = Ok v.
Proof. by case: r => //= a /eqP ->. Qed.
Definition ok_any A (r : res A) : bool := if r is Ok _ then true else false.
Lemma ok_anyP A (r : res A) d : ok_any r -> r = Ok (ok_or d r).
Proof. by case: r. Qed.
Definition panics {A} (p : panic) (r : res A) : bool :=
  match r, p with
  | Panic PAssert, PAssert => true
  | Panic PIndex, PIndex => true
  | Panic PUnwrap, PUnwrap => true
  | Panic PExplicit, PExplicit => true
  | Panic PUnderflow, PUnderflow => true
  | _, _ => false
  end.
Lemma panicsP A p (r : res A) : panics p r -> r = Panic p.
Proof. by case: r => [a|e|[| | | | | |? ?]] //; case: p. Qed.

(** An oracle of the examples: [n] rows, extended evaluations on [m] points. *)
Definition xorc (k : oracle_type) (n m : nat) (l : string) (rots : seq rotation) (evals : seq f97) (perm : bool)
  : poracle f97_fieldType :=
  compute_extended_evals env97 (dom97 m) (Oracle l rots (o_data (porc k n l evals perm))).
Lemma xorc_ok k n m l rots evals perm : size evals = dsize (dom97 n) ->
  let o := xorc k n m l rots evals perm in
  interpolates (dom97 n) o /\ compute_extended_evals env97 (dom97 m) o = o.
Proof. by []. Qed.
(** The verifier's copy of a prover oracle, answering truthfully at the declared points around [x]. *)
Definition vcopy {C : Type} (d : domain f97_fieldType) (x : f97) (c : option C) (o : poracle f97_fieldType)
  : voracle f97_fieldType C :=
  Oracle (o_label o) (o_rots o)
    (VData (pd_kind (o_data o)) [seq (rot_point (F:=f97_fieldType) (dgen d) r x, peval (po_poly o) (rot_point (F:=f97_fieldType) (dgen d) r x)) | r <- o_rots o]
      c (pd_permute (o_data o))).

Section Truth.
Variables (F : fieldType) (C : Type) (g : F -> F).
Lemma assoc_graph (pts : seq F) y : y \in pts -> assoc [seq (p, g p) | p <- pts] y = Some (g y).
Proof.
elim: pts => //= p pts IH; rewrite inE eq_sym; case: eqP => [->|_] //=.
Qed.
End Truth.
Lemma vcopy_truthful C (c : option C) d x (os : seq (poracle f97_fieldType)) :
  truthful (F:=f97_fieldType) (dgen d) x (map (vcopy d x c) os) os.
Proof.
split; first by rewrite /mirrors -map_comp.
move=> j v p r; rewrite idx_map => Hv Hp Hr; move: Hv; rewrite Hp /= => -[<-].
rewrite /answers /vo_query /vcopy.
set y := rot_point _ _ _.
rewrite -[vd_evals _]/([seq (rot_point (F:=f97_fieldType) (dgen d) r x, peval (po_poly p) (rot_point (F:=f97_fieldType) (dgen d) r x)) | r <- o_rots p]).
have -> : [seq (rot_point (F:=f97_fieldType) (dgen d) r x, peval (po_poly p) (rot_point (F:=f97_fieldType) (dgen d) r x)) | r <- o_rots p]
  = [seq (q, peval (po_poly p) q) | q <- [seq rot_point (F:=f97_fieldType) (dgen d) r x | r <- o_rots p]].
  by rewrite -map_comp.
rewrite (@assoc_graph f97_fieldType) //.
by apply/mapP; exists r.
Qed.

Lemma compressed1 (R : comRingType) (theta a : R) : compressed theta [:: a] = a.
Proof. by rewrite /compressed /= big_ord_recl big_ord0 /= GRing.expr0 GRing.mul1r GRing.addr0. Qed.
Lemma compressed2 (R : comRingType) (theta a b : R) : compressed theta [:: a; b] = (a + theta * b)%R.
Proof. by rewrite /compressed /= !big_ord_recl big_ord0 /= GRing.expr0 GRing.expr1 GRing.mul1r GRing.addr0. Qed.
Lemma lookup_row1 (F : fieldType) (ws ins fs : seq (poracle F)) n e theta i :
  lookup_row ws ins fs n [:: e] theta i = meaning (row_value ws ins fs n i) e.
Proof. exact: compressed1. Qed.
Lemma lookup_row2 (F : fieldType) (ws ins fs : seq (poracle F)) n e1 e2 theta i :
  lookup_row ws ins fs n [:: e1; e2] theta i =
  (meaning (row_value ws ins fs n i) e1 + theta * meaning (row_value ws ins fs n i) e2)%R.
Proof. exact: compressed2. Qed.
Lemma table_row1 (F : fieldType) (ts : seq (poracle F)) q theta j :
  table_row ts [:: q] theta j = nth 0%R (column_named ts (oq_label q)) j.
Proof. exact: compressed1. Qed.
Lemma table_row2 (F : fieldType) (ts : seq (poracle F)) q1 q2 theta j :
  table_row ts [:: q1; q2] theta j =
  (nth 0%R (column_named ts (oq_label q1)) j + theta * nth 0%R (column_named ts (oq_label q2)) j)%R.
Proof. exact: compressed2. Qed.
