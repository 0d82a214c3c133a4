(** Which cells of the columns the verifier has opened: the vocabulary of C67. *)
From mathcomp Require Import all_ssreflect all_algebra.
From Verif Require Import Base ModelPoly ModelVO ModelOracle Spec.

Set Implicit Arguments.
Unset Strict Implicit.
Unset Printing Implicit Defensive.

(** Some column with the label [l] is opened at the row that [r] names, in a table of [n] rows. *)
Definition opened {F : fieldType} {C : Type} (n : nat) (vs : seq (voracle F C)) (l : label) (r : rotation) : Prop :=
  exists v r', [/\ occurs v vs, o_label v = l, r' \in o_rots v & rot_row n r' 0 = rot_row n r 0].
(** The cell a query reads is opened; the verifier evaluates public columns itself. [r] is the rotation fixed columns are read at. *)
Definition answered {F : fieldType} {C : Type} (n : nat) (ws fixed : seq (voracle F C)) (ins : seq (ioracle F)) (q : oquery) (r : rotation) : Prop :=
  match oq_type q with
  | Witness => opened n ws (oq_label q) (oq_rot q)
  | Fixed => opened n fixed (oq_label q) r
  | Instance => exists2 i, occurs i ins & o_label i = oq_label q
  end.
(** No evaluation has been registered in the columns yet. *)
Definition unused {F : fieldType} {C : Type} (vs : seq (voracle F C)) : Prop := forall v, occurs v vs -> vd_evals (o_data v) = [::].
