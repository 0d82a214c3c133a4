(** Vocabulary for C78: the combination of all claimed evaluations that the multi-opening checks. *)
From mathcomp Require Import all_ssreflect all_algebra.
From Verif Require Import Base ModelPoly ModelVO ModelOracle ModelPC ModelMultiproof Spec SpecMultiopen SpecOpenings.

Set Implicit Arguments.
Unset Strict Implicit.
Unset Printing Implicit Defensive.

Import GRing.Theory.
Local Open Scope ring_scope.

Section Claims.
Variables (F : fieldType) (C : Type) (w xi x1 x2 x3 : F).

(** The evaluation at [x] that is registered with an oracle (0 if there is none). *)
Definition claim (o : voracle F C) (x : F) : F := ok_or 0 (vo_query o x).
(** The Lagrange basis polynomial of the point [p] among [pts], at [x]. *)
Definition basis_at (pts : seq F) (p x : F) : F := \prod_(e <- pts | e != p) ((p - e)^-1 * (x - e)).
(** The oracles with the set [k] of rotations, combined with powers of x1: their claims at the points of [k] are interpolated, evaluated at
    x3 and divided by the product of x3 - p for these points p. *)
Definition set_claim (os : seq (voracle F C)) (k : seq rotation) : F :=
  let pts := [seq rot_point w r xi | r <- k] in
  (\sum_(p <- pts) combined x1 [seq claim o p | o <- os & o_rots o == k] * basis_at pts p x3) / \prod_(p <- pts) (x3 - p).
(** All sets of rotations, combined with powers of x2. *)
Definition total_claim (os : seq (voracle F C)) : F :=
  \sum_(k <- undup (map (@o_rots _) os)) x2 ^+ place k (map (@o_rots _) os) * set_claim os k.
End Claims.
