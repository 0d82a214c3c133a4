(** Vocabulary for C79: a move of three quotient evaluations. *)
From mathcomp Require Import all_ssreflect all_algebra.

Set Implicit Arguments.
Unset Strict Implicit.
Unset Printing Implicit Defensive.

Import GRing.Theory.
Local Open Scope ring_scope.

(** The coefficients of t (X - a) (X - b) are added to the first three elements. *)
Definition moved3 {F : fieldType} (a b t : F) (es : seq F) : seq F :=
  match es with
  | e0 :: e1 :: e2 :: es' => e0 + t * (a * b) :: e1 - t * (a + b) :: e2 + t :: es'
  | _ => es
  end.
