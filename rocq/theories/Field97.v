(** A concrete, efficiently computable prime field, F_97, used for the examples that show
    the theorems' hypotheses are satisfiable and that the model runs. *)
From mathcomp Require Import all_ssreflect all_algebra.
From Coq Require Import NArith Lia.
From Verif Require Import Base ModelPoly.

Set Implicit Arguments.
Unset Strict Implicit.
Unset Printing Implicit Defensive.

Local Open Scope N_scope.

Record f97 := F97 { v97 : N; h97 : (v97 <? 97) = true }.

Canonical f97_subType := [subType for v97].
Definition f97_eqMixin := Eval hnf in [eqMixin of f97 by <:].
Canonical f97_eqType := Eval hnf in EqType f97 f97_eqMixin.
Definition f97_nat (x : f97) : nat := nat_of_bin (v97 x).

Lemma mk_proof (n : N) : (n mod 97 <? 97) = true.
Proof. apply/N.ltb_lt. by apply: N.mod_lt. Qed.
Definition mk (n : N) : f97 := F97 (mk_proof n).

Lemma mk_v (x : f97) : mk (v97 x) = x.
Proof.
by apply: val_inj; rewrite /=; apply: N.mod_small; apply/N.ltb_lt; exact: h97.
Qed.
Lemma f97_natK : cancel f97_nat (fun n => mk (bin_of_nat n)).
Proof. by move=> x; rewrite /f97_nat nat_of_binK mk_v. Qed.

Definition f97_choiceMixin := CanChoiceMixin f97_natK.
Canonical f97_choiceType := Eval hnf in ChoiceType f97 f97_choiceMixin.

Definition add97 (x y : f97) := mk (v97 x + v97 y).
Definition opp97 (x : f97) := mk (97 - v97 x).
Definition mul97 (x y : f97) := mk (v97 x * v97 y).
Fixpoint pow97 (x : f97) (n : positive) : f97 :=
  match n with
  | xH => x
  | xO m => let y := pow97 x m in mul97 y y
  | xI m => let y := pow97 x m in mul97 x (mul97 y y)
  end.
Definition inv97 (x : f97) := pow97 x 95.

Lemma v97_lt x : v97 x < 97. Proof. by apply/N.ltb_lt; exact: h97. Qed.

Ltac f97 := apply: val_inj; rewrite /= ?N.add_mod_idemp_l ?N.add_mod_idemp_r
  ?N.mul_mod_idemp_l ?N.mul_mod_idemp_r //; f_equal; try lia.

Lemma add97A : associative add97. Proof. move=> x y z; f97. Qed.
Lemma add97C : commutative add97. Proof. move=> x y; f97. Qed.
Lemma add970 : left_id (mk 0) add97.
Proof. by move=> x; rewrite -[RHS]mk_v; apply: val_inj. Qed.
Lemma add97N : left_inverse (mk 0) opp97 add97.
Proof.
move=> x; apply: val_inj => /=; rewrite N.add_mod_idemp_l //.
have -> : 97 - v97 x + v97 x = 97 by have := v97_lt x; lia.
by [].
Qed.
Definition f97_zmodMixin := ZmodMixin add97A add97C add970 add97N.
Canonical f97_zmodType := Eval hnf in ZmodType f97 f97_zmodMixin.

Lemma mul97A : associative mul97. Proof. move=> x y z; f97. Qed.
Lemma mul97C : commutative mul97. Proof. move=> x y; f97. Qed.
Lemma mul971 : left_id (mk 1) mul97.
Proof. by move=> x; rewrite -[RHS]mk_v; apply: val_inj; rewrite -/(mk _) /=; case: (v97 x). Qed.
Lemma mul97D : left_distributive mul97 add97.
Proof.
move=> x y z; apply: val_inj => /=.
rewrite N.mul_mod_idemp_l // N.add_mod_idemp_l // N.add_mod_idemp_r //. f_equal; lia.
Qed.
Lemma one97_neq0 : mk 1 != mk 0. Proof. by []. Qed.
Definition f97_comRingMixin := ComRingMixin mul97A mul97C mul971 mul97D one97_neq0.
Canonical f97_ringType := Eval hnf in RingType f97 f97_comRingMixin.
Canonical f97_comRingType := Eval hnf in ComRingType f97 mul97C.

Fixpoint upto (n : nat) : list N := if n is S m then N.of_nat m :: upto m else nil.
Lemma upto_in n x : x < N.of_nat n -> List.In x (upto n).
Proof.
elim: n => [|n IH]; first by rewrite /=; lia.
rewrite Nat2N.inj_succ [upto _]/= => Hx; case: (N.eq_dec x (N.of_nat n)) => [->|Hne]; first by left.
right; apply: IH; lia.
Qed.
Lemma f97_all (P : f97 -> bool) :
  List.forallb (fun n => P (mk n)) (upto 97) = true -> forall x, P x.
Proof.
move=> H x; move/List.forallb_forall: H => H.
rewrite -(mk_v x); apply: H; apply: upto_in; exact: v97_lt.
Qed.

Lemma f97_mulVf : GRing.Field.axiom inv97.
Proof.
move=> x Hx; apply/eqP; move: x Hx.
suff H : forall x : f97, (x != 0%R) ==> (inv97 x * x == 1)%R by move=> x /(implyP (H x)).
apply: f97_all; by vm_compute.
Qed.
Lemma f97_inv0 : inv97 0%R = 0%R. Proof. by apply/eqP; vm_compute. Qed.
Definition f97_unitRingMixin := FieldUnitMixin f97_mulVf f97_inv0.
Canonical f97_unitRingType := Eval hnf in UnitRingType f97 f97_unitRingMixin.
Canonical f97_comUnitRingType := Eval hnf in [comUnitRingType of f97].
Lemma f97_fieldMixin : GRing.Field.mixin_of f97_unitRingType.
Proof. by []. Qed.
Canonical f97_idomainType := Eval hnf in IdomainType f97 (FieldIdomainMixin f97_fieldMixin).
Canonical f97_fieldType := Eval hnf in FieldType f97 f97_fieldMixin.

(** 97 - 1 = 2^5 * 3; 5 generates the multiplicative group; 5^3 = 28 has order 2^5. *)
Definition env97 : fenv f97_fieldType :=
  @FEnv f97_fieldType 5 (mk 28) (mk 5) (fun x y => v97 x <=? v97 y).

Definition n97 (n : nat) : f97 := mk (N.of_nat n).
