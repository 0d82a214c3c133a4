(** The concrete field of the examples satisfies the assumptions of the theorems. *)
From mathcomp Require Import all_ssreflect all_algebra.
From Verif Require Import Base ModelPoly ModelVO ModelGates ModelOracle Spec
  ProofBase ProofPoly ProofDomain ProofVO ProofGates ProofOracle.

Set Implicit Arguments.
Unset Strict Implicit.
Unset Printing Implicit Defensive.

Import GRing.Theory.
Local Open Scope ring_scope.

Lemma two_power_root (F : fieldType) (k : nat) (z : F) :
  z ^+ (2 ^ k.+1) = 1 -> z ^+ (2 ^ k) != 1 -> (2 ^ k.+1).-primitive_root z.
Proof.
move=> H1 H2; have [|m Hm dv] := @prim_order_exists _ (2 ^ k.+1) z _ H1; first by rewrite expn_gt0.
have [j le jm] : exists2 j, (j <= k.+1)%N & m = (2 ^ j)%N by apply/dvdn_pfactor.
move: le; rewrite leq_eqVlt => /orP[/eqP <-|lt]; first by rewrite -jm.
case/negP: H2; apply/eqP.
have /dvdnP[q ->] : (m %| 2 ^ k)%N by rewrite jm dvdn_exp2l.
by rewrite mulnC exprM (prim_expr_order Hm) expr1n.
Qed.

From Coq Require Import NArith String Lia.
From Verif Require Import Field97 Concrete.

Lemma env97_ok : fenv_ok env97.
Proof.
split.
- by apply: (@two_power_root _ 4); [apply/eqP|]; vm_compute.
- by vm_compute.
- by vm_compute.
- by move=> x y; rewrite /fle /=; case: (N.leb_spec (v97 x) (v97 y)) => //= H; apply/N.leb_spec0; lia.
- move=> y x z; rewrite /fle /= => /N.leb_spec0 H1 /N.leb_spec0 H2; apply/N.leb_spec0; lia.
- move=> x y; rewrite /fle /= => /andP[/N.leb_spec0 H1 /N.leb_spec0 H2]; apply: val_inj => /=; lia.
Qed.

Lemma dom97_std k : (k <= 5)%nat -> std_domain env97 (dom97 (2 ^ k)).
Proof.
move=> le; have E : domain_new env97 (2 ^ k) = Some (dom97 (2 ^ k)).
  by rewrite /dom97 /domain_new up_expnK ?le.
by have [] := domain_new_spec env97_ok E.
Qed.

Lemma dom97_4 : std_domain env97 (dom97 4). Proof. exact: (@dom97_std 2). Qed.
Lemma dom97_8 : std_domain env97 (dom97 8). Proof. exact: (@dom97_std 3). Qed.
Lemma dom97_16 : std_domain env97 (dom97 16). Proof. exact: (@dom97_std 4). Qed.
