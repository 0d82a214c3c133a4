(** Concrete counterexamples used by the [_refuted] theorems on virtual oracles. *)
From mathcomp Require Import all_ssreflect all_algebra.
From Coq Require Import String.
From Verif Require Import Base ModelPoly ModelVO ModelGates ModelOracle Spec Field97 Concrete.

Set Implicit Arguments.
Unset Strict Implicit.
Unset Printing Implicit Defensive.

Import GRing.Theory.
Local Open Scope ring_scope.

Lemma duplicate_labels :
  exists (vo : generic_vo f97_fieldType) (w : seq (oracle nat)) vo' st' e,
    [/\ gv_configure vo (w, [::] : seq (oracle nat), [::] : seq (oracle nat)) = Ok (vo', st'),
        gv_get_expression vo' = Ok e &
        eval_res e (query_leaf st'.1.1 st'.1.2 st'.2 (fun o _ => Ok (n97 (o_data o))) (fun _ _ => Ok 0) (fun _ _ => Ok 0))
        <> eval_res (gv_virtual_exp vo)
             (index_leaf st'.1.1 st'.1.2 st'.2 (fun o _ => Ok (n97 (o_data o))) (fun _ _ => Ok 0) (fun _ _ => Ok 0))].
Proof.
exists (gv_init (esub (Orc (wq 0 curr)) (Orc (wq 1 curr)), [:: wq 0 curr; wq 1 curr])).
exists [:: Oracle "a"%string [::] 1%N; Oracle "a"%string [::] 2%N].
eexists; eexists; eexists; split; [reflexivity|reflexivity|].
by move=> /(congr1 (ok_or 0)) /(congr1 v97); vm_compute.
Qed.

Lemma plonk4_fourth_wire :
  exists v v' : row_values f97_fieldType,
    [/\ v Fixed 3%N curr != 0, v Witness 3%N curr != v' Witness 3%N curr,
        (forall t j r, ~ (t = Witness /\ j = 3%N) -> v t j r = v' t j r),
        vmeaning v (gate_plonk_arith4 _).1 = 0 & vmeaning v' (gate_plonk_arith4 _).1 = 0].
Proof.
pose mkv (d : nat) : row_values f97_fieldType := fun t j _ =>
  match t with
  | Witness => n97 (nth 0 [:: 0; 0; 0; d] j)%N
  | Instance => 0
  | Fixed => n97 (nth 0 [:: 1; 1; 1; 1; 1; 0] j)%N
  end.
exists (mkv 1%N), (mkv 2%N); split; [by vm_compute|by vm_compute| |by apply/eqP; vm_compute|by apply/eqP; vm_compute].
case=> [[|[|[|[|j]]]]|j|j] r H //; by case: H.
Qed.
