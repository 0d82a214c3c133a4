(** Proofs whose first two quotient evaluations are moved against each other. *)
From mathcomp Require Import all_ssreflect all_algebra.
From Verif Require Import Base ModelPoly ModelVO ModelOracle ModelPC ModelMultiproof ModelProtocol SpecSound.

Set Implicit Arguments.
Unset Strict Implicit.
Unset Printing Implicit Defensive.

Import GRing.Theory.
Local Open Scope ring_scope.

(** The proof with other quotient evaluations and nothing else changed. *)
Definition with_quotient_evals {F : fieldType} {PC : pcs F} (pf : tp_proof PC) (es : seq F) : tp_proof PC :=
  TPProof (tp_witness_commitments pf) (tp_witness_evals pf) (tp_fixed_evals pf) (tp_table_evals pf) (tp_perm_evals pf)
    (tp_q_blind_eval pf) (tp_lookup_commitments pf) (tp_lookup_z_commitments pf) (tp_lookup_evals pf) (tp_lookup_z_evals pf)
    (tp_z_commitments pf) (tp_z_evals pf) (tp_quotient_commitments pf) es (tp_multiopen pf).

(** x1 delta is added to the first quotient evaluation and delta subtracted from the second. *)
Definition shift_quotient {F : fieldType} {PC : pcs F} (x1 delta : F) (pf : tp_proof PC) : tp_proof PC :=
  with_quotient_evals pf
    match tp_quotient_evals pf with
    | e0 :: e1 :: es => e0 + x1 * delta :: e1 - delta :: es
    | es => es
    end.

(** The same verification with other public inputs, gates and vanishing polynomial. *)
Definition other_statement {F : fieldType} {PC : pcs F} (S : vinput PC) ins vos z_h : vinput PC :=
  VInput (s_vk S) (s_pre S) (s_ws S) ins vos (s_d S) z_h.
