(** Proofs that differ in one claimed evaluation. *)
From mathcomp Require Import all_ssreflect all_algebra.
From Verif Require Import Base ModelPoly ModelVO ModelOracle ModelPC ModelMultiproof ModelProtocol.

Set Implicit Arguments.
Unset Strict Implicit.
Unset Printing Implicit Defensive.

Section Claims.
Variables (F : fieldType) (PC : pcs F).
(** The proof [pf] with other claimed evaluations of the permutation columns and of q_blind. *)
Definition with_claims (ss : seq F) (v : F) (pf : tp_proof PC) : tp_proof PC :=
  TPProof (tp_witness_commitments pf) (tp_witness_evals pf) (tp_fixed_evals pf) (tp_table_evals pf) ss v
    (tp_lookup_commitments pf) (tp_lookup_z_commitments pf) (tp_lookup_evals pf) (tp_lookup_z_evals pf)
    (tp_z_commitments pf) (tp_z_evals pf) (tp_quotient_commitments pf) (tp_quotient_evals pf) (tp_multiopen pf).
(** ... with another evaluation of q_blind. *)
Definition with_q_blind (v : F) (pf : tp_proof PC) : tp_proof PC := with_claims (tp_perm_evals pf) v pf.
(** ... with another evaluation of the [j]-th permutation column. *)
Definition with_sigma (j : nat) (v : F) (pf : tp_proof PC) : tp_proof PC :=
  with_claims (set_nth 0%R (tp_perm_evals pf) j v) (tp_q_blind_eval pf) pf.
End Claims.
