(** Vocabulary for C76: proofs and claims that differ in a single evaluation. *)
From mathcomp Require Import all_ssreflect all_algebra.
From Verif Require Import Base ModelPoly ModelVO ModelOracle ModelPC ModelPermutation ModelIndexer ModelMultiproof ModelProtocol Spec.

Set Implicit Arguments.
Unset Strict Implicit.
Unset Printing Implicit Defensive.

Import GRing.Theory.
Local Open Scope ring_scope.

(** The commitment scheme accepts at most one value for a commitment, a point and an opening proof. *)
Definition one_value {F : fieldType} {PC : pcs F} (pvk : pc_vk PC) : Prop :=
  forall c x v v' p, pc_check pvk c x v p = Ok true -> pc_check pvk c x v' p = Ok true -> v = v'.

(** [o'] has the rotations and the commitment of [o], and among the claims for the points of its rotations just
    the one for [r] is another. *)
Definition one_claim_changed {F : fieldType} {C : Type} (w xi : F) (r : rotation) (o o' : voracle F C) : Prop :=
  [/\ o_rots o' = o_rots o, get_commitment o' = get_commitment o, r \in o_rots o,
      vo_query o' (rot_point w r xi) <> vo_query o (rot_point w r xi) &
      forall s, s \in o_rots o -> s != r -> vo_query o' (rot_point w s xi) = vo_query o (rot_point w s xi)].

(** The vectors of evaluations in a proof. The one of the column q_blind has one element. *)
Inductive part := PWitness | PFixed | PTable | PSigma | PBlind | PLookup | PLookupZ | PProduct | PQuotient.
Definition evals_of {F : fieldType} {PC : pcs F} (g : part) (pf : tp_proof PC) : seq F :=
  match g with
  | PWitness => tp_witness_evals pf
  | PFixed => tp_fixed_evals pf
  | PTable => tp_table_evals pf
  | PSigma => tp_perm_evals pf
  | PBlind => [:: tp_q_blind_eval pf]
  | PLookup => tp_lookup_evals pf
  | PLookupZ => tp_lookup_z_evals pf
  | PProduct => tp_z_evals pf
  | PQuotient => take (size (tp_quotient_commitments pf)) (tp_quotient_evals pf)
  end.
(** The proof in which [v] replaces the evaluation number [j] of such a vector. *)
Definition with_eval {F : fieldType} {PC : pcs F} (pf : tp_proof PC) (g : part) (j : nat) (v : F) : tp_proof PC :=
  let put h es := match g, h with
    | PWitness, PWitness | PFixed, PFixed | PTable, PTable | PSigma, PSigma | PBlind, PBlind
    | PLookup, PLookup | PLookupZ, PLookupZ | PProduct, PProduct | PQuotient, PQuotient => set_nth 0 es j v
    | _, _ => es
    end in
  TPProof (tp_witness_commitments pf) (put PWitness (tp_witness_evals pf)) (put PFixed (tp_fixed_evals pf)) (put PTable (tp_table_evals pf))
    (put PSigma (tp_perm_evals pf)) (head 0 (put PBlind [:: tp_q_blind_eval pf])) (tp_lookup_commitments pf) (tp_lookup_z_commitments pf)
    (put PLookup (tp_lookup_evals pf)) (put PLookupZ (tp_lookup_z_evals pf)) (tp_z_commitments pf) (put PProduct (tp_z_evals pf))
    (tp_quotient_commitments pf) (put PQuotient (tp_quotient_evals pf)) (tp_multiopen pf).

(** The proof with another opening proof [p] at its end. *)
Definition with_opening {F : fieldType} {PC : pcs F} (pf : tp_proof PC) (p : pc_proof PC) : tp_proof PC :=
  TPProof (tp_witness_commitments pf) (tp_witness_evals pf) (tp_fixed_evals pf) (tp_table_evals pf) (tp_perm_evals pf)
    (tp_q_blind_eval pf) (tp_lookup_commitments pf) (tp_lookup_z_commitments pf) (tp_lookup_evals pf) (tp_lookup_z_evals pf)
    (tp_z_commitments pf) (tp_z_evals pf) (tp_quotient_commitments pf) (tp_quotient_evals pf)
    (MoProof (mp_q_evals (tp_multiopen pf)) (mp_f_commit (tp_multiopen pf)) p).

(** The scalar random_v in an opening proof of KZG10, 0 if it is left out. *)
Definition random_v {F : fieldType} {G : lmodType F} (p : G * option F) : F := if p.2 is Some r then r else 0.
