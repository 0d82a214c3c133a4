(** What verify calls leave behind for later ones: C49, C58. *)
From mathcomp Require Import all_ssreflect all_algebra zify.
From Coq Require Import String Lia.
From Verif Require Import Base ModelPoly ModelVO ModelOracle ModelPC ModelPermutation ModelLookup
  ModelIndexer ModelMultiproof ModelProtocol Spec SpecProtocol SpecPIOP SpecMultiopen SpecCircuit SpecSound SpecShape
  ProofBase ProofPoly ProofDomain ProofVO ProofOracle ProofHistory.

Set Implicit Arguments.
Unset Strict Implicit.
Unset Printing Implicit Defensive.

Import GRing.Theory.
Local Open Scope ring_scope.

(** ** C49 *)
(** For proofs with a witness commitment for every witness column, nothing earlier calls left in the oracles matters.
    Missing: proofs with fewer commitments, for which the claim is false (c49_history_refuted). *)
Theorem c49_history_partial (F : fieldType) (env : fenv F) (PC : pcs F) (FS : fsrng F) (pvk : pc_vk PC) (S : vinput PC)
    (es : seq (expr F oquery)) (earlier : seq (tp_proof PC)) (pf : tp_proof PC) :
  fenv_ok env -> std_domain env (s_d S) -> verifiable S es ->
  (size (s_ws S) <= size (tp_witness_commitments pf))%N ->
  verdict env FS pvk (after_all env FS pvk S earlier) pf = verdict env FS pvk S pf.
Proof. by move=> eok sd rdy; exact: history_full eok _ _ sd rdy _ _. Qed.
Print Assumptions c49_history_partial.

(** ** C58 *)
(** In general the verdict is the one on oracles that only hold the commitments of the earlier proofs: evaluations
    left by earlier calls never matter. *)
Theorem c58_leftovers (F : fieldType) (env : fenv F) (PC : pcs F) (FS : fsrng F) (pvk : pc_vk PC) (S : vinput PC)
    (es : seq (expr F oquery)) (earlier : seq (tp_proof PC)) (pf : tp_proof PC) :
  fenv_ok env -> std_domain env (s_d S) -> verifiable S es ->
  verdict env FS pvk (after_all env FS pvk S earlier) pf =
  verdict env FS pvk (with_commitments S (map (@tp_witness_commitments F PC) earlier)) pf.
Proof. by move=> eok sd rdy; exact (history_leftover FS pvk eok sd rdy earlier pf). Qed.
Print Assumptions c58_leftovers.

(** ** Concrete cases *)
From Coq Require Import NArith.
From Verif Require Import ModelGates Field97 Concrete ProofPC ProofConcrete ProofTools ProofCheck ProofCheck2 Run97 PropsTranscript PropsEndToEnd PropsAttack.
Local Close Scope ring_scope.

(** The circuit w0^2 = 4, indexed, and the proofs for w0 = 2 with the witness commitments [cs]. *)
Definition h_vo0 : generic_vo F97 := gv_init (esub (emul (Orc (wq 0 curr)) (Orc (wq 0 curr))) (Const (n97 4)), [:: wq 0 curr]).
Definition h_conf := ok_or (h_vo0, ([:: u_col], [::], [::]))
  (gv_configure h_vo0 ([:: u_col], [::] : seq (ioracle F97), [::] : seq (voracle F97 (pc_com KZG97)))).
Definition h_vk := ok_or r_vk0 (ModelIndexer.index env97 (fun o : vdata F97 (pc_com KZG97) => vd_permute o) [:: h_conf.1] [::]
   h_conf.2.1.1 h_conf.2.1.2 h_conf.2.2 r_d r_zh (permutation_info_dummy F97) 8).
Definition h_zero : voracle F97 (pc_com KZG97) := Oracle "q_blind"%string [:: curr] (@VData F97 (pc_com KZG97) Fixed [::] (Some (pc_zero KZG97)) false).
Definition h_S : vinput KZG97 :=
  VInput h_vk (VerifierPre [::] [::] [::] h_zero) h_conf.2.1.1 h_conf.2.1.2 [:: h_conf.1] r_d r_zh.
Definition h_e : expr F97 oquery :=
  esub (emul (Orc (OQuery "w"%string curr Witness)) (Orc (OQuery "w"%string curr Witness))) (Const (n97 4)).
Lemma h_verifiable : verifiable h_S [:: h_e].
Proof. by apply: verifiableP; [vm_compute|vm_compute|apply: (f_equal (cons^~ [::])); vm_compute|vm_compute]. Qed.
Definition h_two : pc_com KZG97 := ok_or (pc_zero KZG97) (pc_commit1 (p := KZG97) srs97 [:: n97 2] (pc_empty KZG97)).
Definition h_pf (cs : seq (pc_com KZG97)) : tp_proof KZG97 :=
  @TPProof F97 KZG97 cs [:: n97 2] [::] [::] [::] 0%R [::] [::] [::] [::] [::] [::] [:: pc_zero KZG97] [:: 0%R]
    (@MoProof F97 KZG97 [:: n97 2] (pc_zero KZG97) (0%R, None)).
Definition h_v S pf := verdict env97 FS97 (PC := KZG97) srs97 S pf.
Lemma h_accepted : h_v h_S (h_pf [:: h_two]) = Ok tt. Proof. by vm_compute. Qed.
Lemma h_missing : h_v h_S (h_pf [::]) = Err (MissingWitnessCommitment "w"%string). Proof. by vm_compute. Qed.
Lemma h_stale : h_v (after_all env97 FS97 (PC := KZG97) srs97 h_S [:: h_pf [:: h_two]]) (h_pf [::]) = Ok tt. Proof. by vm_compute. Qed.

(** Refutation: for a well formed circuit, after a proof was accepted, another one that does not carry the witness
    commitment is accepted too, although it is rejected when the oracles are fresh. *)
Theorem c49_history_refuted : exists (F : fieldType) (env : fenv F) (PC : pcs F) (FS : fsrng F) (pvk : pc_vk PC) (S : vinput PC)
    (es : seq (expr F oquery)) (first second : tp_proof PC),
  [/\ fenv_ok env, std_domain env (s_d S), verifiable S es, verdict env FS pvk S first = Ok tt &
      (exists e, verdict env FS pvk S second = Err e) /\ verdict env FS pvk (after_all env FS pvk S [:: first]) second = Ok tt].
Proof.
exists F97, env97, KZG97, FS97, srs97, h_S, [:: h_e], (h_pf [:: h_two]), (h_pf [::]).
split; [exact env97_ok|exact dom97_8|exact h_verifiable|exact h_accepted|split; [eexists; exact h_missing|exact h_stale]].
Qed.
Print Assumptions c49_history_refuted.

(** The proof of r_run, after one that panics, one that is rejected and the proof itself. *)
Definition r_bad : tp_proof KZG97 :=
  TPProof (tp_witness_commitments r_proof) (map (fun x => x + 1)%R (tp_witness_evals r_proof)) (tp_fixed_evals r_proof) (tp_table_evals r_proof) (tp_perm_evals r_proof)
    (tp_q_blind_eval r_proof) (tp_lookup_commitments r_proof) (tp_lookup_z_commitments r_proof) (tp_lookup_evals r_proof) (tp_lookup_z_evals r_proof)
    (tp_z_commitments r_proof) (tp_z_evals r_proof) (tp_quotient_commitments r_proof) (tp_quotient_evals r_proof) (tp_multiopen r_proof).
Example ex_c49 : h_v r_S r_bad = Err QuotientNotZero /\ (exists p, h_v r_S r_short = Panic p) /\
  forall pf, size (tp_witness_commitments pf) = size (s_ws r_S) ->
  h_v (after_all env97 FS97 (PC := KZG97) srs97 r_S [:: r_short; r_bad; r_proof]) pf = h_v r_S pf.
Proof.
split; [by vm_compute|split; [eexists; vm_compute; reflexivity|]].
move=> pf E; apply (@c49_history_partial F97 env97 KZG97 FS97 srs97 r_S (r_exprs r_C) [:: r_short; r_bad; r_proof] pf env97_ok dom97_8 r_verifiable).
by rewrite E.
Qed.
Example ex_c58 : h_v (with_commitments h_S [:: [:: h_two]]) (h_pf [::]) = Ok tt.
Proof.
exact (etrans (esym (@c58_leftovers F97 env97 KZG97 FS97 srs97 h_S [:: h_e] [:: h_pf [:: h_two]] (h_pf [::]) env97_ok dom97_8 h_verifiable)) h_stale).
Qed.
