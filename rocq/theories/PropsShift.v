(** C71: proofs of false statements made by moving two quotient evaluations. The forged proofs are
    defined in SpecShift.v; the proofs are in ProofShift.v. *)
From mathcomp Require Import all_ssreflect all_algebra.
From mathcomp Require Import zify.
From Verif Require Import Base ModelPoly ModelVO ModelOracle ModelPC ModelPermutation ModelLookup ModelIndexer ModelMultiproof ModelProtocol
  Spec SpecProtocol SpecPIOP SpecMultiopen SpecCircuit SpecSound SpecShift ProofBase ProofPoly ProofDomain ProofOracle ProofPermutation ProofPermArg ProofOpen ProofLookup ProofIndexer ProofColumns
  ProofPIOP ProofPIOP2 ProofPIOP3 ProofEach ProofProver ProofFront ProofInstances ProofRounds ProofHonest ProofComplete PropsMultiopen ProofShift.

Set Implicit Arguments.
Unset Strict Implicit.
Unset Printing Implicit Defensive.

Import GRing.Theory.
Local Open Scope ring_scope.

(** Whatever the witness, the openings in a proof returned by prove are accepted. *)
Lemma prove_opens (F : fieldType) (env : fenv F) (PC : pcs F) (FS : fsrng F) (ck : pc_ck PC) (pvk : pc_vk PC)
    (C : circuit F) (vk : verifier_key F) (es : seq (expr F oquery))
    (vws : seq (voracle F (pc_com PC))) (vins : seq (ioracle F)) (vpre : verifier_pre PC) (zk zk' : pc_zk PC) (pf : tp_proof PC) :
  let N := dsize (ix_ext (vk_index vk)) in let n := c_rows C in let ch := derive_challenges FS pf in
  fenv_ok env -> pcs_correct ck pvk -> std_domain env (c_d C) ->
  indexed env C vk -> laid_out C -> gates_ok C es -> lookups_ok C N ->
  verifier_copy ck C vws vins vpre ->
  tp_prove env FS ck vk (preprocessed env PC C vk) (c_ws C) (c_ins C) (c_vos C) n zk = Ok (pf, zk') ->
  (forall r, rot_point (dgen (c_d C)) r (ch_xi ch) != x3_of (ch_fs ch) (tp_multiopen pf)) ->
  exists T, [/\ verify_front env vk vpre pf vws vins n (ch_theta ch) (ch_xi ch) = Ok T,
    vt_check vk vins (c_vos C) n (c_zh C) (ch_beta ch) (ch_gamma ch) (ch_alpha ch) (ch_xi ch) T = Ok tt \/
    vt_check vk vins (c_vos C) n (c_zh C) (ch_beta ch) (ch_gamma ch) (ch_alpha ch) (ch_xi ch) T = Err QuotientNotZero &
    mo_verify env pvk (tp_multiopen pf) (vt_oracles T) (ch_xi ch) n (ch_fs ch) = Ok tt].
Proof.
move=> N n ch eok law sd ixd lay gok lks copy Hp Hx3.
have [T [tr [fs' Hmo]]] := prover_inv Hp; rewrite -/ch in tr Hmo.
have [ge eo ed] := gok; have k0 := vos_pos tr; have shape := honest_shape eok sd ixd lay tr.
have [VT [VE Vd Vs Vst]] := front_ok eok sd ixd lay lks tr copy.
exists VT; split; first exact: VE.
- have eo' := exprs_ok_ext env (ix_ext (vk_index vk)) eo; have ed' := exprs_declared_ext env (ix_ext (vk_index vk)) ed.
  have [[uw _] [ui _] [uf _] _ _ _ _ _] := honest_ok eok sd ixd lay lks tr.
  have Q := quotient_checkE eok sd ge shape eo' k0 uw ui uf ed' Vs erefl erefl erefl (vpre := vt_pre VT).
  move: Q => /(_ (ch_beta ch) (ch_gamma ch) (ch_alpha ch) (c_zh C)); rewrite -/(vt_copied VT) => Q.
  by rewrite /vt_check Vd Q; case: ifP; [right|left].
have [E1 E2 E3] := each3_unzip Vst.
pose ts := [seq (t.1.2, t.2, t.1.1) | t <- zip (zip (vt_oracles VT) (t_oracles (preprocessed env PC C vk) (ws_ext env vk (c_ws C)) T)) (t_rands (preprocessed env PC C vk) T)].
have Ets : [/\ [seq t.1.1 | t <- ts] = t_oracles (preprocessed env PC C vk) (ws_ext env vk (c_ws C)) T,
    [seq t.1.2 | t <- ts] = t_rands (preprocessed env PC C vk) T & [seq t.2 | t <- ts] = vt_oracles VT].
  by rewrite /ts -!map_comp; split.
have [M1 M2 M3] := Ets; have Ed : domain_new env n = Some (c_d C) by rewrite -(t_dE sd tr); exact: pt_d tr.
have Hm := @c40_multiopen_completeness F env PC FS ck pvk n (c_d C) (ch_xi ch) ts (ch_fs ch) fs' (t_zk8 T) zk' (tp_multiopen pf) eok law Ed.
rewrite M1 M2 M3 in Hm; apply: Hm => //.
move=> p r v0 Ho; have [[[v' p'] r'] Ho' [-> -> ->]] := occurs_map Ho; exact: (each3_occurs Vst Ho').
Qed.

(** ** C71 *)
(** A proof returned by prove, for any witness, also one that violates the gates. If it has at least
    two quotient commitments, adding x1 delta to its first quotient evaluation and subtracting delta
    from the second makes verify accept, for some delta. The two exceptions have small probability: xi a
    root of z_h, and x1, which is drawn after xi, equal to xi^n. (The condition on x3 is that of C40.) *)
Theorem c71_forged_from_any_witness (F : fieldType) (env : fenv F) (PC : pcs F) (FS : fsrng F) (ck : pc_ck PC) (pvk : pc_vk PC)
    (C : circuit F) (vk : verifier_key F) (es : seq (expr F oquery))
    (vws : seq (voracle F (pc_com PC))) (vins : seq (ioracle F)) (vpre : verifier_pre PC) (zk zk' : pc_zk PC) (pf : tp_proof PC) :
  let N := dsize (ix_ext (vk_index vk)) in let n := c_rows C in let ch := derive_challenges FS pf in
  let x1 := (fs_rand (ch_fs ch)).1 in
  fenv_ok env -> pcs_correct ck pvk -> std_domain env (c_d C) ->
  indexed env C vk -> laid_out C -> gates_ok C es -> lookups_ok C N ->
  verifier_copy ck C vws vins vpre ->
  tp_prove env FS ck vk (preprocessed env PC C vk) (c_ws C) (c_ins C) (c_vos C) n zk = Ok (pf, zk') ->
  (forall r, rot_point (dgen (c_d C)) r (ch_xi ch) != x3_of (ch_fs ch) (tp_multiopen pf)) ->
  (1 < size (tp_quotient_commitments pf))%N -> ch_xi ch ^+ n != x1 -> (Poly (c_zh C)).[ch_xi ch] != 0 ->
  exists delta, (tp_verify env FS pvk vk vpre (shift_quotient x1 delta pf) vws vins (c_vos C) n (c_zh C)).1 = Ok tt.
Proof.
move=> N n ch x1 eok law sd ixd lay gok lks copy Hp Hx3 sq nx nz.
have [T [Hf Hc Hm]] := prove_opens eok law sd ixd lay gok lks copy Hp Hx3.
by have := @forge F env PC FS pvk (VInput vk vpre vws vins (c_vos C) (c_d C) (c_zh C)) pf T eok Hf Hc Hm sq nx nz.
Qed.
Print Assumptions c71_forged_from_any_witness.

(** The same for a proof that is accepted: for other public inputs, other gates or another vanishing
    polynomial, if verify rejects it with QuotientNotZero, it accepts it with the two evaluations moved.
    Nothing is assumed about who made the proof or about the commitment scheme. *)
Theorem c71_accepted_proof_reused (F : fieldType) (env : fenv F) (PC : pcs F) (FS : fsrng F) (pvk : pc_vk PC)
    (S : vinput PC) (pf : tp_proof PC) (ins : seq (ioracle F)) (vos : seq (generic_vo F)) (z_h : lpoly F) :
  let ch := derive_challenges FS pf in let x1 := (fs_rand (ch_fs ch)).1 in
  fenv_ok env ->
  verdict env FS pvk S pf = Ok tt ->
  verdict env FS pvk (other_statement S ins vos z_h) pf = Err QuotientNotZero ->
  (1 < size (tp_quotient_commitments pf))%N -> ch_xi ch ^+ dsize (s_d S) != x1 -> (Poly z_h).[ch_xi ch] != 0 ->
  exists delta, verdict env FS pvk (other_statement S ins vos z_h) (shift_quotient x1 delta pf) = Ok tt.
Proof.
move=> ch x1 eok H H' sq nx nz; set S' := other_statement S ins vos z_h.
have {H} E := etrans (esym (proj1 (verify_frontE env FS pvk _ _ _ _ _ _ _ _))) H.
have {H'} E' := etrans (esym (proj1 (verify_frontE env FS pvk _ _ _ _ _ _ _ _))) H'.
rewrite -/ch in E E'; have [T Hf E1] := rbind_ok E; have [[] Hc Hm] := rbind_ok E1.
have [nv Eo] := front_ins ins Hf; rewrite -/S' in E'.
case Ef: (verify_front env (s_vk S) (s_pre S) pf (s_ws S) ins (dsize (s_d S)) (ch_theta ch) (ch_xi ch)) nv => [T'|e|p] nv.
- have Eq := Eo T' Ef.
  apply: (@forge F env PC FS pvk S' pf T') => //; last by rewrite Eq.
  move: E'; rewrite Ef rbind_Ok Eq Hm.
  by case: (vt_check _ _ _ _ _ _ _ _ _ T') => [[]|e|p] //= -[->]; right.
- by move: E'; rewrite Ef => -[Ee]; case: nv; rewrite Ee.
- by move: E'; rewrite Ef.
Qed.
Print Assumptions c71_accepted_proof_reused.

(** ** Concrete cases *)
From Coq Require Import NArith String.
From Verif Require Import Field97 Concrete ProofPC ProofConcrete ProofTools ProofCheck ProofIndexerExamples Run97 PropsTranscript PropsEndToEnd PropsProve PropsMalleable PropsUnopened.
Local Close Scope ring_scope.

(** The circuit of C63 that no witness satisfies: the proof that prove returns is rejected, and is
    accepted with two quotient evaluations moved. *)
Definition w_x1 : F97 := (fs_rand (ch_fs (derive_challenges FS97 w_proof))).1.
Example ex_c71_forged :
  [/\ forall ws, meaning (row_value ws (c_ins w_C) (c_fs w_C) (c_rows w_C) 6) w_gate <> 0%R,
      w_verify w_proof = Err QuotientNotZero &
      exists delta, w_verify (shift_quotient w_x1 delta w_proof) = Ok tt].
Proof.
split; [by move=> ws; rewrite w_unsatisfiable => /eqP; rewrite oner_eq0|by vm_compute|].
apply: (@c71_forged_from_any_witness F97 env97 KZG97 FS97 srs97 srs97 w_C r_vk (r_exprs w_C) (map vwit (c_ws w_C)) (map vinst (c_ins w_C)) (vpre97 w_C)
  15%num (ok_or (r_dummy, 0%num) w_run).2 w_proof env97_ok law97 w_domain w_indexed w_laid w_gates w_lookups w_copy w_run_ok w_x3).
- by vm_compute.
- by vm_compute.
- by rewrite -pevalE; vm_compute.
Qed.

(** The accepted proof of Run97.v for the public input 82, reused for the public input 5. *)
Definition m_ins5 : seq (ioracle F97) := map vinst (r_pi 5).
Definition m_x1 : F97 := (fs_rand (ch_fs (derive_challenges FS97 r_proof))).1.
Example ex_c71_reused :
  verdict env97 FS97 (PC := KZG97) srs97 (other_statement m_S m_ins5 r_vos r_zh) r_proof = Err QuotientNotZero /\
  exists delta, verdict env97 FS97 (PC := KZG97) srs97 (other_statement m_S m_ins5 r_vos r_zh) (shift_quotient m_x1 delta r_proof) = Ok tt.
Proof.
have H : verdict env97 FS97 (PC := KZG97) srs97 (other_statement m_S m_ins5 r_vos r_zh) r_proof = Err QuotientNotZero by vm_compute.
split; first exact H.
apply (@c71_accepted_proof_reused F97 env97 KZG97 FS97 srs97 m_S r_proof m_ins5 r_vos r_zh env97_ok r_accepted H).
- by vm_compute.
- by vm_compute.
- by rewrite -pevalE; vm_compute.
Qed.
