(** Property theorems C46 (both sides derive the same challenges) and C47 (what the challenges
    bind). The vocabulary is in SpecTranscript.v, SpecMultiopen.v ([scripted]) and PropsPC.v
    (transcript histories); the proofs are in ProofProver.v, ProofFront.v, ProofInstances.v. *)
From mathcomp Require Import all_ssreflect all_algebra.
From Verif Require Import Base ModelPoly ModelVO ModelOracle ModelPC ModelPermutation ModelLookup ModelIndexer ModelMultiproof ModelProtocol
  Spec SpecProtocol SpecMultiopen SpecTranscript ProofBase ProofPoly ProofDomain ProofOracle ProofProver ProofFront ProofInstances PropsPC.

Set Implicit Arguments.
Unset Strict Implicit.
Unset Printing Implicit Defensive.

Import GRing.Theory.
Local Open Scope ring_scope.

(** ** C46 *)
(** Let cs be the nine challenges the verifier derives from a proof returned by prove. Then prove
    with its hash-based challenges replaced by the list cs returns the same proof (so cs are the
    challenges the prover used), and verify with its challenges replaced by the same list gives the
    same verdict, whatever the other inputs of verify. *)
Theorem c46_same_challenges (F : fieldType) (env : fenv F) (PC : pcs F) (FS : fsrng F) (ck : pc_ck PC) (vk : verifier_key F)
    (pre : prover_pre PC) (ws ins : seq (poracle F)) (vos : seq (generic_vo F)) (n : nat) (zk zk' : pc_zk PC) (pf : tp_proof PC) :
  tp_prove env FS ck vk pre ws ins vos n zk = Ok (pf, zk') ->
  let cs := verifier_challenges FS pf in
  [/\ size cs = 9%N,
      tp_prove env (scripted cs) ck vk pre ws ins vos n zk = Ok (pf, zk') &
      forall pvk vk' vpre vws vins vos' m z_h,
        (tp_verify env FS pvk vk' vpre pf vws vins vos' m z_h).1 =
        (tp_verify env (scripted cs) pvk vk' vpre pf vws vins vos' m z_h).1].
Proof.
move=> H cs; split.
- rewrite /cs /verifier_challenges /mo_challenges size_cat /=.
  by case: (fs_rand _) => x1 f1; case: (fs_rand _) => x2 f2; case: (fs_rand _) => x3 f3; case: (fs_rand _).
- have [T [HT [fs' Hmo]]] := prover_inv H.
  have [fs'' Hmo'] := mo_prove_replay Hmo.
  exact: (prover_replay HT Hmo').
- move=> pvk vk' vpre vws vins vos' m z_h.
  apply: (etrans (proj1 (verify_frontE _ _ _ _ _ _ _ _ _ _ _))).
  apply/esym; apply: (etrans (proj1 (verify_frontE _ _ _ _ _ _ _ _ _ _ _))); apply/esym.
  apply: rbind_congr => T _; apply: rbind_congr => _ _.
  exact: mo_verify_replay.
Qed.
Print Assumptions c46_same_challenges.

(** The verdict replay needs no honest prover: it holds for every proof. *)
Theorem c46_verifier_challenges (F : fieldType) (env : fenv F) (PC : pcs F) (FS : fsrng F) (pf : tp_proof PC)
    (pvk : pc_vk PC) (vk : verifier_key F) (pre : verifier_pre PC) (ws : seq (voracle F (pc_com PC))) (ins : seq (ioracle F))
    (vos : seq (generic_vo F)) (n : nat) (z_h : lpoly F) :
  (tp_verify env FS pvk vk pre pf ws ins vos n z_h).1 =
  (tp_verify env (scripted (verifier_challenges FS pf)) pvk vk pre pf ws ins vos n z_h).1.
Proof.
apply: (etrans (proj1 (verify_frontE _ _ _ _ _ _ _ _ _ _ _))).
apply/esym; apply: (etrans (proj1 (verify_frontE _ _ _ _ _ _ _ _ _ _ _))); apply/esym.
apply: rbind_congr => T _; apply: rbind_congr => _ _.
exact: mo_verify_replay.
Qed.
Print Assumptions c46_verifier_challenges.

(** ** C47 *)
(** What a proof contributes to the transcript up to the multi-opening, in order. *)
Definition commitment_history (F : fieldType) (PC : pcs F) (pf : tp_proof PC) : seq event :=
  [:: Absorb (coms_bytes (tp_witness_commitments pf)); Draw;
      Absorb (coms_bytes (tp_lookup_commitments pf)); Draw; Draw;
      Absorb (coms_bytes (tp_z_commitments pf)); Absorb (coms_bytes (tp_lookup_z_commitments pf)); Draw;
      Absorb (coms_bytes (tp_quotient_commitments pf)); Draw].

(** What does hold: the transcript is exactly this history, so two proofs whose commitments differ
    in some round lead to different seeds, unless the hash has a collision. *)
Theorem c47_commitments_bound (F : fieldType) (PC : pcs F) (R : Type) (H : bytes -> bytes) (of_seed : bytes -> R) (draw : R -> F * R)
    (L : nat) (pf pf' : tp_proof PC) :
  let FS := simple_hash_rng H of_seed draw in
  let seed p := (ch_fs (derive_challenges FS p)).2 in
  ch_fs (derive_challenges FS pf) = run H of_seed draw PROTOCOL_NAME (commitment_history pf) /\
  ((forall x, size (H x) = L) -> (size PROTOCOL_NAME < L)%N ->
   absorbed (commitment_history pf) <> absorbed (commitment_history pf') -> seed pf = seed pf' ->
   exists x y, x <> y /\ H x = H y).
Proof.
move=> FS seed.
have E p : ch_fs (derive_challenges FS p) = run H of_seed draw PROTOCOL_NAME (commitment_history p).
  rewrite /derive_challenges /run /commitment_history.
  rewrite -[fs_init FS _]/(fs_init (simple_hash_rng H of_seed draw) PROTOCOL_NAME).
  case: (fs_init _ _) => r s; rewrite /= /sh_rand /sh_absorb /=.
  by do 5! [case: (draw _) => ? ?; rewrite /=].
split; first exact: E.
move=> HL Hn ne; rewrite /seed !E => Es.
exact: (c53_history_bound HL Hn Es ne).
Qed.
Print Assumptions c47_commitments_bound.

(** The whole transcript of a proof, and the challenges drawn along a history. *)
Definition proof_history (F : fieldType) (PC : pcs F) (pf : tp_proof PC) : seq event :=
  commitment_history pf ++
  [:: Draw; Draw; Absorb (pc_bytes (mp_f_commit (tp_multiopen pf))); Draw; Absorb (fs_bytes PC (mp_q_evals (tp_multiopen pf))); Draw].
Definition challenges_drawn (F : fieldType) (R : Type) (H : bytes -> bytes) (of_seed : bytes -> R) (draw : R -> F * R) (b0 : bytes) (es : seq event) : seq F :=
  flatten [seq (if nth Draw es k is Draw then [:: (draw (run H of_seed draw b0 (take k es)).1).1] else [::]) | k <- iota 0 (size es)].
(** The verdict on a proof is that of the nine challenges drawn along this history; and two proofs
    that differ in what it absorbs - a commitment of some round, the commitment of the multi-opening
    or its q_evals - end with different seeds, unless the hash has a collision. *)
Theorem c47_proof_history_bound (F : fieldType) (env : fenv F) (PC : pcs F) (R : Type) (H : bytes -> bytes) (of_seed : bytes -> R) (draw : R -> F * R)
    (L : nat) (pf pf' : tp_proof PC) :
  let FS := simple_hash_rng H of_seed draw in
  let seed p := (run H of_seed draw PROTOCOL_NAME (proof_history p)).2 in
  (forall pvk vk pre ws ins vos n z_h,
     (tp_verify env FS pvk vk pre pf ws ins vos n z_h).1 =
     (tp_verify env (scripted (challenges_drawn H of_seed draw PROTOCOL_NAME (proof_history pf))) pvk vk pre pf ws ins vos n z_h).1) /\
  ((forall x, size (H x) = L) -> (size PROTOCOL_NAME < L)%N ->
   absorbed (proof_history pf) <> absorbed (proof_history pf') -> seed pf = seed pf' ->
   exists x y, x <> y /\ H x = H y).
Proof.
move=> FS seed; split=> [pvk vk pre ws ins vos n z_h|HL Hn ne Es]; last exact: (c53_history_bound HL Hn Es ne).
rewrite c46_verifier_challenges; congr ((tp_verify env (scripted _) pvk vk pre pf ws ins vos n z_h).1).
rewrite /verifier_challenges /mo_challenges /derive_challenges /challenges_drawn /run /proof_history /commitment_history.
rewrite -[fs_init FS _]/(fs_init (simple_hash_rng H of_seed draw) PROTOCOL_NAME).
case: (fs_init _ _) => r s; rewrite /= /sh_rand /sh_absorb /=.
by do 9! [case: (draw _) => ? ?; rewrite /=].
Qed.
Print Assumptions c47_proof_history_bound.

(** What does not: the public inputs are not part of it. The verdict on any proof is the same for
    any two public inputs whose polynomials agree at the points where the verifier reads them, which
    are known once the proof is fixed; the verdict does not depend on anything else about them. *)
Theorem c47_public_inputs_not_bound (F : fieldType) (env : fenv F) (PC : pcs F) (FS : fsrng F) (pvk : pc_vk PC) (vk : verifier_key F)
    (pre : verifier_pre PC) (pf : tp_proof PC) (ws : seq (voracle F (pc_com PC))) (ins ins' : seq (ioracle F))
    (vos : seq (generic_vo F)) (n : nat) (d : domain F) (z_h : lpoly F) (rots : seq rotation) :
  let xi := ch_xi (derive_challenges FS pf) in
  domain_new env n = Some d -> domain_ok d ->
  (forall vo e q, occurs vo vos -> gv_get_expression vo = Ok e -> occurs q (leaves e) -> oq_type q = Instance -> oq_rot q \in rots) ->
  [seq o_label o | o <- ins] = [seq o_label o | o <- ins'] ->
  (forall j o o' r, idx ins j = Ok o -> idx ins' j = Ok o' -> r \in curr :: rots ->
     peval (o_data o) (rot_point (dgen d) r xi) = peval (o_data o') (rot_point (dgen d) r xi)) ->
  (tp_verify env FS pvk vk pre pf ws ins vos n z_h).1 = (tp_verify env FS pvk vk pre pf ws ins' vos n z_h).1.
Proof.
move=> xi Hd dok Hrots Hl Ha.
apply: (@verify_agree F env PC ins ins' Hl d xi rots _ dok vk vos Hrots FS pvk pre pf ws n z_h Hd (erefl xi)).
by move=> j o o' H1 H2 r H3; apply: (Ha j).
Qed.
Print Assumptions c47_public_inputs_not_bound.

(** ** Concrete cases *)
From Coq Require Import NArith String.
From Verif Require Import Field97 Concrete ProofConcrete ProofTools Run97.
Local Close Scope ring_scope.

(** The circuit of Run97.v: prove succeeds and the proof verifies. *)
Lemma r_run_ok : r_run = Ok (r_proof, (ok_or (r_dummy, 0%num) r_run).2).
Proof.
have H : ok_any r_run by vm_compute.
rewrite /r_proof; move: H; case: r_run => // -[a b] //.
Qed.
Example ex_c46 : ok_any r_run /\ ok_is (r_verify r_proof r_vins).1 tt.
Proof. by split; vm_compute. Qed.

(** Different proofs of the same statement: other blinding randomness, other commitments. *)
Definition r_proof2 := (ok_or (r_dummy, 0%num)
  (tp_prove env97 (PC := KZG97) FS97 srs97 r_vk r_pre r_ws r_ins r_vos 8 12%num)).1.
Example ex_c47_history : absorbed (commitment_history r_proof) <> absorbed (commitment_history r_proof2).
Proof. by apply/eqP; vm_compute. Qed.

(** Refutation of C47 for public inputs: a claimed public input with other values (83 instead of
    82 in row 2 and 19 instead of 0 in row 3), which violates the arithmetic gate, is accepted with
    the unchanged proof. *)
Definition r_ins' : seq (poracle f97_fieldType) :=
  [:: Oracle "pi"%string [:: curr] (o_data (porc Instance 8 "pi" (col [:: 0; 0; 83; 19; 0; 0; 0; 0]) false))].
Theorem c47_public_input_refuted :
  let run ins := (tp_verify env97 (PC := KZG97) FS97 srs97 r_vk r_vpre r_proof r_vws (map vinst ins) r_vos 8 r_zh).1 in
  [/\ run r_ins = Ok tt, mock_prove env97 r_pre r_ws r_ins r_vos 8 = Ok tt,
      run r_ins' = Ok tt & mock_prove env97 r_pre r_ws r_ins' r_vos 8 = Panic (PMock 0 2)] /\
  [seq po_evals o | o <- r_ins] = [:: col [:: 0; 0; 82; 0; 0; 0; 0; 0]] /\
  [seq po_evals o | o <- r_ins'] = [:: col [:: 0; 0; 83; 19; 0; 0; 0; 0]].
Proof.
split; last by split; apply/eqP; vm_compute; reflexivity.
split; [by apply: ok_isP; vm_compute|by apply: ok_isP; vm_compute|by apply: ok_isP; vm_compute|].
by vm_compute.
Qed.
Print Assumptions c47_public_input_refuted.

(** The hypotheses of [c47_public_inputs_not_bound] for these two public inputs: same labels, all
    instance queries at the current row, same value at xi. *)
Example ex_c47 : let xi := ch_xi (derive_challenges FS97 r_proof) in
  [/\ all (fun vo => if gv_get_expression vo is Ok e
                     then all (fun q => if oq_type q is Instance then oq_rot q == curr else true) (leaves e) else false) r_vos,
      [seq o_label o | o <- map vinst r_ins] == [seq o_label o | o <- map vinst r_ins'] &
      [seq peval (F := f97_fieldType) (o_data o) xi | o <- map vinst r_ins]
      == [seq peval (F := f97_fieldType) (o_data o) xi | o <- map vinst r_ins']].
Proof. by split; vm_compute. Qed.
