(** Property theorems about evaluations that verify does not check against a commitment: C63. The
    altered proofs are defined in SpecUnopened.v; the proofs are in ProofUnopened.v. *)
From mathcomp Require Import all_ssreflect all_algebra.
From mathcomp Require Import zify.
From Verif Require Import Base ModelPoly ModelVO ModelOracle ModelPC ModelPermutation ModelLookup ModelIndexer ModelMultiproof ModelProtocol
  Spec SpecProtocol SpecPIOP SpecMultiopen SpecCircuit SpecUnopened ProofBase ProofEach ProofUnopened.

Set Implicit Arguments.
Unset Strict Implicit.
Unset Printing Implicit Defensive.

Import GRing.Theory.
Local Open Scope ring_scope.

(** ** C63 *)
(** A proof returned by prove - for any witness, also one that violates the gates - in which the
    claimed evaluation of q_blind is replaced by [v]. If the q_blind column is registered with no
    rotation (as VerifierPreprocessedInput::new_wo_blind does), either the verdict does not depend
    on [v], or there is exactly one [v] that is accepted. *)
Theorem c63_q_blind_not_opened (F : fieldType) (env : fenv F) (PC : pcs F) (FS : fsrng F) (ck : pc_ck PC) (pvk : pc_vk PC)
    (C : circuit F) (vk : verifier_key F) (es : seq (expr F oquery))
    (vws : seq (voracle F (pc_com PC))) (vins : seq (ioracle F)) (vpre : verifier_pre PC)
    (zk zk' : pc_zk PC) (pf : tp_proof PC) :
  let N := dsize (ix_ext (vk_index vk)) in let n := c_rows C in
  let ch := derive_challenges FS pf in
  let verdict v := (tp_verify env FS pvk vk vpre (with_q_blind v pf) vws vins (c_vos C) n (c_zh C)).1 in
  fenv_ok env -> pcs_correct ck pvk -> std_domain env (c_d C) ->
  indexed env C vk -> laid_out C -> gates_ok C es -> lookups_ok C N ->
  verifier_copy ck C vws vins vpre ->
  tp_prove env FS ck vk (preprocessed env PC C vk) (c_ws C) (c_ins C) (c_vos C) n zk = Ok (pf, zk') ->
  (forall r, rot_point (dgen (c_d C)) r (ch_xi ch) != x3_of (ch_fs ch) (tp_multiopen pf)) ->
  o_rots (c_qb C) = [::] ->
  (forall v v', verdict v = verdict v') \/ (exists v, forall v', verdict v' = Ok tt <-> v' = v).
Proof.
move=> N n ch verdict eok law sd ixd lay gok lks copy Hp Hx3 nr.
have [A [t [sh sA H]]] := verdict_claims eok law sd ixd lay gok lks copy Hp Hx3.
have sz := shape_sizes sh; rewrite sA in sz.
apply: (@affine_verdict _ _ _ t); last first.
  move=> v; apply: H; split=> // j p s s' _ _ H1.
  by rewrite H1 => -[].
by apply: affine_q_blind => /sz [].
Qed.
Print Assumptions c63_q_blind_not_opened.

(** The same for the claimed evaluation of one permutation column registered with no rotation. *)
Theorem c63_sigma_not_opened (F : fieldType) (env : fenv F) (PC : pcs F) (FS : fsrng F) (ck : pc_ck PC) (pvk : pc_vk PC)
    (C : circuit F) (vk : verifier_key F) (es : seq (expr F oquery))
    (vws : seq (voracle F (pc_com PC))) (vins : seq (ioracle F)) (vpre : verifier_pre PC)
    (zk zk' : pc_zk PC) (pf : tp_proof PC) (j : nat) (sigma : poracle F) :
  let N := dsize (ix_ext (vk_index vk)) in let n := c_rows C in
  let ch := derive_challenges FS pf in
  let verdict v := (tp_verify env FS pvk vk vpre (with_sigma j v pf) vws vins (c_vos C) n (c_zh C)).1 in
  fenv_ok env -> pcs_correct ck pvk -> std_domain env (c_d C) ->
  indexed env C vk -> laid_out C -> gates_ok C es -> lookups_ok C N ->
  verifier_copy ck C vws vins vpre ->
  tp_prove env FS ck vk (preprocessed env PC C vk) (c_ws C) (c_ins C) (c_vos C) n zk = Ok (pf, zk') ->
  (forall r, rot_point (dgen (c_d C)) r (ch_xi ch) != x3_of (ch_fs ch) (tp_multiopen pf)) ->
  idx (c_sigmas C) j = Ok sigma -> o_rots sigma = [::] ->
  (forall v v', verdict v = verdict v') \/ (exists v, forall v', verdict v' = Ok tt <-> v' = v).
Proof.
move=> N n ch verdict eok law sd ixd lay gok lks copy Hp Hx3 Hj nr.
have [A [t [sh sA H]]] := verdict_claims eok law sd ixd lay gok lks copy Hp Hx3.
have sz := shape_sizes sh; rewrite sA in sz.
have lj : (j < size (tp_perm_evals pf))%N by rewrite (size_perm_evals Hp); exact: idx_lt Hj.
apply: (@affine_verdict _ _ _ t); last first.
  move=> v; apply: H; split=> //; first by rewrite size_set_nth; apply/maxn_idPr.
  move=> k p s s' Hk nk H1 H2; have ne : j <> k by move=> E; move: nk; rewrite E in Hj; move: Hk; rewrite Hj => -[<-]; rewrite nr.
  by move: (set_nth_idx ne lj H1); rewrite H2 => -[].
by apply: affine_sigma => // /sz [].
Qed.
Print Assumptions c63_sigma_not_opened.

(** ** Concrete cases *)
From Coq Require Import NArith String.
From Verif Require Import Field97 Concrete ProofPC ProofConcrete ProofTools ProofCheck ProofIndexerExamples Run97 PropsTranscript PropsEndToEnd PropsProve.
Local Close Scope ring_scope.

(** The circuit of Run97.v with the constant selector set to 1 on row 6: the arithmetic gate reads
    1 = 0 there, whatever the witness. *)
Definition w_f : seq (poracle F97) :=
  [:: nth r_qblind r_f 0; nth r_qblind r_f 1; nth r_qblind r_f 2; nth r_qblind r_f 3;
      porc Fixed 8 "qc" (col [:: 0; 0; 0; 90; 0; 0; 1; 0]) false; nth r_qblind r_f 5].
Definition w_C : circuit F97 :=
  let conf := ok_or (r_arith, r_trans, r_lookup, (r_w, r_pi 82, w_f), r_t) (configure_run (r_w, r_pi 82, w_f) r_t) in
  Circuit conf.1.2.1.1 conf.1.2.1.2 conf.1.2.2 conf.2 r_sigma r_qblind [:: conf.1.1.1.1; conf.1.1.1.2] [:: conf.1.1.2]
    r_d r_zh (PermutationInfo r_u r_deltas) r_u.
Definition w_run := tp_prove env97 FS97 (PC := KZG97) srs97 r_vk (preprocessed env97 KZG97 w_C r_vk) (c_ws w_C) (c_ins w_C) (c_vos w_C) (c_rows w_C) 15%num.
Definition w_proof := (ok_or (r_dummy, 0%num) w_run).1.
Definition w_verify pf := (tp_verify env97 FS97 (PC := KZG97) srs97 r_vk (vpre97 w_C) pf (map vwit (c_ws w_C)) (map vinst (c_ins w_C)) (c_vos w_C) (c_rows w_C) (c_zh w_C)).1.
Lemma pair_ok (A B : Type) (d : A * B) (r : res (A * B)) : ok_any r -> r = Ok ((ok_or d r).1, (ok_or d r).2).
Proof. by case: r => [[a b]| |]. Qed.
Lemma w_run_any : ok_any w_run. Proof. by vm_compute. Qed.
Lemma w_run_ok : tp_prove env97 FS97 (PC := KZG97) srs97 r_vk (preprocessed env97 KZG97 w_C r_vk) (c_ws w_C) (c_ins w_C) (c_vos w_C) (c_rows w_C) 15%num
  = Ok (w_proof, (ok_or (r_dummy, 0%num) w_run).2).
Proof.
exact (pair_ok (r_dummy, 0%num) w_run_any <:
  tp_prove env97 FS97 (PC := KZG97) srs97 r_vk (preprocessed env97 KZG97 w_C r_vk) (c_ws w_C) (c_ins w_C) (c_vos w_C) (c_rows w_C) 15%num
  = Ok (w_proof, (ok_or (r_dummy, 0%num) w_run).2)).
Qed.
Lemma w_indexed : indexed env97 w_C r_vk. Proof. by apply: (ok_anyP r_vk0); vm_compute. Qed.
Lemma w_laid : laid_out w_C. Proof. by apply: laid_outP; vm_compute. Qed.
Lemma w_gates : gates_ok w_C (r_exprs w_C). Proof. by apply: gates_okP; vm_compute. Qed.
Lemma w_lookups : lookups_ok w_C (dsize (ix_ext (vk_index r_vk))). Proof. by apply: lookups_okP; vm_compute. Qed.
Lemma w_copy : verifier_copy (PC := KZG97) srs97 w_C (map vwit (c_ws w_C)) (map vinst (c_ins w_C)) (vpre97 w_C).
Proof. by apply: copy97; vm_compute. Qed.
Lemma w_x3 : let ch := derive_challenges FS97 w_proof in
  forall r, rot_point (dgen (c_d w_C)) r (ch_xi ch) != x3_of (ch_fs ch) (tp_multiopen w_proof).
Proof. by move=> ch; apply: (x3_clear (C := w_C) r_dok); vm_compute. Qed.
(** No witness satisfies the circuit. *)
(** No witness satisfies the circuit: on row 6 the arithmetic gate is always 1. *)
Definition w_gate : expr F97 oquery :=
  let W l := Orc (OQuery l curr Witness) in let X l := Orc (OQuery l curr Fixed) in
  Sum (Sum (Sum (Sum (Sum (Prod (Prod (W "a"%string) (W "b"%string)) (X "qm"%string)) (Prod (W "a"%string) (X "ql"%string)))
    (Prod (W "b"%string) (X "qr"%string))) (Prod (W "c"%string) (X "qo"%string))) (X "qc"%string)) (Orc (OQuery "pi"%string curr Instance)).
Lemma w_gateE : nth (Const 0%R) (r_exprs w_C) 0 = w_gate. Proof. by vm_compute. Qed.
Lemma w_unsatisfiable (ws : seq (poracle F97)) : meaning (row_value ws (c_ins w_C) (c_fs w_C) (c_rows w_C) 6) w_gate = 1%R.
Proof.
have fx l x : ((column_named (c_fs w_C) l)`_(rot_row (c_rows w_C) curr 6) == x)%R -> row_value ws (c_ins w_C) (c_fs w_C) (c_rows w_C) 6 (OQuery l curr Fixed) = x
  by move/eqP.
have h1 := @fx "qm"%string 0%R ltac:(vm_compute; reflexivity).
have h2 := @fx "ql"%string 0%R ltac:(vm_compute; reflexivity).
have h3 := @fx "qr"%string 0%R ltac:(vm_compute; reflexivity).
have h4 := @fx "qo"%string 0%R ltac:(vm_compute; reflexivity).
have h5 := @fx "qc"%string 1%R ltac:(vm_compute; reflexivity).
have h6 : row_value ws (c_ins w_C) (c_fs w_C) (c_rows w_C) 6 (OQuery "pi"%string curr Instance) = 0%R.
  by apply/eqP; vm_compute.
cbn [w_gate meaning]; rewrite h1 h2 h3 h4 h5 h6; move: (row_value _ _ _ _ _ _) (row_value _ _ _ _ _ _) (row_value _ _ _ _ _ _) => a b c.
by rewrite !mulr0 !add0r addr0.
Qed.
Lemma w_domain : std_domain env97 (c_d w_C). Proof. exact dom97_8. Qed.
Lemma w_qb_rots : o_rots (c_qb w_C) = [::]. Proof. by []. Qed.
Definition w_answer (v : F97) : res unit :=
  (tp_verify env97 FS97 (PC := KZG97) srs97 r_vk (vpre97 w_C) (with_q_blind v w_proof) (map vwit (c_ws w_C)) (map vinst (c_ins w_C)) (c_vos w_C) (c_rows w_C) (c_zh w_C)).1.
Lemma w_q_blind : (forall v v', w_answer v = w_answer v') \/ (exists v, forall v', w_answer v' = Ok tt <-> v' = v).
Proof.
exact (@c63_q_blind_not_opened F97 env97 KZG97 FS97 srs97 srs97 w_C r_vk (r_exprs w_C) (map vwit (c_ws w_C)) (map vinst (c_ins w_C)) (vpre97 w_C)
  15%num (ok_or (r_dummy, 0%num) w_run).2 w_proof env97_ok law97 w_domain w_indexed w_laid w_gates w_lookups w_copy w_run_ok w_x3 w_qb_rots).
Qed.
Lemma only_one (verdict : F97 -> res unit) x y e : (forall v v', verdict v = verdict v') \/ (exists v, forall v', verdict v' = Ok tt <-> v' = v) ->
  verdict x = Err e -> verdict y = Ok tt -> forall v, verdict v = Ok tt <-> v = y.
Proof.
move=> [H|[z H]] E A; first by move: (H x y); rewrite E A.
have Ez : y = z by apply/(H y).
by move=> v; split=> [/(H v)|->]; rewrite -?Ez.
Qed.
(** All the hypotheses hold of the run of prove on this circuit. verify rejects the returned proof,
    and accepts it when 18, the claimed evaluation of q_blind, is replaced by 26. *)
Lemma w_rejected : w_answer (n97 18) = Err QuotientNotZero. Proof. by vm_compute. Qed.
Lemma w_accepted : w_answer (n97 26) = Ok tt. Proof. by vm_compute. Qed.
Example ex_c63_q_blind :
  [/\ forall ws, meaning (row_value ws (c_ins w_C) (c_fs w_C) (c_rows w_C) 6) w_gate <> 0%R,
      tp_q_blind_eval w_proof = n97 18, w_verify w_proof = Err QuotientNotZero &
      forall v, w_answer v = Ok tt <-> v = n97 26].
Proof.
split; [|by apply/eqP; vm_compute|by vm_compute|exact (only_one w_q_blind w_rejected w_accepted)].
by move=> ws; rewrite w_unsatisfiable => /eqP; rewrite oner_eq0.
Qed.

(** The same with 25 in place of 0, the claimed evaluation of the first permutation column. *)
Definition w_answer0 (v : F97) : res unit :=
  (tp_verify env97 FS97 (PC := KZG97) srs97 r_vk (vpre97 w_C) (with_sigma 0 v w_proof) (map vwit (c_ws w_C)) (map vinst (c_ins w_C)) (c_vos w_C) (c_rows w_C) (c_zh w_C)).1.
Lemma w_sigma0 : idx (c_sigmas w_C) 0 = Ok (nth r_qblind (c_sigmas w_C) 0). Proof. by []. Qed.
Lemma w_sigma0_rots : o_rots (nth r_qblind (c_sigmas w_C) 0) = [::]. Proof. by []. Qed.
Lemma w_sigma : (forall v v', w_answer0 v = w_answer0 v') \/ (exists v, forall v', w_answer0 v' = Ok tt <-> v' = v).
Proof.
exact (@c63_sigma_not_opened F97 env97 KZG97 FS97 srs97 srs97 w_C r_vk (r_exprs w_C) (map vwit (c_ws w_C)) (map vinst (c_ins w_C)) (vpre97 w_C)
  15%num (ok_or (r_dummy, 0%num) w_run).2 w_proof 0 (nth r_qblind (c_sigmas w_C) 0)
  env97_ok law97 w_domain w_indexed w_laid w_gates w_lookups w_copy w_run_ok w_x3 w_sigma0 w_sigma0_rots).
Qed.
Lemma w_rejected0 : w_answer0 (n97 0) = Err QuotientNotZero. Proof. by vm_compute. Qed.
Lemma w_accepted0 : w_answer0 (n97 25) = Ok tt. Proof. by vm_compute. Qed.
Example ex_c63_sigma : nth (n97 1) (tp_perm_evals w_proof) 0 = n97 0 /\ forall v, w_answer0 v = Ok tt <-> v = n97 25.
Proof. by split; [apply/eqP; vm_compute|exact (only_one w_sigma w_rejected0 w_accepted0)]. Qed.
