(** Property theorems about what MockProver::prove says of the verdict of verify: C64. The proofs
    are in ProofReject.v. *)
From mathcomp Require Import all_ssreflect all_algebra.
From mathcomp Require Import zify.
From Verif Require Import Base ModelPoly ModelVO ModelOracle ModelPC ModelPermutation ModelLookup ModelIndexer ModelMultiproof ModelProtocol
  Spec SpecProtocol SpecPIOP SpecMultiopen SpecCircuit ProofBase ProofPoly ProofDomain ProofIndexer ProofEach ProofCheck ProofReject PropsEndToEnd.

Set Implicit Arguments.
Unset Strict Implicit.
Unset Printing Implicit Defensive.

Import GRing.Theory.
Local Open Scope ring_scope.

(** ** C64 *)
(** A gate [e] that is not zero on some row on which z_h vanishes. Whatever theta, beta, gamma and
    the random generator give, all but (gates + 2 copied columns + 5 lookups) values of alpha leave
    fewer than (rows of z_h + size of the extended domain) values of xi for which prove returns a
    proof that verify accepts. Nothing is asked of the commitment scheme. *)
Theorem c64_violated_gate_is_rejected (F : fieldType) (env : fenv F) (PC : pcs F) (ck : pc_ck PC) (pvk : pc_vk PC)
    (C : circuit F) (vk : verifier_key F) (es : seq (expr F oquery)) (rows : seq nat)
    (vws : seq (voracle F (pc_com PC))) (vins : seq (ioracle F)) (vpre : verifier_pre PC)
    (i : nat) (e : expr F oquery) (theta beta gamma : F) (zk : pc_zk PC) :
  let N := dsize (ix_ext (vk_index vk)) in let n := c_rows C in
  fenv_ok env -> std_domain env (c_d C) -> indexed env C vk -> laid_out C -> gates_ok C es -> lookups_ok C N ->
  vanishes_on C rows N -> quotient_room C es (size rows) (pa_max_cols (ix_perm (vk_index vk))) N ->
  verifier_copy ck C vws vins vpre ->
  i \in rows -> occurs e es -> meaning (row_value (c_ws C) (c_ins C) (c_fs C) n i) e <> 0 ->
  at_most (size (c_vos C) + 2 * size (copied (c_ws C)) + 5 * size (c_lookups C)) (fun alpha =>
    ~ at_most (size rows + N).-1 (fun xi => exists rest pf zk',
        tp_prove env (scripted [:: theta, beta, gamma, alpha, xi & rest]) ck vk (preprocessed env PC C vk)
          (c_ws C) (c_ins C) (c_vos C) n zk = Ok (pf, zk') /\
        (tp_verify env (scripted [:: theta, beta, gamma, alpha, xi & rest]) pvk vk vpre pf vws vins (c_vos C) n (c_zh C)).1 = Ok tt)).
Proof. by move=> N n eok sd ixd lay gok lks van room copy; exact: reject_gate. Qed.
Print Assumptions c64_violated_gate_is_rejected.

Lemma room_all_rows (F : fieldType) (env : fenv F) (C : circuit F) (vk : verifier_key F) (es : seq (expr F oquery)) :
  let N := dsize (ix_ext (vk_index vk)) in let n := c_rows C in
  fenv_ok env -> std_domain env (c_d C) -> indexed env C vk -> laid_out C -> gates_ok C es ->
  Poly (c_zh C) = 'X^n - 1 -> ix_quotient_degree (vk_index vk) <> N ->
  quotient_room C es n (pa_max_cols (ix_perm (vk_index vk))) N.
Proof.
move=> N n eok sd ixd lay gok zE qd.
have [q [Eq [qE lE] [se sE] [qN _] [Hk Hl]]] := index_inv eok sd ixd.
have n1 : (1 < n)%N := lay_rows lay; have n0 := ltnW n1.
have [ge eo _] := gok.
have Hcf : configured (c_ws C) (c_ins C) (c_fs C) (c_vos C) es.
  by split=> // e x He Hx; have /andP[] := eo e x He Hx.
have pz : pdeg (c_zh C) = n by rewrite pdegE zE size_Xn_sub_1.
move: Eq; rewrite (quotient_degree_configured _ n0 Hcf) pz => Eq; have [Hm qE'] := usub_ok Eq.
split.
- move=> e He; apply: (@leq_ltn_trans (max_degree n.-1 es)).
    by rewrite /max_degree; elim: (es) He => //= e' t IH [<-|/IH H]; rewrite big_cons leq_max ?leqnn // H orbT.
  move: qd qN; rewrite -/N qE qE'; move: (max_degree _ _) Hm => m; rewrite -/n; lia.
- move=> nn; rewrite -/N /N sE -[dsize (c_d C)]/n -/n; move: (pa_max_cols _) => k.
  by rewrite -mulSn ltn_mul2l /= prednK.
- move=> nn; have := Hl nn; rewrite -/N /N sE -[dsize (c_d C)]/n -/n; move: (pa_max_cols _) => k k3.
  by apply: (@leq_trans (4 * n)); [rewrite ltn_mul2l /= prednK|rewrite -mulSn leq_mul2r; apply/orP; right; exact: leq_trans k3 (leqnSn _)].
Qed.

(** When z_h is X^n - 1 and the extended domain holds the quotient, MockProver::prove predicts
    verify. If it succeeds, verify accepts every proof prove returns (an evaluation point must not
    collide with x3, as in C44); *)
Theorem c64_mock_accepts (F : fieldType) (env : fenv F) (PC : pcs F) (FS : fsrng F) (ck : pc_ck PC) (pvk : pc_vk PC)
    (C : circuit F) (vk : verifier_key F) (es : seq (expr F oquery))
    (vws : seq (voracle F (pc_com PC))) (vins : seq (ioracle F)) (vpre : verifier_pre PC)
    (zk zk' : pc_zk PC) (pf : tp_proof PC) :
  let N := dsize (ix_ext (vk_index vk)) in let n := c_rows C in
  let ch := derive_challenges FS pf in
  fenv_ok env -> pcs_correct ck pvk -> std_domain env (c_d C) ->
  indexed env C vk -> laid_out C -> gates_ok C es -> lookups_ok C N ->
  Poly (c_zh C) = 'X^n - 1 -> ix_quotient_degree (vk_index vk) <> N ->
  verifier_copy ck C vws vins vpre ->
  mock_prove env (preprocessed env PC C vk) (c_ws C) (c_ins C) (c_vos C) n = Ok tt ->
  tp_prove env FS ck vk (preprocessed env PC C vk) (c_ws C) (c_ins C) (c_vos C) n zk = Ok (pf, zk') ->
  (forall r, rot_point (dgen (c_d C)) r (ch_xi ch) != x3_of (ch_fs ch) (tp_multiopen pf)) ->
  (tp_verify env FS pvk vk vpre pf vws vins (c_vos C) n (c_zh C)).1 = Ok tt.
Proof.
move=> N n ch eok law sd ixd lay gok lks zE qd copy mock.
have sat := proj1 (mock_iff PC vk eok sd lay gok) mock.
exact: (c44_completeness_all_rows_partial eok law sd ixd lay gok lks zE sat qd copy).
Qed.
Print Assumptions c64_mock_accepts.

(** if it does not, verify accepts a proof prove returns for few challenges only. *)
Theorem c64_mock_rejects (F : fieldType) (env : fenv F) (PC : pcs F) (ck : pc_ck PC) (pvk : pc_vk PC)
    (C : circuit F) (vk : verifier_key F) (es : seq (expr F oquery))
    (vws : seq (voracle F (pc_com PC))) (vins : seq (ioracle F)) (vpre : verifier_pre PC)
    (theta beta gamma : F) (zk : pc_zk PC) :
  let N := dsize (ix_ext (vk_index vk)) in let n := c_rows C in
  fenv_ok env -> std_domain env (c_d C) -> indexed env C vk -> laid_out C -> gates_ok C es -> lookups_ok C N ->
  Poly (c_zh C) = 'X^n - 1 -> ix_quotient_degree (vk_index vk) <> N ->
  verifier_copy ck C vws vins vpre ->
  mock_prove env (preprocessed env PC C vk) (c_ws C) (c_ins C) (c_vos C) n <> Ok tt ->
  at_most (size (c_vos C) + 2 * size (copied (c_ws C)) + 5 * size (c_lookups C)) (fun alpha =>
    ~ at_most (n + N).-1 (fun xi => exists rest pf zk',
        tp_prove env (scripted [:: theta, beta, gamma, alpha, xi & rest]) ck vk (preprocessed env PC C vk)
          (c_ws C) (c_ins C) (c_vos C) n zk = Ok (pf, zk') /\
        (tp_verify env (scripted [:: theta, beta, gamma, alpha, xi & rest]) pvk vk vpre pf vws vins (c_vos C) n (c_zh C)).1 = Ok tt)).
Proof.
move=> N n eok sd ixd lay gok lks zE qd copy mock s us Hs; rewrite leqNgt; apply/negP => big.
apply: mock; apply/(mock_iff PC vk eok sd lay gok) => e i He Hi; apply/eqP; apply: contraT => /eqP nz.
move: big; rewrite ltnNge => /negP; case.
have sr := size_iota 0 n; have van := vanishes_everywhere N (std_domain_ok eok sd) zE.
have room := room_all_rows eok sd ixd lay gok zE qd; rewrite -/n -sr in room.
have := c64_violated_gate_is_rejected (pvk := pvk) (theta := theta) (beta := beta) (gamma := gamma) (zk := zk) eok sd ixd lay gok lks van room copy Hi He nz.
by rewrite size_iota => H; exact: H us Hs.
Qed.
Print Assumptions c64_mock_rejects.

From Coq Require Import NArith String.
From Verif Require Import Field97 Concrete ProofPC ProofConcrete ProofTools ProofIndexerExamples Run97 PropsTranscript PropsProve PropsUnopened.
Local Close Scope ring_scope.

(** The circuit of Run97.v: MockProver accepts it, and verify accepts the proof of its run. *)
Lemma r_mock : mock_prove env97 (preprocessed env97 KZG97 r_C r_vk) (c_ws r_C) (c_ins r_C) (c_vos r_C) (c_rows r_C) = Ok tt.
Proof. by vm_compute. Qed.
Lemma r_domain : std_domain env97 (c_d r_C). Proof. exact dom97_8. Qed.
Example ex_c64_accepts : (tp_verify env97 FS97 (PC := KZG97) srs97 r_vk r_vpre r_proof r_vws r_vins (c_vos r_C) (c_rows r_C) (c_zh r_C)).1 = Ok tt.
Proof.
exact (@c64_mock_accepts F97 env97 KZG97 FS97 srs97 srs97 r_C r_vk (r_exprs r_C) r_vws r_vins r_vpre 11%num (ok_or (r_dummy, 0%num) r_run).2 r_proof
  env97_ok law97 r_domain r_indexed r_laid_out r_gates_ok r_lookups_ok r_zhE r_room r_copy r_mock r_run_C r_x3).
Qed.

(** The circuit of PropsUnopened.v, with a gate that is 1 on row 6: MockProver panics there, and all
    but 15 of the 97 values of alpha leave at most 39 of the 97 values of xi for which prove returns
    an accepted proof. *)
Lemma w_mock : mock_prove env97 (preprocessed env97 KZG97 w_C r_vk) (c_ws w_C) (c_ins w_C) (c_vos w_C) (c_rows w_C) = Panic (PMock 0 6).
Proof. by vm_compute. Qed.
Lemma w_zhE : Poly (c_zh w_C) = ('X^(c_rows w_C) - 1)%R. Proof. exact: r_zhE. Qed.
Lemma w_room : ix_quotient_degree (vk_index r_vk) <> dsize (ix_ext (vk_index r_vk)). Proof. by apply/eqP; vm_compute. Qed.
Lemma w_mock_no : mock_prove env97 (preprocessed env97 KZG97 w_C r_vk) (c_ws w_C) (c_ins w_C) (c_vos w_C) (c_rows w_C) <> Ok tt.
Proof. by rewrite w_mock. Qed.
Lemma w_bounds : (size (c_vos w_C) + 2 * size (copied (c_ws w_C)) + 5 * size (c_lookups w_C) = 15) /\ ((c_rows w_C + dsize (ix_ext (vk_index r_vk))).-1 = 39).
Proof. by split; apply/eqP; vm_compute. Qed.
Definition w_accepts (theta beta gamma : F97) (zk : N) (alpha xi : F97) : Prop := exists rest pf zk',
  tp_prove env97 (scripted [:: theta, beta, gamma, alpha, xi & rest]) (PC := KZG97) srs97 r_vk (preprocessed env97 KZG97 w_C r_vk)
    (c_ws w_C) (c_ins w_C) (c_vos w_C) (c_rows w_C) zk = Ok (pf, zk') /\
  (tp_verify env97 (scripted [:: theta, beta, gamma, alpha, xi & rest]) (PC := KZG97) srs97 r_vk (vpre97 w_C) pf
    (map vwit (c_ws w_C)) (map vinst (c_ins w_C)) (c_vos w_C) (c_rows w_C) (c_zh w_C)).1 = Ok tt.
Example ex_c64_rejects (theta beta gamma : F97) (zk : N) :
  at_most 15 (fun alpha => ~ at_most 39 (w_accepts theta beta gamma zk alpha)).
Proof.
have [<- <-] := w_bounds.
exact (@c64_mock_rejects F97 env97 KZG97 srs97 srs97 w_C r_vk (r_exprs w_C) (map vwit (c_ws w_C)) (map vinst (c_ins w_C)) (vpre97 w_C)
  theta beta gamma zk env97_ok w_domain w_indexed w_laid w_gates w_lookups w_zhE w_room w_copy w_mock_no).
Qed.
(** prove does return proofs for this circuit: the one of [w_run], which verify rejects. *)
Example ex_c64_run : w_run = Ok (w_proof, (ok_or (r_dummy, 0%num) w_run).2) /\ w_verify w_proof = Err QuotientNotZero.
Proof. by split; [exact w_run_ok|vm_compute]. Qed.
