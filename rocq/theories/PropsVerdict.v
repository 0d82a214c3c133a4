(** C72: what verify answers to the proofs that prove returns, for any witness. The proofs are in ProofVerdict.v. *)
From mathcomp Require Import all_ssreflect all_algebra.
From mathcomp Require Import zify.
From Verif Require Import Base ModelPoly ModelVO ModelOracle ModelPC ModelPermutation ModelLookup ModelIndexer ModelMultiproof ModelProtocol
  Spec SpecProtocol SpecPIOP SpecMultiopen SpecCircuit SpecSound SpecShift ProofBase ProofPoly ProofDomain ProofOracle ProofPermutation ProofPermArg ProofOpen ProofLookup ProofIndexer ProofColumns
  ProofPIOP ProofPIOP2 ProofPIOP3 ProofEach ProofProver ProofFront ProofInstances ProofRounds ProofHonest ProofComplete PropsMultiopen ProofShift PropsShift ProofReject ProofVerdict.

Set Implicit Arguments.
Unset Strict Implicit.
Unset Printing Implicit Defensive.

Import GRing.Theory.
Local Open Scope ring_scope.

(** Whatever the witness and the gates, verify never panics on a proof that prove returned, and the
    only error it answers is QuotientNotZero: no length assertion, no missing oracle and no opening
    fails. *)
Theorem c72_two_verdicts (F : fieldType) (env : fenv F) (PC : pcs F) (FS : fsrng F) (ck : pc_ck PC) (pvk : pc_vk PC)
    (C : circuit F) (vk : verifier_key F) (es : seq (expr F oquery))
    (vws : seq (voracle F (pc_com PC))) (vins : seq (ioracle F)) (vpre : verifier_pre PC) (zk zk' : pc_zk PC) (pf : tp_proof PC) :
  let N := dsize (ix_ext (vk_index vk)) in let n := c_rows C in let ch := derive_challenges FS pf in
  fenv_ok env -> pcs_correct ck pvk -> std_domain env (c_d C) ->
  indexed env C vk -> laid_out C -> gates_ok C es -> lookups_ok C N ->
  verifier_copy ck C vws vins vpre ->
  tp_prove env FS ck vk (preprocessed env PC C vk) (c_ws C) (c_ins C) (c_vos C) n zk = Ok (pf, zk') ->
  (forall r, rot_point (dgen (c_d C)) r (ch_xi ch) != x3_of (ch_fs ch) (tp_multiopen pf)) ->
  let verdict := (tp_verify env FS pvk vk vpre pf vws vins (c_vos C) n (c_zh C)).1 in
  verdict = Ok tt \/ verdict = Err QuotientNotZero.
Proof.
move=> N n ch eok law sd ixd lay gok lks copy Hp Hx3 verdict.
have [T [Hf Hc Hm]] := prove_opens eok law sd ixd lay gok lks copy Hp Hx3.
have E := proj1 (verify_frontE env FS pvk vk vpre pf vws vins (c_vos C) n (c_zh C)).
rewrite /verdict E -/ch Hf rbind_Ok.
by case: Hc => ->; [left; rewrite rbind_Ok Hm|right].
Qed.
Print Assumptions c72_two_verdicts.

(** Which one: when the gates, combined with powers of alpha, vanish on every row on which z_h
    vanishes, verify accepts. The single gates need not vanish there. *)
Theorem c72_combined_gates_hold (F : fieldType) (env : fenv F) (PC : pcs F) (FS : fsrng F) (ck : pc_ck PC) (pvk : pc_vk PC)
    (C : circuit F) (vk : verifier_key F) (es : seq (expr F oquery)) (rows : seq nat)
    (vws : seq (voracle F (pc_com PC))) (vins : seq (ioracle F)) (vpre : verifier_pre PC) (zk zk' : pc_zk PC) (pf : tp_proof PC) :
  let N := dsize (ix_ext (vk_index vk)) in let n := c_rows C in let ch := derive_challenges FS pf in
  let gates i := compressed (ch_alpha ch) [seq meaning (row_value (c_ws C) (c_ins C) (c_fs C) n i) e | e <- es] in
  fenv_ok env -> pcs_correct ck pvk -> std_domain env (c_d C) ->
  indexed env C vk -> laid_out C -> gates_ok C es -> lookups_ok C N ->
  vanishes_on C rows N -> quotient_room C es (size rows) (pa_max_cols (ix_perm (vk_index vk))) N ->
  verifier_copy ck C vws vins vpre ->
  tp_prove env FS ck vk (preprocessed env PC C vk) (c_ws C) (c_ins C) (c_vos C) n zk = Ok (pf, zk') ->
  (forall r, rot_point (dgen (c_d C)) r (ch_xi ch) != x3_of (ch_fs ch) (tp_multiopen pf)) ->
  (forall i, i \in rows -> gates i = 0) ->
  (tp_verify env FS pvk vk vpre pf vws vins (c_vos C) n (c_zh C)).1 = Ok tt.
Proof.
move=> N n ch gates eok law sd ixd lay gok lks van room copy Hp Hx3 H0.
have [T [tr [fs' Hmo]]] := prover_inv Hp; rewrite -/ch in tr Hmo.
have Eq := exact_quotient eok sd ixd lay gok lks van room tr H0.
have [VT [Hf Hc Hm]] := prove_opens eok law sd ixd lay gok lks copy Hp Hx3.
apply: (etrans (proj1 (verify_frontE env FS pvk _ _ _ _ _ _ _ _))); rewrite -/ch Hf rbind_Ok.
have [ge eo ed] := gok; have k0 := vos_pos tr; have shape := honest_shape eok sd ixd lay tr.
have [VT' [VE Vd Vs Vst]] := front_ok eok sd ixd lay lks tr copy.
have EV : VT' = VT by apply: Ok_inj; exact: etrans (esym VE) Hf.
subst VT'.
have eo' := exprs_ok_ext env (ix_ext (vk_index vk)) eo; have ed' := exprs_declared_ext env (ix_ext (vk_index vk)) ed.
have [[uw _] [ui _] [uf _] _ _ _ _ _] := honest_ok eok sd ixd lay lks tr.
have Q := quotient_checkE eok sd ge shape eo' k0 uw ui uf ed' Vs erefl erefl erefl (vpre := vt_pre VT).
move: Q => /(_ (ch_beta ch) (ch_gamma ch) (ch_alpha ch) (c_zh C)); rewrite -/(vt_copied VT) => Q.
have -> : vt_check vk vins (c_vos C) n (c_zh C) (ch_beta ch) (ch_gamma ch) (ch_alpha ch) (ch_xi ch) VT = Ok tt.
  by rewrite /vt_check Vd Q Eq hornerM subrr eqxx.
by rewrite rbind_Ok.
Qed.
Print Assumptions c72_combined_gates_hold.

(** When they do not, then, for given theta, beta, gamma and randomness, prove returns an accepted
    proof for fewer than [rows + N] values of xi, whatever follows. *)
Theorem c72_combined_gates_fail (F : fieldType) (env : fenv F) (PC : pcs F) (ck : pc_ck PC) (pvk : pc_vk PC)
    (C : circuit F) (vk : verifier_key F) (es : seq (expr F oquery)) (rows : seq nat)
    (vws : seq (voracle F (pc_com PC))) (vins : seq (ioracle F)) (vpre : verifier_pre PC)
    (theta beta gamma alpha : F) (zk : pc_zk PC) :
  let N := dsize (ix_ext (vk_index vk)) in let n := c_rows C in
  let gates i := compressed alpha [seq meaning (row_value (c_ws C) (c_ins C) (c_fs C) n i) e | e <- es] in
  fenv_ok env -> std_domain env (c_d C) -> indexed env C vk -> laid_out C -> gates_ok C es -> lookups_ok C N ->
  vanishes_on C rows N -> quotient_room C es (size rows) (pa_max_cols (ix_perm (vk_index vk))) N ->
  verifier_copy ck C vws vins vpre ->
  ~ (forall i, i \in rows -> gates i = 0) ->
  at_most (size rows + N).-1 (fun xi => exists rest pf zk',
    tp_prove env (scripted [:: theta, beta, gamma, alpha, xi & rest]) ck vk (preprocessed env PC C vk)
      (c_ws C) (c_ins C) (c_vos C) n zk = Ok (pf, zk') /\
    (tp_verify env (scripted [:: theta, beta, gamma, alpha, xi & rest]) pvk vk vpre pf vws vins (c_vos C) n (c_zh C)).1 = Ok tt).
Proof.
move=> N n gates eok sd ixd lay gok lks van room copy nh.
have [i Hi nz] : exists2 i, i \in rows & gates i != 0.
  apply/hasP; case: hasP => // no; case: nh => i Hi; apply/eqP; apply: contraT => nz; by case: no; exists i.
exact: (few_xi eok sd ixd lay gok lks van room copy Hi nz).
Qed.
Print Assumptions c72_combined_gates_fail.

Lemma compressed_cons (R : comRingType) (a x : R) s : compressed a (x :: s) = x + a * compressed a s.
Proof. by rewrite -cat1s compressed_cat /= expr1 /compressed big_ord_recl big_ord0 /= expr0 mul1r addr0. Qed.

From Coq Require Import NArith String.
From Verif Require Import Field97 Concrete ProofPC ProofConcrete ProofTools ProofCheck ProofIndexerExamples Run97 PropsTranscript PropsEndToEnd PropsProve PropsUnopened PropsReject.
Local Close Scope ring_scope.

(** The circuit of PropsUnopened.v, which no witness satisfies: QuotientNotZero; and, for any
    challenges before xi, at most 39 of the 97 values of xi are accepted. *)
Example ex_c72_verdict : w_verify w_proof = Ok tt \/ w_verify w_proof = Err QuotientNotZero.
Proof.
exact (@c72_two_verdicts F97 env97 KZG97 FS97 srs97 srs97 w_C r_vk (r_exprs w_C) (map vwit (c_ws w_C)) (map vinst (c_ins w_C)) (vpre97 w_C)
  15%num (ok_or (r_dummy, 0%num) w_run).2 w_proof env97_ok law97 w_domain w_indexed w_laid w_gates w_lookups w_copy w_run_ok w_x3).
Qed.
Lemma w_room_rows : quotient_room w_C (r_exprs w_C) (size (iota 0 (c_rows w_C))) (pa_max_cols (ix_perm (vk_index r_vk))) (dsize (ix_ext (vk_index r_vk))).
Proof. rewrite size_iota; exact: (room_all_rows env97_ok w_domain w_indexed w_laid w_gates w_zhE w_room). Qed.
Lemma w_van : vanishes_on w_C (iota 0 (c_rows w_C)) (dsize (ix_ext (vk_index r_vk))).
Proof. exact: (ProofCheck.vanishes_everywhere _ (std_domain_ok env97_ok w_domain) w_zhE). Qed.
Lemma w_bound : (size (iota 0 (c_rows w_C)) + dsize (ix_ext (vk_index r_vk))).-1 = 39. Proof. by rewrite size_iota; have [_ <-] := w_bounds. Qed.
Lemma w_row6 (alpha : F97) :
  compressed alpha [seq meaning (row_value (c_ws w_C) (c_ins w_C) (c_fs w_C) (c_rows w_C) 6) e | e <- r_exprs w_C] = 1%R.
Proof.
have s2 : (size (r_exprs w_C) = 2)%nat by apply/eqP; vm_compute.
have E0 : meaning (row_value (c_ws w_C) (c_ins w_C) (c_fs w_C) (c_rows w_C) 6) (nth (Const 0%R) (r_exprs w_C) 0) = 1%R by rewrite w_gateE w_unsatisfiable.
have E1 : meaning (row_value (c_ws w_C) (c_ins w_C) (c_fs w_C) (c_rows w_C) 6) (nth (Const 0%R) (r_exprs w_C) 1) = 0%R by apply/eqP; vm_compute.
move: s2 E0 E1; move: (r_exprs w_C) => [|e0 [|e1 [|]]] // _; cbn [nth map] => -> ->.
by rewrite compressed_cons compressed_cons compressed_nil !mulr0 !addr0.
Qed.
Example ex_c72_fail (theta beta gamma alpha : F97) (zk : N) : at_most 39 (w_accepts theta beta gamma zk alpha).
Proof.
rewrite -w_bound.
apply: (@c72_combined_gates_fail F97 env97 KZG97 srs97 srs97 w_C r_vk (r_exprs w_C) (iota 0 (c_rows w_C)) (map vwit (c_ws w_C)) (map vinst (c_ins w_C)) (vpre97 w_C)
  theta beta gamma alpha zk env97_ok w_domain w_indexed w_laid w_gates w_lookups w_van w_room_rows w_copy).
move=> /(_ 6); rewrite mem_iota => /(_ isT); rewrite w_row6 => /eqP; by rewrite oner_eq0.
Qed.

(** The circuit of Run97.v with two more gates, a and - a, that its witness violates. With alpha = 1
    they cancel, and verify accepts. *)
Definition v_gate (e : expr F97 oquery) : generic_vo F97 := GenericVO (Const 0%R) [::] (Some [::]) (Some e).
Definition v_a : expr F97 oquery := Orc (OQuery "a"%string curr Witness).
Definition v_C : circuit F97 := Circuit (c_ws r_C) (c_ins r_C) (c_fs r_C) (c_ts r_C) (c_sigmas r_C) (c_qb r_C)
  (c_vos r_C ++ [:: v_gate v_a; v_gate (Neg v_a)]) (c_lookups r_C) (c_d r_C) (c_zh r_C) (c_info r_C) (c_u r_C).
Definition v_FS : fsrng F97 := scripted (col [:: 3; 10; 20; 1; 50; 7; 9; 11; 13]).
Definition v_run := tp_prove env97 v_FS (PC := KZG97) srs97 r_vk (preprocessed env97 KZG97 v_C r_vk) (c_ws v_C) (c_ins v_C) (c_vos v_C) (c_rows v_C) 15%num.
Definition v_proof := (ok_or (r_dummy, 0%num) v_run).1.
Lemma v_run_any : ok_any v_run. Proof. by vm_compute. Qed.
Lemma v_run_ok : tp_prove env97 v_FS (PC := KZG97) srs97 r_vk (preprocessed env97 KZG97 v_C r_vk) (c_ws v_C) (c_ins v_C) (c_vos v_C) (c_rows v_C) 15%num
  = Ok (v_proof, (ok_or (r_dummy, 0%num) v_run).2).
Proof.
exact (pair_ok (r_dummy, 0%num) v_run_any <:
  tp_prove env97 v_FS (PC := KZG97) srs97 r_vk (preprocessed env97 KZG97 v_C r_vk) (c_ws v_C) (c_ins v_C) (c_vos v_C) (c_rows v_C) 15%num
  = Ok (v_proof, (ok_or (r_dummy, 0%num) v_run).2)).
Qed.
Lemma v_domain : std_domain env97 (c_d v_C). Proof. exact dom97_8. Qed.
Lemma v_indexed : indexed env97 v_C r_vk. Proof. by apply: (ok_anyP r_vk0); vm_compute. Qed.
Lemma v_laid : laid_out v_C. Proof. by apply: laid_outP; vm_compute. Qed.
Lemma v_gates : gates_ok v_C (r_exprs v_C). Proof. by apply: gates_okP; vm_compute. Qed.
Lemma v_lookups : lookups_ok v_C (dsize (ix_ext (vk_index r_vk))). Proof. by apply: lookups_okP; vm_compute. Qed.
Lemma v_copy : verifier_copy (PC := KZG97) srs97 v_C (map vwit (c_ws v_C)) (map vinst (c_ins v_C)) (vpre97 v_C).
Proof. by apply: copy97; vm_compute. Qed.
Lemma v_x3 : let ch := derive_challenges v_FS v_proof in
  forall r, rot_point (dgen (c_d v_C)) r (ch_xi ch) != x3_of (ch_fs ch) (tp_multiopen v_proof).
Proof. by move=> ch; apply: (x3_clear (C := v_C) r_dok); vm_compute. Qed.
Lemma v_zhE : Poly (c_zh v_C) = ('X^(c_rows v_C) - 1)%R. Proof. exact: r_zhE. Qed.
Lemma v_room_rows : quotient_room v_C (r_exprs v_C) (size (iota 0 (c_rows v_C))) (pa_max_cols (ix_perm (vk_index r_vk))) (dsize (ix_ext (vk_index r_vk))).
Proof. rewrite size_iota; exact: (room_all_rows env97_ok v_domain v_indexed v_laid v_gates v_zhE w_room). Qed.
Lemma v_van : vanishes_on v_C (iota 0 (c_rows v_C)) (dsize (ix_ext (vk_index r_vk))).
Proof. exact: (ProofCheck.vanishes_everywhere _ (std_domain_ok env97_ok v_domain) v_zhE). Qed.
Lemma v_cancel : forall i, i \in iota 0 (c_rows v_C) ->
  compressed (ch_alpha (derive_challenges v_FS v_proof)) [seq meaning (row_value (c_ws v_C) (c_ins v_C) (c_fs v_C) (c_rows v_C) i) e | e <- r_exprs v_C] = 0%R.
Proof.
move=> i Hi; rewrite compressed_Poly -pevalE; apply/eqP; move: i Hi; apply/allP; by vm_compute.
Qed.
Example ex_c72_cancel :
  meaning (row_value (c_ws v_C) (c_ins v_C) (c_fs v_C) (c_rows v_C) 0) v_a <> 0%R /\
  (tp_verify env97 v_FS (PC := KZG97) srs97 r_vk (vpre97 v_C) v_proof (map vwit (c_ws v_C)) (map vinst (c_ins v_C)) (c_vos v_C) (c_rows v_C) (c_zh v_C)).1 = Ok tt.
Proof.
split; first by apply/eqP; vm_compute.
exact (@c72_combined_gates_hold F97 env97 KZG97 v_FS srs97 srs97 v_C r_vk (r_exprs v_C) (iota 0 (c_rows v_C)) (map vwit (c_ws v_C)) (map vinst (c_ins v_C)) (vpre97 v_C)
  15%num (ok_or (r_dummy, 0%num) v_run).2 v_proof env97_ok law97 v_domain v_indexed v_laid v_gates v_lookups v_van v_room_rows v_copy v_run_ok v_x3 v_cancel).
Qed.
