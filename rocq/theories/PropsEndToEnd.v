(** Property theorems about whole runs: C44 (completeness), C45 (soundness), C48 (malformed proofs)
    and C49 (earlier verifications). The vocabulary is in SpecCircuit.v, SpecPIOP.v and
    SpecMultiopen.v; the proofs are in ProofHonest.v and ProofComplete.v. *)
From mathcomp Require Import all_ssreflect all_algebra.
From mathcomp Require Import zify.
From Verif Require Import Base ModelPoly ModelVO ModelOracle ModelPC ModelPermutation ModelLookup ModelIndexer ModelMultiproof ModelProtocol
  Spec SpecProtocol SpecPIOP SpecMultiopen SpecCircuit ProofBase ProofPoly ProofDomain ProofLookup ProofIndexer ProofPIOP2 ProofPIOP3 ProofEach ProofProver ProofFront
  ProofInstances ProofRounds ProofHonest ProofComplete ProofCheck PropsPIOP PropsMultiopen.

Set Implicit Arguments.
Unset Strict Implicit.
Unset Printing Implicit Defensive.

Import GRing.Theory.
Local Open Scope ring_scope.

(** ** C44, C55 *)
(** A proof returned by prove is accepted by verify on the matching inputs: for every circuit [C]
    that is well laid out, whose gates hold on the rows where z_h vanishes and whose quotient the
    extended domain can hold, every witness, randomness, hash function and commitment scheme with
    correct openings - unless the multi-opening challenge x3 hits an opened point. (That the copy
    constraints and lookups hold is not assumed: prove fails when they do not.) *)
Theorem c55_completeness (F : fieldType) (env : fenv F) (PC : pcs F) (FS : fsrng F) (ck : pc_ck PC) (pvk : pc_vk PC)
    (C : circuit F) (vk : verifier_key F) (es : seq (expr F oquery)) (rows : seq nat)
    (vws : seq (voracle F (pc_com PC))) (vins : seq (ioracle F)) (vpre : verifier_pre PC)
    (zk zk' : pc_zk PC) (pf : tp_proof PC) :
  let N := dsize (ix_ext (vk_index vk)) in let n := c_rows C in
  let ch := derive_challenges FS pf in
  fenv_ok env -> pcs_correct ck pvk -> std_domain env (c_d C) ->
  indexed env C vk -> laid_out C -> gates_ok C es -> lookups_ok C N ->
  vanishes_on C rows N -> satisfied C es rows -> quotient_room C es (size rows) (pa_max_cols (ix_perm (vk_index vk))) N ->
  verifier_copy ck C vws vins vpre ->
  tp_prove env FS ck vk (preprocessed env PC C vk) (c_ws C) (c_ins C) (c_vos C) n zk = Ok (pf, zk') ->
  (forall r, rot_point (dgen (c_d C)) r (ch_xi ch) != x3_of (ch_fs ch) (tp_multiopen pf)) ->
  (tp_verify env FS pvk vk vpre pf vws vins (c_vos C) n (c_zh C)).1 = Ok tt.
Proof.
move=> N n ch eok law sd ixd lay gok lks van sat room copy Hp Hx3.
have [T [tr [fs' Hmo]]] := prover_inv Hp; rewrite -/ch in tr Hmo.
have [VT [VE Vd Vs Vst]] := front_ok eok sd ixd lay lks tr copy.
apply: (etrans (proj1 (verify_frontE _ _ _ _ _ _ _ _ _ _ _))); rewrite -/ch VE rbind_Ok.
have [ge eo ed] := gok; have [ur rn [c c0 zE] szh] := van; have [r1 r2 r3] := room.
have [se le] := ext_std eok sd ixd; have k0 := vos_pos tr.
have shape := honest_shape eok sd ixd lay tr; have aok := honest_ok eok sd ixd lay lks tr.
have eo' := exprs_ok_ext env (ix_ext (vk_index vk)) eo; have ed' := exprs_declared_ext env (ix_ext (vk_index vk)) ed.
have [qd [_ _ _ [_ Ezh] _]] := index_inv eok sd ixd.
have fit : (size (numerator (c_d C) (ix_perm (vk_index vk)) es (ch_beta ch) (ch_gamma ch) (honest env C vk T) (ch_alpha ch)) <= size rows + N)%N.
  apply: size_numerator_le => p; rewrite /constraint_polys !mem_cat => /orP[/in_map_occurs [e He ->]|/orP[]].
  - by apply: leq_trans (expr_poly_size shape aok (fun q Hq => eo' e q He Hq)) _; exact: r1.
  - move=> Hq; have nn : ~~ nilp (copied (c_ws C)).
      by move: Hq; rewrite /perm_polys /= copied_ext; case: (copied (c_ws C)).
    by apply: leq_trans (perm_polys_db shape aok Hq) _; exact: r2.
  - move=> Hq; have nn : ~~ nilp (c_lookups C).
      have := size_los eok sd ixd tr; move: Hq; rewrite /lookup_polys /=; case: (c_lookups C) => //= + /size0nil E.
      by rewrite E; case: (t_lzs T).
    by apply: leq_trans (lookup_polys_db shape aok Hq) _; exact: r3.
have [||cs [Hcs Hck]] := c37_piop_completeness (pre := preprocessed env PC C vk) (vk := vk) (A := honest env C vk T) eok sd se le ge k0 eo' ed' shape aok erefl erefl erefl c0 ur rn zE szh Ezh _ _ fit.
- by move=> e i He Hi; rewrite meaning_ext; exact: sat.
- by move=> p i Hq Hi; exact: (honest_rows eok sd ixd lay lks tr Hq (rn _ Hi)).
have Ecs : cs = t_chunks T.
  have := pt_chunks tr; rewrite (t_dE sd tr) copied_eq => E; move: Hcs; rewrite /honest /= E; by case.
subst cs.
rewrite /vt_check Vd (Hck _ (front_view vins VT) (vt_pre VT) Vs erefl erefl erefl) rbind_Ok.
have [E1 E2 E3] := each3_unzip Vst.
pose ts := [seq (t.1.2, t.2, t.1.1) | t <- zip (zip (vt_oracles VT) (t_oracles (preprocessed env PC C vk) (ws_ext env vk (c_ws C)) T)) (t_rands (preprocessed env PC C vk) T)].
have Ets : [/\ [seq t.1.1 | t <- ts] = t_oracles (preprocessed env PC C vk) (ws_ext env vk (c_ws C)) T,
    [seq t.1.2 | t <- ts] = t_rands (preprocessed env PC C vk) T & [seq t.2 | t <- ts] = vt_oracles VT].
  by rewrite /ts -!map_comp; split.
have [M1 M2 M3] := Ets; have Ed : domain_new env n = Some (c_d C) by rewrite -(t_dE sd tr); exact: pt_d tr.
have Hm := @c40_multiopen_completeness F env PC FS ck pvk n (c_d C) (ch_xi ch) ts (ch_fs ch) fs' (t_zk8 T) zk' (tp_multiopen pf) eok law Ed.
rewrite M1 M2 M3 in Hm; apply: Hm => //.
move=> p r v Ho; have [[[v' p'] r'] Ho' [-> -> ->]] := occurs_map Ho; exact: (each3_occurs Vst Ho').
Qed.
Print Assumptions c55_completeness.

(** The usual case z_h = X^n - 1: the only condition left on degrees is that the largest quotient
    degree of the gates, as computed by the indexer, is not equal to the number of points of the
    extended domain (it is never larger). *)
Theorem c44_completeness_all_rows_partial (F : fieldType) (env : fenv F) (PC : pcs F) (FS : fsrng F) (ck : pc_ck PC) (pvk : pc_vk PC)
    (C : circuit F) (vk : verifier_key F) (es : seq (expr F oquery))
    (vws : seq (voracle F (pc_com PC))) (vins : seq (ioracle F)) (vpre : verifier_pre PC)
    (zk zk' : pc_zk PC) (pf : tp_proof PC) :
  let N := dsize (ix_ext (vk_index vk)) in let n := c_rows C in
  let ch := derive_challenges FS pf in
  fenv_ok env -> pcs_correct ck pvk -> std_domain env (c_d C) ->
  indexed env C vk -> laid_out C -> gates_ok C es -> lookups_ok C N ->
  Poly (c_zh C) = 'X^n - 1 -> satisfied C es (iota 0 n) -> ix_quotient_degree (vk_index vk) <> N ->
  verifier_copy ck C vws vins vpre ->
  tp_prove env FS ck vk (preprocessed env PC C vk) (c_ws C) (c_ins C) (c_vos C) n zk = Ok (pf, zk') ->
  (forall r, rot_point (dgen (c_d C)) r (ch_xi ch) != x3_of (ch_fs ch) (tp_multiopen pf)) ->
  (tp_verify env FS pvk vk vpre pf vws vins (c_vos C) n (c_zh C)).1 = Ok tt.
Proof.
move=> N n ch eok law sd ixd lay gok lks zE sat qd copy Hp Hx3.
have dok := std_domain_ok eok sd.
apply: (c55_completeness eok law sd ixd lay gok lks (vanishes_everywhere N dok zE) sat _ copy Hp Hx3).
have [q [Eq [qE lE] [se sE] [qN _] [Hk Hl]]] := index_inv eok sd ixd.
have n1 : (1 < n)%N := lay_rows lay; have n0 := ltnW n1.
have [ge eo _] := gok.
have Hcf : configured (c_ws C) (c_ins C) (c_fs C) (c_vos C) es.
  by split=> // e x He Hx; have /andP[] := eo e x He Hx.
have pz : pdeg (c_zh C) = n by rewrite pdegE zE size_Xn_sub_1.
move: Eq; rewrite (quotient_degree_configured _ n0 Hcf) pz => Eq; have [Hm qE'] := usub_ok Eq.
rewrite size_iota; split.
- move=> e He; apply: (@leq_ltn_trans (max_degree n.-1 es)).
    by rewrite /max_degree; elim: (es) He => //= e' t IH [<-|/IH H]; rewrite big_cons leq_max ?leqnn // H orbT.
  move: qd qN; rewrite -/N qE qE'; move: (max_degree _ _) Hm => m; rewrite -/n; lia.
- move=> nn; rewrite -/N /N sE -[dsize (c_d C)]/n -/n; move: (pa_max_cols _) => k.
  by rewrite -mulSn ltn_mul2l /= prednK.
- move=> nn; have := Hl nn; rewrite -/N /N sE -[dsize (c_d C)]/n -/n; move: (pa_max_cols _) => k k3.
  by apply: (@leq_trans (4 * n)); [rewrite ltn_mul2l /= prednK|rewrite -mulSn leq_mul2r; apply/orP; right; exact: leq_trans k3 (leqnSn _)].
Qed.
Print Assumptions c44_completeness_all_rows_partial.

(** ** Concrete cases *)
From Coq Require Import NArith String.
From Verif Require Import Field97 Concrete ProofPC ProofConcrete ProofTools ProofIndexerExamples Run97 PropsTranscript.
Local Close Scope ring_scope.

(** The circuit of Run97.v: copy constraints, a rotated gate, a two-column lookup, a public input. *)
Definition r_C : circuit F97 :=
  Circuit r_ws r_ins r_fs r_ts r_sigma r_qblind r_vos [:: r_l] r_d r_zh (PermutationInfo r_u r_deltas) r_u.
Definition r_exprs (C : circuit F97) : seq (expr F97 oquery) := [seq ok_or (Const 0%R) (gv_get_expression vo) | vo <- c_vos C].
Definition gets (C : circuit F97) : bool := all (fun vo => ok_any (gv_get_expression vo)) (c_vos C).
Lemma getsP C : gets C -> map (@gv_get_expression F97) (c_vos C) = map Ok (r_exprs C).
Proof.
rewrite /gets /r_exprs; elim: (c_vos C) => //= vo vos IH /andP[H /IH ->].
by rewrite -(ok_anyP (Const 0%R) H).
Qed.
Lemma gates_okP C : gets C -> exprsb C (r_exprs C) -> gates_ok C (r_exprs C).
Proof. by move=> /getsP H1 /exprsP [H2 H3]. Qed.
Definition commits (os : seq (poracle F97)) : bool := all (fun o => ok_any (@pc_commit1 F97 KZG97 srs97 (po_poly o) (pc_empty KZG97))) os.
Lemma publishes_vfix os : commits os -> publishes (PC := KZG97) srs97 (map vfix os) os.
Proof.
move=> H; apply: publishes_map => // o Ho; have := ok_anyP (pc_zero KZG97) (all_occurs H Ho) => E.
by exists (ok_or (pc_zero KZG97) (@pc_commit1 F97 KZG97 srs97 (po_poly o) (pc_empty KZG97))).
Qed.
(** The verifier's copy of a circuit over F_97. *)
Definition vpre97 (C : circuit F97) : verifier_pre KZG97 :=
  VerifierPre (map vfix (c_fs C)) (map vfix (c_ts C)) (map vfix (c_sigmas C)) (vfix (c_qb C)).
Lemma copy97 C : [&& commits (c_fs C), commits (c_ts C), commits (c_sigmas C) & commits [:: c_qb C]] ->
  verifier_copy (PC := KZG97) srs97 C (map vwit (c_ws C)) (map vinst (c_ins C)) (vpre97 C).
Proof.
case/and4P => h1 h2 h3 h4; split; try exact: publishes_vfix.
- by split; rewrite /mirrors -!map_comp; apply: eq_map.
- by rewrite /same_instances -map_comp; apply: eq_map.
- exact: (publishes_vfix h4).
Qed.

Definition r_N : nat := dsize (ix_ext (vk_index r_vk)).
Lemma r_indexed : indexed env97 r_C r_vk.
Proof. by apply: (ok_anyP r_vk0); vm_compute. Qed.
Lemma r_laid_out : laid_out r_C. Proof. by apply: laid_outP; vm_compute. Qed.
Lemma r_gates_ok : gates_ok r_C (r_exprs r_C).
Proof. by apply: gates_okP; vm_compute. Qed.
Lemma r_lookups_ok : lookups_ok r_C r_N. Proof. by apply: lookups_okP; vm_compute. Qed.
Lemma r_rows : c_rows r_C = 8. Proof. by apply/eqP; vm_compute. Qed.
Lemma r_satisfied : satisfied r_C (r_exprs r_C) (iota 0 (c_rows r_C)). Proof. by apply: satisfiedP; vm_compute. Qed.
Lemma r_copy : verifier_copy (PC := KZG97) srs97 r_C r_vws r_vins r_vpre.
Proof. by apply: (copy97 (C := r_C)); vm_compute. Qed.
Lemma r_zhE : Poly (c_zh r_C) = ('X^(c_rows r_C) - 1)%R.
Proof. exact: (@Poly_vanishing F97 r_d (dsize_gt0 (std_domain_ok env97_ok dom97_8))). Qed.
Lemma r_run_C : tp_prove env97 FS97 (PC := KZG97) srs97 r_vk (preprocessed env97 KZG97 r_C r_vk) (c_ws r_C) (c_ins r_C) (c_vos r_C) (c_rows r_C) 11%num
  = Ok (r_proof, (ok_or (r_dummy, 0%num) r_run).2).
Proof. by rewrite r_rows -r_run_ok /r_run /preprocessed /r_C /r_pre; cbv [c_fs c_sigmas c_ts c_qb c_ws c_ins c_vos]. Qed.
Lemma r_room : ix_quotient_degree (vk_index r_vk) <> r_N.
Proof. by apply/eqP; vm_compute. Qed.
Lemma r_dok : domain_ok r_d. Proof. exact: (std_domain_ok env97_ok dom97_8). Qed.
Lemma r_x3 : let ch := derive_challenges FS97 r_proof in
  forall r, rot_point (dgen r_d) r (ch_xi ch) != x3_of (ch_fs ch) (tp_multiopen r_proof).
Proof. by move=> ch; apply: (x3_clear (C := r_C) r_dok); vm_compute. Qed.
Lemma law97 : pcs_correct (PC := KZG97) srs97 srs97.
Proof. exact: (@kzg_correct f97_fieldType [lmodType f97 of f97^o] N lcg_rand f97_bytes f97_bytes srs97). Qed.
(** All the hypotheses of both completeness theorems hold of this circuit and the proof of r_run. *)
Example ex_c44 : (r_verify r_proof r_vins).1 = Ok tt.
Proof.
have H := c44_completeness_all_rows_partial (C := r_C) env97_ok law97 dom97_8 r_indexed r_laid_out r_gates_ok r_lookups_ok r_zhE r_satisfied r_room r_copy r_run_C r_x3.
rewrite -H r_rows; reflexivity.
Qed.

(** Refutation of C44 as first stated: a gate of degree 4 (w0^4 = w1) on four rows, satisfied on
    every row. The quotient has degree 8 and the extended domain 8 points. prove returns a proof,
    and verify rejects it although every hypothesis of [c44_completeness_all_rows_partial] holds but the one about
    the quotient degree. *)
Definition p_cols : seq (poracle F97) :=
  [seq Oracle (o_label o) [:: curr] (o_data o) | o <- pow4_cols].
Definition p_conf := ok_or (pow4_vo, (p_cols, [::], [::]))
  (gv_configure pow4_vo (p_cols, [::] : seq (poracle F97), [::] : seq (poracle F97))).
Definition p_C : circuit F97 :=
  Circuit p_conf.2.1.1 [::] [::] [::] [::] (porc Fixed 4 "q_blind" (col [:: 0; 0; 0; 0]) false) [:: p_conf.1] [::] (dom97 4)
    (vanishing_dense (dom97 4)) (permutation_info_dummy F97) 4.
Definition p_vk := ok_or r_vk0 (ModelIndexer.index env97 (fun o : pdata F97 => pd_permute o) (c_vos p_C) [::]
   (c_ws p_C) (c_ins p_C) (c_fs p_C) (c_d p_C) (c_zh p_C) (c_info p_C) (c_u p_C)).
Definition p_run := tp_prove env97 (PC := KZG97) FS97 srs97 p_vk (preprocessed env97 KZG97 p_C p_vk) (c_ws p_C) [::] (c_vos p_C) 4 11%num.
Definition p_proof := (ok_or (r_dummy, 0%num) p_run).1.
Lemma p_rows : c_rows p_C = 4. Proof. by apply/eqP; vm_compute. Qed.
Theorem c44_quotient_degree_refuted :
  exists (F : fieldType) (env : fenv F) (PC : pcs F) (FS : fsrng F) (ck : pc_ck PC) (pvk : pc_vk PC)
    (C : circuit F) (vk : verifier_key F) (es : seq (expr F oquery))
    (vws : seq (voracle F (pc_com PC))) (vins : seq (ioracle F)) (vpre : verifier_pre PC)
    (zk zk' : pc_zk PC) (pf : tp_proof PC),
  let N := dsize (ix_ext (vk_index vk)) in let n := c_rows C in
  let ch := derive_challenges FS pf in
  [/\ [/\ fenv_ok env, pcs_correct ck pvk, std_domain env (c_d C), indexed env C vk & laid_out C],
      [/\ gates_ok C es, lookups_ok C N, Poly (c_zh C) = ('X^n - 1)%R, satisfied C es (iota 0 n) & verifier_copy ck C vws vins vpre],
      tp_prove env FS ck vk (preprocessed env PC C vk) (c_ws C) (c_ins C) (c_vos C) n zk = Ok (pf, zk'),
      (forall r, rot_point (dgen (c_d C)) r (ch_xi ch) != x3_of (ch_fs ch) (tp_multiopen pf)) &
      (tp_verify env FS pvk vk vpre pf vws vins (c_vos C) n (c_zh C)).1 = Err QuotientNotZero].
Proof.
exists F97, env97, KZG97, FS97, srs97, srs97, p_C, p_vk, (r_exprs p_C), (map vwit (c_ws p_C)), (map vinst (c_ins p_C)), (vpre97 p_C),
  11%num, (ok_or (r_dummy, 0%num) p_run).2, p_proof => N n ch.
have dok := std_domain_ok env97_ok dom97_4.
split; [split|split| | |].
- exact: env97_ok.
- exact: law97.
- exact: dom97_4.
- by apply: (ok_anyP r_vk0); vm_compute.
- by apply: laid_outP; vm_compute.
- by apply: gates_okP; vm_compute.
- by apply: lookups_okP; vm_compute.
- exact: (@Poly_vanishing F97 (dom97 4) (dsize_gt0 dok)).
- by rewrite /n p_rows; apply: satisfiedP; vm_compute.
- by apply: copy97; vm_compute.
- rewrite /n p_rows; have H : ok_any p_run by vm_compute.
  by have := ok_anyP (r_dummy, 0%num) H; rewrite {1}/p_run => ->; rewrite /p_proof; case: (ok_or _ _).
- by apply: (x3_clear (C := p_C) dok); vm_compute.
- by rewrite /n p_rows; vm_compute.
Qed.
Print Assumptions c44_quotient_degree_refuted.
