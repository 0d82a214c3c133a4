(** What verify answers to the proofs that prove returns for a witness violating a gate. *)
From mathcomp Require Import all_ssreflect all_algebra.
From mathcomp Require Import zify.
From Verif Require Import Base ModelPoly ModelVO ModelOracle ModelPC ModelPermutation ModelLookup ModelIndexer ModelMultiproof ModelProtocol
  Spec SpecProtocol SpecPIOP SpecMultiopen SpecCircuit ProofBase ProofPoly ProofDomain ProofColumns ProofPermutation ProofLookup ProofIndexer ProofPIOP ProofPIOP2 ProofPIOP3 ProofEach ProofProver ProofFront
  ProofInstances ProofRounds ProofHonest ProofComplete ProofCheck ProofSound ProofCounts ProofProve PropsMisc.

Set Implicit Arguments.
Unset Strict Implicit.
Unset Printing Implicit Defensive.

Import GRing.Theory.
Local Open Scope ring_scope.

Lemma cdiv_bound (a b m : nat) : (b <= a * m < b + m)%N -> (a <= b)%N.
Proof. nia. Qed.
Section Mock.
Variables (F : fieldType) (env : fenv F) (PC : pcs F) (ck : pc_ck PC) (pvk : pc_vk PC)
    (C : circuit F) (vk : verifier_key F) (es : seq (expr F oquery)) (rows : seq nat)
    (vws : seq (voracle F (pc_com PC))) (vins : seq (ioracle F)) (vpre : verifier_pre PC)
    (theta beta gamma : F) (zk : pc_zk PC).
Let N := dsize (ix_ext (vk_index vk)).
Let n := c_rows C.
Let pre := preprocessed env PC C vk.
Hypothesis eok : fenv_ok env.
Hypothesis sd : std_domain env (c_d C).
Hypothesis ixd : indexed env C vk.
Hypothesis lay : laid_out C.
Hypothesis gok : gates_ok C es.
Hypothesis lks : lookups_ok C N.

(** MockProver accepts exactly the witnesses satisfying the gates. *)
Lemma mock_iff : mock_prove env pre (c_ws C) (c_ins C) (c_vos C) n = Ok tt <-> satisfied C es (iota 0 n).
Proof.
have [ge eo ed] := gok; have [lw li lf lt] := lay_labels lay.
have cols os : uniq (map (@o_label _) os) -> (forall o, occurs o os -> occurs o (c_ws C ++ c_ins C ++ c_fs C ++ c_ts C ++ c_sigmas C ++ [:: c_qb C])) -> mock_columns (c_d C) os.
  by move=> u H; split=> // o /H; exact: (lay_cols lay).
have ef : mock_columns (c_d C) (pp_fixed pre).
  split; first by rewrite labels_ext.
  move=> o Ho; have [o' Ho' ->] := occurs_map Ho; have := lay_cols lay (o := o').
  by rewrite !occurs_cat /=; apply; tauto.
have eo' : exprs_ok (c_ws C) (c_ins C) (pp_fixed pre) n es.
  by move=> e q He Hq; have := eo e q He Hq; rewrite /query_ok /query_resolves labels_ext.
have rv i q : row_value (c_ws C) (c_ins C) (pp_fixed pre) n i q = row_value (c_ws C) (c_ins C) (c_fs C) n i q.
  rewrite -[RHS](row_value_ext env (ix_ext (vk_index vk))) /row_value /oracles_of; case: (oq_type q) => //=.
    by rewrite column_ext.
  by rewrite column_ext.
have mv i e : meaning (row_value (c_ws C) (c_ins C) (pp_fixed pre) n i) e = meaning (row_value (c_ws C) (c_ins C) (c_fs C) n i) e.
  elim: e => [c|q|a H|a H b H'|a H b H'|a H c] /=; rewrite ?H ?H' ?rv; reflexivity.
rewrite (c50_mock_accepts_iff (d := c_d C) (es := es) eok sd _ _ ef ge eo').
- split=> [H e i He|H i k Hi Hk].
    rewrite mem_iota add0n => Hi; have [k Hk] := occurs_ex_idx He; have [lk Ek] := idx_ok Hk.
    by have := H i k Hi lk; rewrite /vo_row_value Ek mv.
  rewrite /vo_row_value mv; apply: H; last by rewrite mem_iota.
  have [e He] := idx_some Hk; have [_ Ek] := idx_ok He; rewrite Ek; exact: occurs_idx He.
- by apply: cols => // o Ho; rewrite !occurs_cat; tauto.
- by apply: cols => // o Ho; rewrite !occurs_cat; tauto.
Qed.

(** The columns committed before alpha, and the quotient before xi. *)
Lemma same_rounds alpha alpha' xi xi' pf pf' T T' :
  prover_trace env ck vk pre (c_ws C) (c_ins C) (c_vos C) n zk theta beta gamma alpha xi pf T ->
  prover_trace env ck vk pre (c_ws C) (c_ins C) (c_vos C) n zk theta beta gamma alpha' xi' pf' T' ->
  honest env C vk T = honest env C vk T' /\ (alpha = alpha' -> t_chunks T = t_chunks T').
Proof.
case: T => d wr zk1 los zk2 lr zk3 zs zk4 zr zk5 lzs zk6 lzr zk7 cs qr zk8 wqs fqs tqs zqs.
case: T' => d' wr' zk1' los' zk2' lr' zk3' zs' zk4' zr' zk5' lzs' zk6' lzr' zk7' cs' qr' zk8' wqs' fqs' tqs' zqs'.
case=> /= e1 e2 e3 e4 e5 e6 e7 e8 e9 _ _ _ _ _ _ _ _ _ _ _ _ _ _ _ _.
case=> /=; rewrite e1 e2 => -[_ _ <-] [<-]; rewrite e3 => -[<- <-]; rewrite e4 => -[_ _ <-]; rewrite e5 => -[<- <-].
rewrite e6 => -[_ _ <-]; rewrite e7 => -[<- <-]; rewrite e8 => -[_ _ <-] e9' _ _ _ _ _ _ _ _ _ _ _ _ _ _ _ _.
by split=> // E; move: e9'; rewrite -E e9 => -[].
Qed.

Hypothesis copy : verifier_copy ck C vws vins vpre.
Lemma accepted_identity (FS : fsrng F) pf zk' :
  tp_prove env FS ck vk pre (c_ws C) (c_ins C) (c_vos C) n zk = Ok (pf, zk') ->
  (tp_verify env FS pvk vk vpre pf vws vins (c_vos C) n (c_zh C)).1 = Ok tt ->
  let ch := derive_challenges FS pf in
  exists T, prover_trace env ck vk pre (c_ws C) (c_ins C) (c_vos C) n zk (ch_theta ch) (ch_beta ch) (ch_gamma ch) (ch_alpha ch) (ch_xi ch) pf T /\
   (numerator (c_d C) (ix_perm (vk_index vk)) es (ch_beta ch) (ch_gamma ch) (honest env C vk T) (ch_alpha ch)
     - recombined n (map (@opoly F) (t_chunks T)) * Poly (c_zh C)).[ch_xi ch] = 0.
Proof.
move=> Hp + ch; have [T [tr [fs' Hmo]]] := prover_inv Hp; rewrite -/ch in tr.
have [VT [VE Vd Vs Vst]] := front_ok eok sd ixd lay lks tr copy.
move=> Hv; have {}Hv := etrans (esym (proj1 (verify_frontE _ _ _ _ _ _ _ _ _ _ _))) Hv.
have {Hv} [VT' Hv1 Hv] := rbind_ok Hv; have {Hv} [[] Hq _] := rbind_ok Hv.
have E : VT' = VT by apply: Ok_inj; exact: etrans (esym Hv1) VE.
subst VT'.
exists T; split=> //.
have [ge eo ed] := gok; have k0 := vos_pos tr.
have shape := honest_shape eok sd ixd lay tr; have aok := honest_ok eok sd ixd lay lks tr.
have eo' := exprs_ok_ext env (ix_ext (vk_index vk)) eo; have ed' := exprs_declared_ext env (ix_ext (vk_index vk)) ed.
have [[uw _] [ui _] [uf _] _ _ _ _ _] := aok.
have Q := quotient_checkE eok sd ge shape eo' k0 uw ui uf ed' Vs erefl erefl erefl (vpre := vt_pre VT).
move: Q => /(_ (ch_beta ch) (ch_gamma ch) (ch_alpha ch) (c_zh C)); rewrite -/(vt_copied VT) => Q.
move: Hq; rewrite /vt_check Vd => /(etrans (esym Q)).
by rewrite hornerD hornerN hornerM; case: eqP.
Qed.

Hypothesis van : vanishes_on C rows N.
Hypothesis room : quotient_room C es (size rows) (pa_max_cols (ix_perm (vk_index vk))) N.
Lemma identity_size alpha xi pf T :
  prover_trace env ck vk pre (c_ws C) (c_ins C) (c_vos C) n zk theta beta gamma alpha xi pf T ->
  (size (numerator (c_d C) (ix_perm (vk_index vk)) es beta gamma (honest env C vk T) alpha
     - recombined n (map (@opoly F) (t_chunks T)) * Poly (c_zh C))%R <= size rows + N)%N.
Proof.
move=> tr; have [ge eo ed] := gok; have [ur rn [c c0 zE] szh] := van; have [r1 r2 r3] := room.
have [se le] := ext_std eok sd ixd; have k0 := vos_pos tr.
have shape := honest_shape eok sd ixd lay tr; have aok := honest_ok eok sd ixd lay lks tr.
have eo' := exprs_ok_ext env (ix_ext (vk_index vk)) eo; have ed' := exprs_declared_ext env (ix_ext (vk_index vk)) ed.
have [qd [_ _ _ [_ Ezh] _]] := index_inv eok sd ixd.
have fit : (size (numerator (c_d C) (ix_perm (vk_index vk)) es beta gamma (honest env C vk T) alpha) <= size rows + N)%N.
  apply: size_numerator_le => p; rewrite /constraint_polys !mem_cat => /orP[/in_map_occurs [e He ->]|/orP[]].
  - by apply: leq_trans (expr_poly_size shape aok (fun q Hq => eo' e q He Hq)) _; exact: r1.
  - move=> Hq; have nn : ~~ nilp (copied (c_ws C)).
      by move: Hq; rewrite /perm_polys /= copied_ext; case: (copied (c_ws C)).
    by apply: leq_trans (perm_polys_db shape aok Hq) _; exact: r2.
  - move=> Hq; have nn : ~~ nilp (c_lookups C).
      have := size_los eok sd ixd tr; move: Hq; rewrite /lookup_polys /=; case: (c_lookups C) => //= + /size0nil E.
      by rewrite E; case: (t_lzs T).
    by apply: leq_trans (lookup_polys_db shape aok Hq) _; exact: r3.
have [zs' [Ezs szs _]] := zh_inverses eok sd se le szh; move: (Ezs); rewrite Ezh => -[E]; rewrite -E in szs.
have [cs [Ecs s1 _ _ _]] := prover_quotient_roundE (pre := pre) eok sd ge shape eo' k0 se le erefl erefl erefl aok beta gamma alpha szs.
have Et : cs = t_chunks T.
  have := pt_chunks tr; rewrite (t_dE sd tr) copied_eq => E'; move: Ecs; rewrite /honest /= E'; by case.
apply: leq_trans (size_add _ _) _; rewrite geq_max fit size_opp -Et /=.
have sz : size (Poly (c_zh C)) = (size rows).+1.
  by rewrite zE size_scale // size_prod_XsubC.
apply: leq_trans (size_mul_leq _ _) _; rewrite sz addnS /= addnC leq_add2l; exact: s1.
Qed.

Lemma reject_gate i e : i \in rows -> occurs e es -> meaning (row_value (c_ws C) (c_ins C) (c_fs C) n i) e <> 0 ->
  at_most (size (c_vos C) + 2 * size (copied (c_ws C)) + 5 * size (c_lookups C)) (fun alpha =>
    ~ at_most (size rows + N).-1 (fun xi => exists rest pf zk',
        tp_prove env (scripted [:: theta, beta, gamma, alpha, xi & rest]) ck vk pre (c_ws C) (c_ins C) (c_vos C) n zk = Ok (pf, zk') /\
        (tp_verify env (scripted [:: theta, beta, gamma, alpha, xi & rest]) pvk vk vpre pf vws vins (c_vos C) n (c_zh C)).1 = Ok tt)).
Proof.
move=> Hi He nz; have [ge eo ed] := gok; have [ur rn [c c0 zE] szh] := van.
have eo' := exprs_ok_ext env (ix_ext (vk_index vk)) eo.
set P := (fun alpha : F => _); set K := (X in at_most X P).
move=> s us Hs; rewrite leqNgt; apply/negP => big.
have step alpha : P alpha -> ~ (exists xi pf T, prover_trace env ck vk pre (c_ws C) (c_ins C) (c_vos C) n zk theta beta gamma alpha xi pf T) -> False.
  move=> Pa no; apply: Pa => xs _ Hxs; case: xs Hxs => [//|x xs] Hxs.
  have [rest [pf [zk' [Hp Hv]]]] := Hxs x (mem_head _ _).
  have [T [tr _]] := accepted_identity Hp Hv; by case: no; exists x, pf, T.
have gate alpha xi pf T : prover_trace env ck vk pre (c_ws C) (c_ins C) (c_vos C) n zk theta beta gamma alpha xi pf T ->
    at_most K (fun alpha' => (numerator (c_d C) (ix_perm (vk_index vk)) es beta gamma (honest env C vk T) alpha').[dgen (c_d C) ^+ i] = 0).
  move=> tr; have k0 := vos_pos tr.
  have shape := honest_shape eok sd ixd lay tr; have aok := honest_ok eok sd ixd lay lks tr.
  have Hin := rn _ Hi.
  have lE := ix_lookupsE eok sd ixd.
  apply: (at_most_weaken (K := size es + 2 * size (as_zs (honest env C vk T)) + 5 * size (ix_lookups (vk_index vk)))); last first.
    apply: (bad_alphas eok sd shape Hin _ (p := expr_poly (as_ws (honest env C vk T)) (as_ins (honest env C vk T)) (as_fs (honest env C vk T)) (dgen (c_d C)) e)).
    - case: (boolP (nilp (c_lookups C))) => [/nilP nn|nn]; first by right; right; rewrite lE nn.
      by left; rewrite (usable ixd).1; have [_ /(_ nn)[-> ]] := lks.
    - by rewrite /constraint_polys mem_cat occurs_mem_map.
    - have [_ E] := expr_row_ok eok sd (ao_ws aok) (ao_ins aok) (ao_fs aok) Hin (fun q Hq => eo' e q He Hq).
      by apply/eqP => E0; apply: nz; rewrite -(meaning_ext env (ix_ext (vk_index vk))); exact: etrans (esym E) E0.
  have sE : size (c_vos C) = size es by rewrite -(size_map (@gv_get_expression F)) ge size_map.
  rewrite /K lE sE leq_add2r leq_add2l leq_mul2l /=.
  have [_ _ _ _] := shape; rewrite /honest /= copied_ext size_map; case: eqP => [_ -> //|k1 [m0 _ _ ->]].
  rewrite size_chunks // size_map; have := ceil_bounds (size (copied (c_ws C))) m0.
  exact: cdiv_bound.
(* some run *)
case: s us Hs big => // a0 s us Hs big; apply: (step a0 (Hs _ (mem_head _ _))) => -[xi0 [pf0 [T0 tr0]]].
move: big; apply/negP; rewrite -leqNgt; apply: (gate _ _ _ _ tr0) => // alpha /Hs Pa.
apply/eqP; apply: contraT => nz'; case: Pa => xs uxs Hxs.
case: xs uxs Hxs => [//|x xs] uxs Hxs.
have [rest1 [pf1 [zk1 [Hp1 Hv1]]]] := Hxs x (mem_head _ _).
have [T1 [tr1 _]] := accepted_identity Hp1 Hv1.
have [E1 _] := same_rounds tr0 tr1; rewrite E1 in nz'.
set Z := numerator (c_d C) (ix_perm (vk_index vk)) es beta gamma (honest env C vk T1) alpha - recombined n (map (@opoly F) (t_chunks T1)) * Poly (c_zh C).
have s0 : (0 < size rows)%N by move: Hi; case: (rows).
apply: (@at_most_roots F Z) uxs Hxs.
- apply: contra nz' => /eqP Z0; apply/eqP.
  have := congr1 (horner^~ (dgen (c_d C) ^+ i)) Z0; rewrite /Z hornerD hornerN hornerM horner0 zE hornerZ.
  have -> : (\prod_(i0 <- rows) ('X - (dgen (c_d C) ^+ i0)%:P)).[dgen (c_d C) ^+ i] = 0.
    by rewrite horner_prod (big_rem i) //= hornerXsubC subrr mul0r.
  by rewrite !mulr0 subr0.
- by rewrite prednK ?addn_gt0 ?s0 //; exact: identity_size tr1.
- move=> y [rest [pf [zk' [Hp Hv]]]]; have [T [tr Ez]] := accepted_identity Hp Hv.
  have [E2 /(_ erefl) E3] := same_rounds tr1 tr; by rewrite /Z E2 E3.
Qed.
End Mock.
