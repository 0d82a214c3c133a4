(** What a run of prove that returns a proof went through (C65). *)
From mathcomp Require Import all_ssreflect all_algebra.
From mathcomp Require Import zify.
From Verif Require Import Base ModelPoly ModelVO ModelOracle ModelPC ModelPermutation
  ModelLookup ModelIndexer ModelMultiproof ModelProtocol Spec SpecProtocol SpecPIOP SpecMultiopen SpecCircuit SpecProve
  ProofBase ProofPoly ProofDomain ProofEach ProofOracle ProofPermutation ProofPermArg ProofPermute ProofLookup ProofIndexer ProofOpen ProofPIOP ProofPIOP2 ProofPIOP3 ProofColumns
  ProofVerifierCols ProofProver ProofCounts ProofRounds ProofMultiopen ProofHonest ProofProve.

Set Implicit Arguments.
Unset Strict Implicit.
Unset Printing Implicit Defensive.

Import GRing.Theory.
Local Open Scope ring_scope.

Section Multiopen.
Variables (F : fieldType) (env : fenv F) (PC : pcs F) (FS : fsrng F) (ck : pc_ck PC) (d : domain F) (xi : F).
Hypothesis dok : domain_ok d.
Lemma occurs_zip_ex (A B : Type) (s : seq A) (t : seq B) x : size s = size t -> occurs x s -> exists y, occurs (x, y) (zip s t).
Proof.
elim: s t => [|a s IH] [|b t] //= [E] [->|/(IH _ E)[y Hy]]; first by exists b; left.
by exists y; right.
Qed.
Lemma items_distinct os rs pows items : size os = size rs ->
  rmapM (mo_prover_item pows (elements d) xi) (opening_sets (fun or : poracle F * pc_rand PC => o_rots or.1) (zip os rs)) = Ok items ->
  forall o, occurs o os -> uniq [seq rot_point (dgen d) r xi | r <- o_rots o].
Proof.
move=> ss Hi o Ho.
have [rd Hz] := occurs_zip_ex ss Ho.
have [l Hl _] := @opening_sets_cover _ (fun or : poracle F * pc_rand PC => o_rots or.1) _ _ Hz.
have [j Hj] := occurs_ex_idx Hl.
have [it Hit] : exists it, idx items j = Ok it by apply: (idx_size2 _ Hj); rewrite (rmapM_ok Hi).
have {Hi} := each2_idx (rmapM_each Hi) Hj Hit; rewrite /mo_prover_item /= => H.
have [evs Hb _] := rbind_ok H.
have [|pvs [_ Er [u _] _]] := batched_inv _ Hb; first by [].
suff <- : map fst pvs = [seq rot_point (dgen d) r xi | r <- o_rots o] by [].
elim: (o_rots o) (map fst pvs) Er => [|r0 l0 IH] ps /=; first by case=> <-.
case E: (compute_evaluation_point _ _ _) => [p|//|//] /=; case E2: (rmapM _ _) => [ps'|//|//] /= [<-].
by have [_ ->] := compute_point_inv dok E; rewrite (IH _ E2).
Qed.
Lemma mo_prove_distinct ds os rs (fs : fs_state FS) zk r : domain_new env ds = Some d -> size os = size rs ->
  mo_prove env ck os rs xi ds fs zk = Ok r ->
  forall o, occurs o os -> uniq [seq rot_point (dgen d) r xi | r <- o_rots o].
Proof.
move=> Ed ss; rewrite /mo_prove; case: (fs_rand fs) => x1 fs1; case: (fs_rand fs1) => x2 fs2; rewrite Ed /= => H.
by have [items Hi _] := rbind_ok H; exact: items_distinct Hi.
Qed.

(** Errors other than a repeated rotation do not occur. *)
Definition ok_or_repeated (A : Type) (x : res A) : Prop := (exists v, x = Ok v) \/ exists k s, x = Err (RepeatedRotation k s).
Lemma item_outcome pows (k : seq rotation) (os : seq (poracle F * pc_rand PC)) : (forall r, r \in k -> (r.1 < dsize d)%N) ->
  ok_or_repeated (mo_prover_item pows (elements d) xi (k, os)).
Proof.
move=> rb; rewrite /mo_prover_item; set be := batched_evals _ _ _ _ _ _ _ _.
suff [[v ->]|[k' [s ->]]] : ok_or_repeated be by [left; eexists|right; exists k', s].
rewrite {}/be; elim: k rb [::] => [|r k IH] rb acc /=; first by left; exists acc.
rewrite compute_point_ok ?rb ?mem_head // rbind_Ok.
set pt := rot_point _ _ _; rewrite -/(batch (@po_query F) pows (map fst os) pt).
rewrite (@ProofMultiopen.batch_ok F _ _ _ _ _ (fun o => peval (po_poly o) pt)) // rbind_Ok.
case: ifP => _; first by right; exists r.1, r.2.
by apply: IH => r' Hr'; apply: rb; rewrite inE Hr' orbT.
Qed.
Lemma rmapM_outcome A B (g : A -> res B) s : (forall x, occurs x s -> ok_or_repeated (g x)) -> ok_or_repeated (rmapM g s).
Proof.
elim: s => [|a s IH] H /=; first by left; exists [::].
case: (H a (or_introl erefl)) => [[v ->]|[k [r ->]]]; last by right; exists k, r.
case: IH => [x Hx|[vs ->]|[k [r ->]]]; [by apply: H; right|by left; exists (v :: vs)|by right; exists k, r].
Qed.
End Multiopen.

Section Early.
Variables (F : fieldType) (env : fenv F).
Hypothesis eok : fenv_ok env.
Variables (PC : pcs F) (C : circuit F) (vk : verifier_key F) (theta beta gamma : F) (T : ptrace PC).
Let ix := vk_index vk.
Let ext := ix_ext ix.
Let d := c_d C.
Let n := c_rows C.
Let w := dgen d.
Let pre := preprocessed env PC C vk.
Notation f := (compute_extended_evals env ext).
Hypothesis sd : std_domain env d.
Hypothesis ixd : indexed env C vk.
Hypothesis lay : laid_out C.
Hypothesis lks : lookups_ok C n.
Hypothesis et : early_trace env vk pre (c_ws C) (c_ins C) (c_vos C) n theta beta gamma T.
Let lke := lks_ext eok sd ixd lks.
Let dok : domain_ok d := std_domain_ok eok sd.

Lemma cv_ext os j i : cell_value (map f os) j i = cell_value os j i.
Proof. by rewrite /cell_value idx_map; case: (idx os j). Qed.

(** Every lookup of the circuit has its columns in the run. *)
Lemma run_lookup l : occurs l (c_lookups C) -> exists j lo lz, [/\ idx (c_lookups C) j = Ok l, idx (t_los T) j = Ok lo & idx (t_lzs T) j = Ok lz].
Proof.
move=> Hl; have [j Hj] := occurs_ex_idx Hl.
have [lo Hlo] := idx_size2 (esym (size_los eok sd ixd et)) Hj.
have [lz Hlz] := idx_size2 (esym (size_lzs eok sd ixd et)) Hj.
by exists j, lo, lz.
Qed.

Lemma run_combined : combined_lookups_hold C theta.
Proof.
move=> l es tqs Hl E1 E2; have [j [lo [lz [Hj Hlo Hlz]]]] := run_lookup Hl.
have [es' [tqs' [F1 F2 _ [_ _ ss _] Hc]]] := honest_lookup eok sd ixd lay lke et Hj Hlo.
have [? ?] : es' = es /\ tqs' = tqs by move: F1 F2; rewrite E1 E2 => -[->] [->].
subst es' tqs'; split=> // i Hi.
have [_ u0 un] := lookup_pos lke Hj; case: Hc => _ _ _ _ Hp.
set arow := (X in map X (iota 0 _)) in Hp; set srow := (X in permute_for_lookup _ _ (map X _)) in Hp.
have : arow i \in map srow (iota 0 (c_u C)).
  apply/negbNE/negP => Hn.
  have [|p] := @permute_panic _ _ eok (map arow (iota 0 (c_u C))) (map srow (iota 0 (c_u C))); last by rewrite Hp.
  rewrite !size_map eqxx /= -has_predC; apply/hasP; exists (arow i) => //.
  by apply: (map_f arow); rewrite mem_iota.
case/mapP => k; rewrite mem_iota add0n => /andP[_ Hk] E; exists k => //.
by move: E; rewrite /arow /srow lookup_row_ext table_row_ext.
Qed.

Lemma run_denominators : no_zero_denominator C theta beta gamma.
Proof.
split=> [c Hc|l es tqs i Hl E1 E2 Hi].
  have Hz := et_zs et; rewrite (t_dE sd et) in Hz.
  move: Hz; rewrite /prover_permutation_round -[oracles_to_copy _]/(copied (map f (c_ws C))) copied_ext.
  case: ifP => nn Hz.
    by case/andP: Hc; move: nn; rewrite /nilp size_map => /eqP ->.
  have [||_ _ _ _ H] := construct_agg_rows _ _ Hz; rewrite -/ix ?(usable ixd).1.
  - by rewrite -(usable ixd).1; exact: (u_lt sd et).
  - move=> o [Ho|Ho]; have [o' Ho' ->] := occurs_map Ho.
      by have [|-> //] := @lay_in F C lay o'; left; exact: occurs_filter Ho'.
    by have [|-> //] := @lay_in F C lay o'; (right; right; right; right; left).
  - have := H c; rewrite -/ix (usable ixd).1 size_map => /(_ Hc); by rewrite !cv_ext.
have [j [lo [lz [Hj Hlo Hlz]]]] := run_lookup Hl.
have [es' [tqs' [F1 F2 _ _ Hc]]] := honest_lookup eok sd ixd lay lke et Hj Hlo.
have [? ?] : es' = es /\ tqs' = tqs by move: F1 F2; rewrite E1 E2 => -[->] [->].
subst es' tqs'; have [_ u0 un] := lookup_pos lke Hj.
have := each2_idx (subset_round_inv (et_lzs et)) (j := j) (x := (j, lo)) (y := lz).
rewrite idx_enumerate Hlo /= (t_dE sd et) (usable ixd).2 => /(_ erefl Hlz)[zk1 [zk2 E]].
have [p1 p2 _ _] := permuted_rows eok un u0 Hc; have [[[sa _] [ss _] [sa' _] [ss' _]] _ [Ha Hs] _ _] := Hc.
have un' := ltnW un.
have [|_ _ _ _ nz] := se_construct_inv _ E; first by rewrite sa ss sa' ss' un'.
have q1 : perm_eq (take (c_u C) (po_evals (lo_a lo))) (take (c_u C) (po_evals (lo_a' lo))) by rewrite perm_sym.
have q2 : perm_eq (take (c_u C) (po_evals (lo_s lo))) (take (c_u C) (po_evals (lo_s' lo))) by rewrite perm_sym.
split.
- have := perm_forall (P := fun x => x + beta != 0) q1; rewrite sa sa' => /(_ un' un') H.
  have {H} := H _ i Hi; rewrite Ha ?(leq_trans Hi un') // lookup_row_ext; apply=> k Hk.
  by have := nz k Hk; rewrite mulf_eq0 negb_or => /andP[].
- have := perm_forall (P := fun x => x + gamma != 0) q2; rewrite ss ss' => /(_ un' un') H.
  have {H} := H _ i Hi; rewrite Hs ?(leq_trans Hi un') // table_row_ext; apply=> k Hk.
  by have := nz k Hk; rewrite mulf_eq0 negb_or => /andP[].
Qed.

Lemma run_products : ~~ nilp (copied (c_ws C)) -> products_agree C beta gamma.
Proof.
move=> nn; have Hz := et_zs et; rewrite (t_dE sd et) in Hz.
move: Hz; rewrite /prover_permutation_round -[oracles_to_copy _]/(copied (map f (c_ws C))) copied_ext.
rewrite /nilp size_map -/(nilp _) (negbTE nn) => Hz.
have [iu idl _] := index_rows ixd; rewrite -/ix in iu idl.
have [||s1 s2 pr] := construct_agg_prods _ _ Hz; rewrite -/ix ?iu.
- by rewrite -iu; exact: (u_lt sd et).
- move=> o [Ho|Ho]; have [o' Ho' ->] := occurs_map Ho.
    by have [|-> //] := @lay_in F C lay o'; left; exact: occurs_filter Ho'.
  by have [|-> //] := @lay_in F C lay o'; (right; right; right; right; left).
move: s1 s2 pr; rewrite -/ix iu idl !size_map => s1 s2 pr; split=> //.
apply: etrans (etrans _ pr) _; apply: eq_bigr => j _; apply: eq_bigr => i _; by rewrite !cv_ext.
Qed.

Variables (ck : pc_ck PC) (alpha xi : F) (zk : pc_zk PC) (pf : tp_proof PC) (FS : fsrng F) (fs fs' : fs_state FS) (mo : mo_proof PC) (zk' : pc_zk PC).
Hypothesis tr : prover_trace env ck vk pre (c_ws C) (c_ins C) (c_vos C) n zk theta beta gamma alpha xi pf T.
Hypothesis Hmo : mo_prove env ck (t_oracles pre (ws_ext env vk (c_ws C)) T) (t_rands pre T) xi n fs (t_zk8 T) = Ok (mo, fs', zk').

Lemma run_points : distinct_points C xi.
Proof.
have H := mo_prove_distinct dok sd (pt_size tr) Hmo; rewrite /t_oracles in H.

split=> [o|].
  have key os o' : (forall o0, occurs o0 (map f os) -> uniq [seq rot_point (dgen d) r xi | r <- o_rots o0]) ->
    occurs o' os -> uniq [seq rot_point (dgen d) r xi | r <- o_rots o'].
    by move=> K Ho'; have := K (f o') (occurs_map_in f Ho').
  rewrite !occurs_cat => -[Ho|[Ho|[Ho|[Ho|Ho]]]].
  - by apply: key Ho => o0 H0; apply: H; rewrite !occurs_cat; left.
  - by apply: key Ho => o0 H0; apply: H; rewrite !occurs_cat; tauto.
  - by apply: key Ho => o0 H0; apply: H; rewrite !occurs_cat; tauto.
  - by apply: key Ho => o0 H0; apply: H; rewrite !occurs_cat; tauto.
  - case: Ho => // ->; have := H (f (c_qb C)); apply; rewrite !occurs_cat /=; tauto.
have two o : occurs o (t_zs T) \/ occurs o (lookup_primes (t_los T)) -> curr \in o_rots o -> next \in o_rots o \/ prev \in o_rots o -> xi != 0.
  move=> Ho c1 c2; apply/negP => /eqP x0.
  have : uniq [seq rot_point (dgen d) r xi | r <- o_rots o] by apply: H; rewrite !occurs_cat; tauto.
  have -> : [seq rot_point (dgen d) r xi | r <- o_rots o] = nseq (size (o_rots o)) 0.
    by elim: (o_rots o) => //= r l ->; rewrite x0 /rot_point; case: r.2; rewrite mul0r.
  case: (o_rots o) c1 c2 => [|r1 [|r2 l]] //=; rewrite ?mem_head //= ?inE.
  by move=> /eqP <- [] /eqP.
case/orP => nn.
  have [[nn' _]|[_ [m0 _ _ sz] _ _ Hr]] := honest_perm sd lay et.
    by move: nn'; rewrite copied_ext /nilp size_map -/(nilp _) (negbTE nn).
  have z0 : (0 < size (t_zs T))%N.
    by rewrite sz chunks_cons // copied_ext size_map lt0n; exact: nn.
  have [z Hz] : exists z, idx (t_zs T) 0 = Ok z by case: (t_zs T) z0 => // z ? _; exists z.
  have [_ Er] := Hr _ _ Hz; apply: (two z); first by left; exact: occurs_idx Hz.
    by rewrite Er; case: ifP => _; rewrite ?mem_sinsert !inE ?orbT.
  by left; rewrite Er; case: ifP => _; rewrite ?mem_sinsert !inE ?orbT.
have [l Hl] : exists l, occurs l (c_lookups C) by case: (c_lookups C) nn => // l ? _; exists l; left.
have [j [lo [lz [Hj Hlo _]]]] := run_lookup Hl.
have [es [tqs [_ _ _ _ Hc]]] := honest_lookup eok sd ixd lay lke et Hj Hlo.
have [_ _ _ [_ [r1 _]] _] := Hc.
apply: (two (lo_a' lo)); rewrite ?r1 ?inE //; last by right.
right; have := occurs_idx Hlo; rewrite /lookup_primes; elim: (t_los T) => //= x s IH [<-|/IH]; [by left|by right; right].
Qed.
End Early.

(** ** How it fails *)
Lemma prover_replay_err (F : fieldType) (env : fenv F) (PC : pcs F) (ck : pc_ck PC) (vk : verifier_key F) (pre : prover_pre PC)
    (ws0 ins0 : seq (poracle F)) (vos : seq (generic_vo F)) ds zk theta beta gamma alpha xi rest pf T e :
  prover_trace env ck vk pre ws0 ins0 vos ds zk theta beta gamma alpha xi pf T ->
  mo_prove (FS := scripted [::]) env ck (t_oracles pre (ws_ext env vk ws0) T) (t_rands pre T) xi ds rest (t_zk8 T) = Err e ->
  tp_prove env (scripted [:: theta, beta, gamma, alpha, xi & rest]) ck vk pre ws0 ins0 vos ds zk = Err e.
Proof.
case=> e1 e2 e3 e4 e5 e6 e7 e8 e9 e10 e11 e12 e13 e14 e15 e16 e17 e18 e19 e20 e21 e22 e23 e24 e25 Hmo.
rewrite /tp_prove -/(ws_ext env vk ws0) -/(ins_ext env vk ins0) e1 /= e2 /= e3 /= e4 /= e5 /= e6 /= e7 /= e8 /= e9 /= e10 /=.
rewrite e11 /= e12 /= e13 /= e14 /= e15 /= e16 /=.
case E: (finv _) => [winv|//|//] /=; [|by move: e17; rewrite E..].
rewrite e22 /= e23 /= -/(t_oracles pre (ws_ext env vk ws0) T) -/(t_rands pre T) e25 eqxx /=.
by rewrite [mo_prove _ _ _ _ _ _ _ _](Hmo : _ = _).
Qed.
Section NoErr.
Definition no_err (A : Type) (x : res A) : Prop := forall e, x <> Err e.
Lemma no_err_bind A B (x : res A) (g : A -> res B) : no_err x -> (forall a, no_err (g a)) -> no_err (rbind x g).
Proof. by case: x => [a|e|p] H1 H2 //=; have := H1 e. Qed.
Lemma no_err_idx A (s : seq A) i : no_err (idx s i).
Proof. by elim: s i => [|a s IH] [|i] //=. Qed.
Lemma no_err_assert b : no_err (rassert b). Proof. by case: b. Qed.
Lemma no_err_usub a b : no_err (usub a b). Proof. by rewrite /usub; case: ifP. Qed.
Lemma no_err_finv (F : fieldType) (x : F) : no_err (finv x). Proof. by rewrite /finv; case: ifP. Qed.
Lemma no_err_chunks A k (s : seq A) : no_err (chunksR k s). Proof. by rewrite /chunksR; case: ifP. Qed.
Lemma no_err_last A (s : seq A) : no_err (last_unwrap s). Proof. by case: s. Qed.
Lemma no_err_foldM A S (g : S -> A -> res S) s x : (forall y a, no_err (g y a)) -> no_err (rfoldM g x s).
Proof. by move=> H; elim: s x => //= a s IH x; apply: no_err_bind. Qed.
Variables (F : fieldType) (env : fenv F) (PC : pcs F).
Lemma no_err_gp_rows d ws ss ds beta gamma rows z : no_err (@gp_rows F d ws ss ds beta gamma rows z).
Proof.
elim: rows z => //= i rows IH z; apply: no_err_bind => [|[nom den]].
  by rewrite /gp_row; apply: no_err_foldM => [[y1 y2] [[a b] c]]; apply: no_err_bind => [|v]; [exact: no_err_idx|apply: no_err_bind => // v']; exact: no_err_idx.
by apply: no_err_bind => [|v]; [exact: no_err_finv|apply: no_err_bind].
Qed.
Lemma no_err_perm pa (pre : prover_pre PC) tc beta gamma d ext zk : no_err (prover_permutation_round env pa pre tc beta gamma d ext zk).
Proof.
rewrite /prover_permutation_round; case: ifP => // _; rewrite /construct_agg_polys.
do 2![apply: no_err_bind => [|_]; first exact: no_err_assert].
do 3![apply: no_err_bind => [|?]; first exact: no_err_chunks].
apply: no_err_bind => [|[zs zk']].
  move: (zip _ _) 0%N None zk; elim=> [|[[ws ss] ds] cs IH] i pr zk //=.
  apply: no_err_bind => [|init]; first by case: pr => // z; exact: no_err_idx.
  apply: no_err_bind => [|[z zk1]]; last by apply: no_err_bind => // -[].
  rewrite /gp_construct_agg_poly; apply: no_err_bind => [|zs]; first exact: no_err_gp_rows.
  do 2![apply: no_err_bind => [|?]; first exact: no_err_usub].
  by case: draw_n => bl zk1; apply: no_err_bind => //; exact: no_err_assert.
apply: no_err_bind => [|z]; first exact: no_err_last.
apply: no_err_bind => [|e]; first exact: no_err_idx.
by apply: no_err_bind => //; exact: no_err_assert.
Qed.
Lemma no_err_subset ix beta gamma d klos (zk : pc_zk PC) : no_err (prover_subset_round env ix beta gamma d klos zk).
Proof.
elim: klos zk => [|[k lo] klos IH] zk //=; apply: no_err_bind => [|[z zk1]]; last by apply: no_err_bind => // -[].
rewrite /se_construct_agg_poly; apply: no_err_bind => [|zs].
  move: (iota _ _) (1 : F); elim=> [|i rows IHr] x //=.
  do 4![apply: no_err_bind => [|?]; first exact: no_err_idx].
  by apply: no_err_bind => [|v]; [exact: no_err_finv|apply: no_err_bind].
apply: no_err_bind => [|zu]; first exact: no_err_idx.
apply: no_err_bind => [|_]; first exact: no_err_assert.
do 2![apply: no_err_bind => [|?]; first exact: no_err_usub].
by case: draw_n.
Qed.
End NoErr.

Section Outcome.
Variables (F : fieldType) (env : fenv F).
Hypothesis eok : fenv_ok env.
Variables (PC : pcs F) (ck : pc_ck PC) (C : circuit F) (vk : verifier_key F) (es : seq (expr F oquery))
  (theta beta gamma alpha xi : F) (zk : pc_zk PC).
Let ix := vk_index vk.
Let ext := ix_ext ix.
Let d := c_d C.
Let n := c_rows C.
Let pre := preprocessed env PC C vk.
Notation f := (compute_extended_evals env ext).
Hypothesis sd : std_domain env d.
Hypothesis ixd : indexed env C vk.
Hypothesis lay : laid_out C.
Hypothesis gok : gates_ok C es.
Hypothesis vpos : (0 < size (c_vos C))%N.
Hypothesis ult : (pi_u (c_info C) < n)%N.
Hypothesis lks : lookups_ok C n.
Hypothesis tot : pcs_total ck n.
Let dok : domain_ok d := std_domain_ok eok sd.
Let se : std_domain env ext := (ext_std eok sd ixd).1.
Let le : (n <= dsize ext)%N := (ext_std eok sd ixd).2.

Lemma no_err_lookups zk0 : no_err (prover_lookup_round env pre ix (map f (c_ws C)) (map f (c_ins C)) theta d (enumerate (ix_lookups ix)) zk0).
Proof.
have : forall kl, occurs kl (enumerate (ix_lookups ix)) -> occurs kl.2 (c_lookups C).
  move=> kl Hk; have [j Hj] := occurs_ex_idx Hk; move: Hj; rewrite idx_enumerate /ix (ix_lookupsE eok sd ixd).
  by case E: (idx _ j) => [l|//|//] /= [<-] /=; exact: occurs_idx E.
elim: (enumerate _) zk0 => [|[k l] kls IH] zk0 Hl //=.
have [es' [tqs [E1 E2 [h1 h2] [h3 h4] [h5 h6]]]] := (lks_ext eok sd ixd lks).1 l (Hl (k, l) (or_introl erefl)).
rewrite E1 E2 !rbind_Ok; apply: no_err_bind => [|[lo zk1]]; last first.
  by apply: no_err_bind => [|[]//]; apply: IH => kl Hkl; apply: Hl; right.
have h1e := exprs_ok_ext env ext h1; have h3e := (tables_ext env ext (conj h3 h4)).1.
rewrite (construct_columnsE eok sd se le (wf_ws env vk lay) (wf_ins env vk lay) (wf_fs env vk lay) (wf_ts env vk lay)
  (@pc_zk_rand F PC) (ix_usable_rows ix) k h1e h3e (lookup_size eok theta sd lay h1 h6)).
do 2![apply: no_err_bind => [|_]; first exact: no_err_assert].
apply: no_err_bind => [|_]; first by case: ifP.
apply: no_err_bind => [|[a1 s1]].
  set a := map _ _; set s := map _ _; case E: ((size a == size s) && all (mem s) a).
    case/andP: E => /eqP ss /allP sub; have [s' [-> _ _]] := permute_ok eok ss sub; by [].
  by rewrite (permute_panicE eok (negbT E)).
case: draw_pairs => [[ra rs] zk1]; do 2![apply: no_err_bind => [|_]; first exact: no_err_assert].
by [].
Qed.

Definition challenges_good : Prop := [/\ combined_lookups_hold C theta, ~~ nilp (copied (c_ws C)) -> products_agree C beta gamma &
  no_zero_denominator C theta beta gamma].

Lemma fails_early rest :
  (exists p, tp_prove env (scripted [:: theta, beta, gamma, alpha, xi & rest]) ck vk pre (c_ws C) (c_ins C) (c_vos C) n zk = Panic p) \/ challenges_good.
Proof.
have pol o : interpolates d o -> (size (po_poly o) <= n)%N by move=> io; exact: size_po_poly io.
have pws o : occurs o (map f (c_ws C)) -> interpolates d o.
  by move=> Ho; have [o' Ho' ->] := occurs_map Ho; apply: (@lay_in F C lay o'); left.
have [wc [wr [zk1 Ew]]] := commit_labeled_ok tot zk (fun o Ho => pol o (pws o Ho)).
rewrite /tp_prove -/ix -/ext -/(ws_ext env vk (c_ws C)) -/(ins_ext env vk (c_ins C)) -[ws_ext _ _ _]/(map f (c_ws C)) -[ins_ext _ _ _]/(map f (c_ins C)).
cbv zeta; cbn [fs_init fs_rand fs_absorb scripted head behead]; rewrite Ew rbind_Ok (sd : domain_new env n = _); cbn [opt_unwrap rbind].
have := @no_err_lookups zk1; case El: (prover_lookup_round _ _ _ _ _ _ _ _ _) => [[los zk2]|e|p] ne; [|by have := ne e|by left; exists p].
rewrite rbind_Ok.
have plo lo : occurs lo los -> exists es' tqs, lookup_columns env d ext (map f (c_ws C)) (map f (c_ins C)) (map f (c_fs C)) (map f (c_ts C)) (c_u C) es' tqs theta lo.
  by move=> Hlo; have [j Hj] := occurs_ex_idx Hlo; have [l [es' [tqs [_ _ _ H]]]] := lo_cols eok sd ixd lay lks El Hj; exists es', tqs.
have plp o : occurs o (lookup_primes los) -> interpolates d o.
  rewrite /lookup_primes; elim: (los) plo => //= lo los' IH plo.
  have [es' [tqs [[_ _ a1 a2] _ _ _ _]]] := plo lo (or_introl erefl).
  by case=> [->|[->|Ho]] //; apply: IH Ho => lo' Hlo'; apply: plo; right.
have [lc [lr [zk3 Elc]]] := commit_labeled_ok tot zk2 (fun o Ho => pol o (plp o Ho)).
rewrite Elc rbind_Ok.
have := @no_err_perm F env PC (ix_perm ix) pre (oracles_to_copy (map f (c_ws C))) beta gamma d ext zk3.
case Ez: (prover_permutation_round _ _ _ _ _ _ _ _ _) => [[zs zk4]|e|p] {}ne; [|by have := ne e|by left; exists p].
rewrite rbind_Ok.
have pzs z : occurs z zs -> interpolates d z.
  move: Ez; rewrite /prover_permutation_round; case: ifP => [_ [<- _] //|_ Ez].
  have [||_ _ Hz _ _] := construct_agg_rows _ _ Ez; last exact: Hz.
  - by rewrite (usable ixd).1.
  - rewrite -[oracles_to_copy _]/(copied (map f (c_ws C))) copied_ext => o [Ho|Ho]; have [o' Ho' ->] := occurs_map Ho.
      by have [|-> //] := @lay_in F C lay o'; left; exact: occurs_filter Ho'.
    by have [|-> //] := @lay_in F C lay o'; (right; right; right; right; left).
have [zc [zr [zk5 Ezc]]] := commit_labeled_ok tot zk4 (fun o Ho => pol o (pzs o Ho)).
rewrite Ezc rbind_Ok.
have := @no_err_subset F env PC ix beta gamma d (enumerate los) zk5.
case Elz: (prover_subset_round _ _ _ _ _ _ _) => [[lzs zk6]|e|p] {}ne; [|by have := ne e|by left; exists p].
right.
pose T1 := PTrace d wr zk1 los zk2 lr zk3 zs zk4 zr zk5 lzs zk6 [::] zk6 [::] [::] zk6 [::] [::] [::] [::].
have tr1 : early_trace env vk pre (c_ws C) (c_ins C) (c_vos C) n theta beta gamma T1.
  by split=> //=; rewrite (usable ixd).1.
split; [exact: (run_combined eok sd ixd lay lks tr1)|exact: (run_products sd ixd lay tr1)|exact: (run_denominators eok sd ixd lay lks tr1)].
Qed.

(** The multi-opening either returns a proof or reports a repeated rotation. *)
Lemma mo_prove_outcome (FS : fsrng F) os rs (fs : fs_state FS) zk0 : size os = size rs ->
  (forall o, occurs o os -> (size (po_poly o) <= n)%N /\ forall r, r \in o_rots o -> (r.1 < n)%N) ->
  (exists pf fs' zk', mo_prove env ck os rs xi n fs zk0 = Ok (pf, fs', zk')) \/
  exists k s, mo_prove env ck os rs xi n fs zk0 = Err (RepeatedRotation k s).
Proof.
move=> ss Hos; case U: (all (fun o : poracle F => uniq [seq rot_point (dgen d) r xi | r <- o_rots o]) os).
  left; apply: (mo_prove_ok tot dok fs zk0 sd ss) => o Ho; have [h1 h2] := Hos o Ho; split=> //.
  by elim: (os) U Ho => //= a l IH /andP[h /IH K] [->|/K].
right; rewrite /mo_prove; case: (fs_rand fs) => x1 fs1; case: (fs_rand fs1) => x2 fs2; rewrite (sd : domain_new env n = _); cbn [opt_unwrap rbind].
set pows := powers _ _ _; set sets := opening_sets _ _.
have [[items E]|[k [s ->]]] : ok_or_repeated (rmapM (mo_prover_item pows (elements d) xi) sets); last by exists k, s.
  apply: rmapM_outcome => -[k l] Hk; apply: item_outcome; first exact: dok.
  have [o Hol] : exists o, occurs o l by have := opening_sets_nonempty Hk; case: (l) => // o l' _; exists o; left.
  move=> r Hr; have [Ek Hoz] := opening_sets_mem Hk Hol; have [_ H] := Hos o.1 (occurs_zip_fst Hoz).
  by apply: H; rewrite Ek.
have D := items_distinct dok ss E; case/negP: (negbT U).
elim: (os) D => //= o l IH D; rewrite D /=; [by apply: IH => o' Ho'; apply: D; right|by left].
Qed.

Lemma fails_late rest : challenges_good -> ~ distinct_points C xi ->
  exists k s, tp_prove env (scripted [:: theta, beta, gamma, alpha, xi & rest]) ck vk pre (c_ws C) (c_ins C) (c_vos C) n zk = Err (RepeatedRotation k s).
Proof.
case=> g1 g2 g3 nd; have [T [Hsh Hpf]] := prove_trace eok alpha xi zk sd ixd lay gok vpos ult lks g1 g2 g3 tot.
have [mo0 _] := some_mo tot; have [pf tr _] := Hpf mo0.
have ok o : occurs o (t_oracles pre (ws_ext env vk (c_ws C)) T) -> (size (po_poly o) <= n)%N /\ forall r, r \in o_rots o -> (r.1 < n)%N by case/Hsh.
have [[mo [fs' [zk' E]]]|[k [s E]]] := mo_prove_outcome (FS := scripted [::]) rest (t_zk8 T) (pt_size tr) ok.
  by case: nd; apply: (run_points eok sd ixd lay lks (early_of tr) tr E).
exists k, s; exact: (prover_replay_err tr E).
Qed.
End Outcome.
