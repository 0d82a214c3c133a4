(** The verifier run on an arbitrary proof: what it registers, and what the registered values being
    those of the committed polynomials amounts to. *)
From mathcomp Require Import all_ssreflect all_algebra.
From mathcomp Require Import zify.
From Coq Require Import String.
From Verif Require Import Base ModelPoly ModelVO ModelOracle ModelPC ModelPermutation
  ModelLookup ModelIndexer ModelMultiproof ModelProtocol Spec SpecProtocol SpecPIOP SpecMultiopen SpecCircuit SpecSound
  ProofBase ProofPoly ProofDomain ProofEach ProofOracle ProofPermutation ProofPermArg ProofIndexer ProofOpen ProofPIOP ProofPIOP2 ProofPIOP3 ProofColumns
  ProofVerifierCols ProofProver ProofFront ProofCounts ProofRounds ProofHonest ProofComplete.

Set Implicit Arguments.
Unset Strict Implicit.
Unset Printing Implicit Defensive.

Import GRing.Theory.
Local Open Scope ring_scope.

Lemma assoc_last_mem (K : eqType) V (s : seq (K * V)) k : k \in map fst s -> exists v, assoc_last s k = Some v.
Proof.
elim: s => [//|[a b] s IH] /=; rewrite inE => H; case E: (assoc_last s k) => [v|]; first by exists v.
move: H; rewrite eq_sym; case: eqP => [_|_] /=; first by exists b.
by move=> /IH [v]; rewrite E.
Qed.

Section Register.
Variables (F : fieldType) (C : Type) (d : domain F) (xi : F).
Hypothesis dok : domain_ok d.
Let w := dgen d.
(** Some value is registered at every declared point. *)
Definition claimed (v : voracle F C) : Prop := forall r, r \in o_rots v -> exists e, vo_query v (rot_point w r xi) = Ok e.
Definition updated (v v' : voracle F C) : Prop := same_but_evals v v' /\ claimed v'.

Lemma register_declared (vs vs' : seq (voracle F C)) missing qs evs :
  uniq (map (@o_label _) vs) -> rots_below vs (dsize d) ->
  get_query_set vs xi_label xi (elements d) = Ok qs -> size qs = size evs ->
  register_evals vs missing (zip qs evs) = Ok vs' -> each2 updated vs vs'.
Proof.
move=> U rb Hq sq Hr.
have [qs' E Hin] := get_query_set_ok xi_label xi dok rb; move: Hq; rewrite E => -[?]; subst qs'.
have Hl e : e \in zip qs evs -> e.1.1 \in map (@o_label _) vs.
  move=> He; apply: (query_entries_label (d := d) (pl := xi_label) (x := xi)); rewrite -Hin.
  by have := map_f fst He; rewrite -/unzip1 unzip1_zip ?sq.
have [os' [E' s' H]] := register_evals_spec missing U Hl.
move: Hr; rewrite E' => -[?]; subst os'.
apply: each2_intro => [|j v v' Hv Hv']; first by rewrite s'.
have [v2 [Hv2 sb Hq]] := H j v Hv; move: Hv2; rewrite Hv' => -[?]; subst v2; split=> //.
move=> r Hr; have [_ er _ _ _] := sb; rewrite er in Hr; rewrite Hq.
have [e ->] : exists e, assoc_last (entries_for (o_label v) (zip qs evs)) (rot_point w r xi) = Some e; last by exists e.
apply: assoc_last_mem; rewrite /entries_for -map_comp.
have Hmem : (o_label v, pinfo (dgen d) r xi_label xi) \in qs by rewrite Hin (in_query_entries _ _ _ Hv Hr).
have {Hmem} : (o_label v, pinfo (dgen d) r xi_label xi) \in map fst (zip qs evs) by rewrite -/unzip1 unzip1_zip ?sq.
case/mapP => -[q e] Hqe Eq; apply/mapP; exists (q, e); first by rewrite mem_filter Hqe andbT -Eq.
by rewrite /= -[q]/((q, e).1) -Eq.
Qed.
End Register.

Section Sound.
Variables (F : fieldType) (env : fenv F).
Hypothesis eok : fenv_ok env.
Variables (PC : pcs F) (op : pc_com PC -> {poly F}) (S : vinput PC) (es : seq (expr F oquery)) (cm : commitments PC) (Q : seq (pc_com PC))
  (theta xi : F) (pf : tp_proof PC) (VT : vtrace PC).
Let d := s_d S.
Let n := dsize d.
Let w := dgen d.
Let pre := s_pre S.
Let u := pa_usable_rows (s_perm S).
Hypothesis sd : std_domain env d.
Hypothesis rdy : verifiable S es.
Hypothesis cnt : well_counted S cm.
Hypothesis car : carries pf cm Q.
Hypothesis fr : verify_front env (s_vk S) pre pf (s_ws S) (s_ins S) n theta xi = Ok VT.
Let dok : domain_ok d := std_domain_ok eok sd.
Notation claimed := (@claimed F (pc_com PC) d xi).
Notation updated := (@updated F (pc_com PC) d xi).
Notation committed := (committed op d).
Notation unnamed := (unnamed op d).

(** What each group of registered oracles is made of. *)
Record front_facts : Prop := FrontFacts {
  ff_d : vt_d VT = d;
  ff_ws : each2 updated (register_commitments (s_ws S) (cm_w cm)) (vt_ws VT);
  ff_fixed : each2 updated (vp_fixed pre) (vt_fixed VT);
  ff_table : each2 updated (vp_table pre) (vt_table VT);
  ff_perm : each2 (fun v v' => exists e, v' = register_eval_at_challenge xi e v) (vp_perm pre) (vt_perm VT);
  ff_qb : exists e, vt_qb VT = register_eval_at_challenge xi e (vp_q_blind pre);
  ff_los : each2 (fun lc lo => exists k e, lookup_oracles_v (vt_ws VT) (s_ins S)
     (VerifierPre (vt_fixed VT) (vt_table VT) (vt_perm VT) (vp_q_blind pre)) theta xi w^-1 (elements d) (k, (lc.1, lc.2, e)) = Ok lo)
     (zip (s_lookups S) (chunks 2 (cm_l cm))) (vt_los VT);
  ff_lzs : each2 (fun c v => exists k e, lookup_z_oracle_v xi w (k, (c, e)) = Ok v) (cm_lz cm) (vt_lzs VT);
  ff_zs : each2 updated [seq z_oracle_v u (size (cm_z cm)) kc | kc <- enumerate (cm_z cm)] (vt_zs VT);
  ff_chunks : each2 (fun c v => exists k, quotient_oracle_v xi (tp_quotient_evals pf) (k, c) = Ok v) Q (vt_chunks VT) }.
Lemma register_shape vs (cs : seq (pc_com PC)) j (v : voracle F (pc_com PC)) : idx (register_commitments vs cs) j = Ok v ->
  exists v0, [/\ idx vs j = Ok v0, o_label v = o_label v0, o_rots v = o_rots v0 & vd_permute (o_data v) = vd_permute (o_data v0)].
Proof.
elim: vs cs j => [|v0 vs IH] [|c cs] [|j] //=; try (by move=> [<-]; exists v0); try (by move=> H; exists v).
exact: IH.
Qed.
Lemma register_mirrors vs (cs : seq (pc_com PC)) : mirrors vs (register_commitments vs cs).
Proof. by rewrite /mirrors; elim: vs cs => [|v0 vs IH] [|c cs] //=; rewrite -IH. Qed.
Lemma each2_snd A B D (P : B -> D -> Prop) (a : seq A) (b : seq B) (c : seq D) : size a = size b ->
  each2 (fun x y => P x.2 y) (zip a b) c -> each2 P b c.
Proof. by elim: a b c => [|x a IH] [|y b] [|z c] //= [/IH H] [h1 /H]. Qed.

Lemma facts : front_facts.
Proof.
have [sw sl slz sz] := cnt; have [cw cl cz clz cq] := car.
have [lw li lf lt] := rd_labels rdy; have [rw rf rt] := rd_rots rdy.
move: fr; rewrite /verify_front => H.
have {H} [ch Hch H] := rbind_ok H; have {H} [d' Hd H] := rbind_ok H; have {Hd} ? : d' = d.
  by move: Hd; rewrite (_ : domain_new env n = Some d) // => -[].
subst d'.
have {H} [wqs Hwq H] := rbind_ok H; have {H} [_ /rassert_ok /eqP swq H] := rbind_ok H; have {H} [ws Hws H] := rbind_ok H.
have {H} [fqs Hfq H] := rbind_ok H; have {H} [_ /rassert_ok /eqP sfq H] := rbind_ok H; have {H} [fx Hfx H] := rbind_ok H.
have {H} [tqs Htq H] := rbind_ok H; have {H} [_ /rassert_ok /eqP stq H] := rbind_ok H; have {H} [tb Htb H] := rbind_ok H.
have {H} [_ /rassert_ok /eqP sp H] := rbind_ok H; have {H} [oi Hoi H] := rbind_ok H.
have {H} [_ /rassert_ok /eqP s2 H] := rbind_ok H; have {H} [_ /rassert_ok /eqP s3 H] := rbind_ok H; have {H} [los Hlos H] := rbind_ok H.
have {H} [_ /rassert_ok /eqP s4 H] := rbind_ok H; have {H} [_ /rassert_ok /eqP s5 H] := rbind_ok H; have {H} [lzs Hlzs H] := rbind_ok H.
have {H} [nz Hnz H] := rbind_ok H; have {H} [_ /rassert_ok /eqP snz H] := rbind_ok H.
have {H} [zqs Hzq H] := rbind_ok H; have {H} [_ /rassert_ok /eqP szq H] := rbind_ok H; have {H} [zs Hzs H] := rbind_ok H.
have oiE : oi = w^-1 by move: Hoi; rewrite /finv /element expr1; case: ifP => // _ [].
subst oi.
split; rewrite -(Ok_inj H) //; cbn [vt_d vt_ws vt_fixed vt_table vt_perm vt_qb vt_los vt_lzs vt_zs vt_chunks].
- rewrite -cw; apply: (register_declared dok _ _ Hwq swq Hws).
  + by rewrite -(mirrors_labels (register_mirrors _ _)).
  + by move=> j o Ho r; have [o' [Ho' _ E _]] := register_shape Ho; rewrite E; exact: (rw _ _ Ho').
- exact: (register_declared dok _ _ Hfq sfq Hfx).
- exact: (register_declared dok _ _ Htq stq Htb).
- apply: each2_intro => [|j v v' Hv Hv']; first by rewrite size_map size_zip sp minnn.
  have [[v0 e] Hve ->] := idx_map_inv Hv'; have [Hv0 He] := idx_zip Hve; exists e.
  by move: Hv0; rewrite Hv => -[<-].
- by exists (tp_q_blind_eval pf).
- have re := rmapM_each Hlos; rewrite -cl.
  have sz2 : size (chunks 2 (tp_lookup_commitments pf)) = size (s_lookups S) by [].
  have sz3 : size (chunks 3 (tp_lookup_evals pf)) = size (s_lookups S) by [].
  apply: each2_intro => [|j [l c] lo Hlc Hlo]; first by rewrite -(each2_size re) size_enumerate !size_zip sz2 sz3 !minnn.
  have [e He] : exists e, idx (chunks 3 (tp_lookup_evals pf)) j = Ok e.
    by apply: (idx_size2 _ Hlc); rewrite size_zip sz2 sz3 minnn.
  exists j, e; apply: (each2_idx re _ Hlo).
  by rewrite idx_enumerate (idx_zip_ok Hlc He).
- have re := rmapM_each Hlzs; rewrite -clz; apply: each2_intro => [|j c v Hc Hv].
    by rewrite -(each2_size re) size_enumerate size_zip s4 s5 minnn.
  have [e He] : exists e, idx (chunks 2 (tp_lookup_z_evals pf)) j = Ok e by apply: (idx_size2 _ Hc); rewrite s4 s5.
  exists j, e; rewrite -[w]expr1; apply: (each2_idx re _ Hv).
  by rewrite idx_enumerate (idx_zip_ok Hc He).
- rewrite -cz -snz; apply: (register_declared dok _ _ Hzq szq Hzs).
  + rewrite -map_comp (_ : map _ _ = [seq append "agg_permutation_" (show_nat k) | k <- map fst (enumerate (tp_z_commitments pf))]).
      by rewrite /enumerate -/(unzip1 _) unzip1_zip ?size_iota // uniq_numbered.
    by rewrite -map_comp; apply: eq_map => -[k c].
  + have [n1 un] := rd_rows rdy.
    move=> j o Ho r; have [[k c] _ ->] := idx_map_inv Ho.
    by rewrite /z_oracle_v; cbn [o_rots]; case: ifP => _; rewrite ?mem_sinsert !inE => H'; repeat (case/orP: H' => H'); rewrite ?(eqP H') //= ltnW.
- have re := rmapM_each Hch; rewrite -cq; apply: each2_intro => [|j c v Hc Hv]; first by rewrite -(each2_size re) size_enumerate.
  by exists j; apply: (each2_idx re _ Hv); rewrite idx_enumerate Hc.
Qed.

(** ** All claims true *)
Definition value_of (v : voracle F (pc_com PC)) : {poly F} := op (ok_or (pc_zero PC) (get_commitment v)).
Hypothesis true_all : forall v r, occurs v (vt_oracles VT) -> r \in o_rots v ->
  vo_query v (rot_point w r xi) = Ok (value_of v).[rot_point w r xi].

Lemma committed_sbe v v' : same_but_evals v v' -> committed v' = committed v.
Proof. by case=> el er ek ec ep; rewrite /SpecSound.committed /get_commitment el er ek ec ep. Qed.
Lemma opens_committed v : occurs v (vt_oracles VT) -> opens d xi v (committed v).
Proof. by move=> Hv; split=> // r Hr; rewrite /answers (true_all Hv Hr) pevalE /= polyseqK. Qed.
Lemma opens_updated vs vs' : (forall v, occurs v vs' -> occurs v (vt_oracles VT)) -> each2 updated vs vs' ->
  each2 (fun v p => opens d xi v p /\ vd_permute (o_data v) = pd_permute (o_data p)) vs' (map committed vs).
Proof.
move=> sub H; apply: each2_intro => [|j v p Hv Hp]; first by rewrite size_map (each2_size H).
have [v0 Hv0 ->] := idx_map_inv Hp; have [sb _] := each2_idx H Hv0 Hv.
by rewrite -(committed_sbe sb); split=> //; apply: opens_committed; apply: sub; exact: occurs_idx Hv.
Qed.

Lemma occ_ws v : occurs v (vt_ws VT) -> occurs v (vt_oracles VT).
Proof. by move=> H; apply/occurs_cat; left. Qed.
Lemma occ_primes v : occurs v (lookup_primes (vt_los VT)) -> occurs v (vt_oracles VT).
Proof. by move=> H; do 1 (apply/occurs_cat; right); apply/occurs_cat; left. Qed.
Lemma occ_lzs v : occurs v (vt_lzs VT) -> occurs v (vt_oracles VT).
Proof. by move=> H; do 2 (apply/occurs_cat; right); apply/occurs_cat; left. Qed.
Lemma occ_chunks v : occurs v (vt_chunks VT) -> occurs v (vt_oracles VT).
Proof. by move=> H; do 3 (apply/occurs_cat; right); apply/occurs_cat; left. Qed.
Lemma occ_zs v : occurs v (vt_zs VT) -> occurs v (vt_oracles VT).
Proof. by move=> H; do 4 (apply/occurs_cat; right); apply/occurs_cat; left. Qed.
Lemma occ_fixed v : occurs v (vt_fixed VT) -> occurs v (vt_oracles VT).
Proof. by move=> H; do 5 (apply/occurs_cat; right); apply/occurs_cat; left. Qed.
Lemma occ_table v : occurs v (vt_table VT) -> occurs v (vt_oracles VT).
Proof. by move=> H; do 6 (apply/occurs_cat; right); apply/occurs_cat; left. Qed.
Lemma occ_perm v : occurs v (vt_perm VT) -> occurs v (vt_oracles VT).
Proof. by move=> H; do 7 (apply/occurs_cat; right); apply/occurs_cat; left. Qed.
Lemma occ_qb : occurs (vt_qb VT) (vt_oracles VT).
Proof. by do 8 (apply/occurs_cat; right); left. Qed.

Lemma answers_curr v c : occurs v (vt_oracles VT) -> curr \in o_rots v -> get_commitment v = Ok c -> answers xi v (unnamed c).
Proof.
move=> Hv Hr Hc; have := true_all Hv Hr; rewrite rot_point_curr /value_of Hc /= => H.
by rewrite /answers H pevalE /= polyseqK.
Qed.
Lemma answers_rot v c r : occurs v (vt_oracles VT) -> r \in o_rots v -> get_commitment v = Ok c -> answers (rot_point w r xi) v (unnamed c).
Proof. by move=> Hv Hr Hc; rewrite /answers (true_all Hv Hr) /value_of Hc /= pevalE /= polyseqK. Qed.

Lemma exprs_ok_labels PW PI PF PW' PI' PF' (ws : seq (oracle PW)) (ins : seq (oracle PI)) (fs : seq (oracle PF))
    (ws' : seq (oracle PW')) (ins' : seq (oracle PI')) (fs' : seq (oracle PF')) m (xs : seq (expr F oquery)) :
  map (@o_label _) ws = map (@o_label _) ws' -> map (@o_label _) ins = map (@o_label _) ins' -> map (@o_label _) fs = map (@o_label _) fs' ->
  exprs_ok ws ins fs m xs -> exprs_ok ws' ins' fs' m xs.
Proof. by move=> ew ei ef H e q He Hq; have := H e q He Hq; rewrite /query_ok /query_resolves ew ei ef. Qed.
Lemma declares_mirror P P' (vs : seq (oracle P)) (ps : seq (oracle P')) q : mirrors vs ps -> declares vs q = declares ps q.
Proof.
rewrite /declares /named /mirrors; elim: vs ps => [|v vs IH] [|p ps] //= [el er H]; rewrite el.
by case: ifP => _ //=; [rewrite er|exact: IH].
Qed.
Lemma exprs_declared_mirror PW PF PW' PF' (ws : seq (oracle PW)) (fs : seq (oracle PF)) (ws' : seq (oracle PW')) (fs' : seq (oracle PF'))
    (xs : seq (expr F oquery)) : mirrors ws ws' -> mirrors fs fs' -> exprs_declared ws fs xs -> exprs_declared ws' fs' xs.
Proof.
move=> mw mf H e q He Hq; have := H e q He Hq; rewrite /declared.
by case: (oq_type q) => //=; rewrite ?(declares_mirror _ mw) ?(declares_mirror _ mf).
Qed.
Lemma committed_mirrors (vs : seq (voracle F (pc_com PC))) : mirrors vs (map committed vs).
Proof. by rewrite /mirrors -map_comp. Qed.
Lemma ws_mirrors : mirrors (s_ws S) (bound_ws op S (cm_w cm)).
Proof. by rewrite /bound_ws /mirrors -committed_mirrors; exact: register_mirrors. Qed.
Lemma ins_labels : map (@o_label _) (s_ins S) = map (@o_label _) (bound_ins S).
Proof. by rewrite /bound_ins -map_comp. Qed.
Lemma bound_exprs_ok xs : exprs_ok (s_ws S) (s_ins S) (vp_fixed pre) n xs ->
  exprs_ok (bound_ws op S (cm_w cm)) (bound_ins S) (bound_fs op S) n xs (F := F).
Proof. exact: (exprs_ok_labels (mirrors_labels ws_mirrors) ins_labels (mirrors_labels (committed_mirrors _))). Qed.
Lemma bound_declared xs : exprs_declared (s_ws S) (vp_fixed pre) xs -> exprs_declared (bound_ws op S (cm_w cm)) (bound_fs op S) xs (F := F).
Proof. exact: (exprs_declared_mirror ws_mirrors (committed_mirrors _)). Qed.

Let ff := facts.
Let A := bound op S theta cm.

Lemma los_seen j o p : idx (vt_los VT) j = Ok o -> idx (as_los A) j = Ok p ->
  [/\ answers xi (lo_a o) (lo_a p), answers xi (lo_s o) (lo_s p), answers xi (lo_s' o) (lo_s' p) &
      answers xi (lo_a' o) (lo_a' p) /\ answers (w^-1 * xi) (lo_a' o) (lo_a' p)].
Proof.
move=> Ho Hp; have [[l cs] Hlc ->] := idx_map_inv Hp; cbn [fst snd lo_a lo_s lo_a' lo_s'].
have [k [e He]] := each2_idx (ff_los ff) Hlc Ho; cbn [fst snd] in He.
have Hl : occurs l (s_lookups S) by have [H _] := idx_zip Hlc; exact: occurs_idx H.
have [xs [tqs [Ex Et sz [xok xdec] [tok tdec rot]]]] := rd_lookups rdy Hl.
have [lw li lf lt] := rd_labels rdy.
have Tw : truthful w xi (vt_ws VT) (bound_ws op S (cm_w cm)).
  by apply: opens_truthful; apply: each2_imp (opens_updated occ_ws (ff_ws ff)) => a b [].
have Tf : truthful w xi (vt_fixed VT) (bound_fs op S).
  by apply: opens_truthful; apply: each2_imp (opens_updated occ_fixed (ff_fixed ff)) => a b [].
have Tt : truthful w xi (vt_table VT) (bound_ts op S).
  by apply: opens_truthful; apply: each2_imp (opens_updated occ_table (ff_table ff)) => a b [].
have Ti : same_instances (s_ins S) (bound_ins S) by rewrite /same_instances /bound_ins -map_comp.
have [t1 t2] : table_queries_ok (bound_ts op S) tqs /\ tables_declared (bound_ts op S) tqs.
  have mt := committed_mirrors (vp_table pre).
  split=> q Hq; first by have := tok _ Hq; rewrite (mirrors_labels mt).
  by have := tdec _ Hq; rewrite (declares_mirror _ mt).
have [||||a [s [Eas Ha Hs]]] := @verifier_columns_eq F (pc_com PC) d xi dok (bound_ws op S (cm_w cm)) (bound_ins S) (bound_fs op S)
    (vt_ws VT) (vt_fixed VT) (s_ins S) Tw Tf Ti _ _ _ (bound_ts op S) (vt_table VT) Tt _ k xs tqs theta sz
    (bound_exprs_ok xok) (bound_declared xdec) rot t1 t2.
- by rewrite -(mirrors_labels ws_mirrors).
- by rewrite -ins_labels.
- by rewrite -(mirrors_labels (committed_mirrors _)).
- by rewrite -(mirrors_labels (committed_mirrors _)).
move: He; rewrite /lookup_oracles_v Ex Et => He.
have {He} [xs' Ex' He] := rbind_ok He; rewrite -(Ok_inj Ex') in He.
have {He} [tqs' Et' He] := rbind_ok He; rewrite -(Ok_inj Et') in He.
have {He} [as' Eas' He] := rbind_ok He; cbn [vp_fixed vp_table] in Eas'; rewrite Eas in Eas'; rewrite -(Ok_inj Eas') in He.
have {He} [e0 _ He] := rbind_ok He; have {He} [e1 _ He] := rbind_ok He; have {He} [c0 Hc0 He] := rbind_ok He.
have {He} [e2 _ He] := rbind_ok He; have {He} [c1 Hc1 He] := rbind_ok He.
have [Oa Os] : occurs (lo_a' o) (vt_oracles VT) /\ occurs (lo_s' o) (vt_oracles VT).
  have := occurs_idx Ho; move=> {}Ho; split; apply: occ_primes; elim: (vt_los VT) Ho => //= x los IH [->|/IH H]; by [left|right;left|right;right].
rewrite -(Ok_inj He) in Oa Os; rewrite -(Ok_inj He).
cbn [lo_a lo_s lo_a' lo_s'] in Oa, Os; cbn [lo_a lo_s lo_a' lo_s'].
have n0 m c : idx cs m = Ok c -> nth (pc_zero PC) cs m = c by elim: cs m {Hlc Hp Hc0 Hc1} => [|y cs' IH] [|m] //=; [case|exact: IH].
rewrite (n0 _ _ Hc0) (n0 _ _ Hc1); split.
- by rewrite /answers Ha pevalE /= polyseqK /bound_a Ex.
- rewrite /answers Hs pevalE /= polyseqK /bound_s Et /= compressed_horner -map_comp /table_point.
  by congr (Ok (compressed _ _)); apply: eq_map => q /=; rewrite pevalE.
- by apply: answers_curr Os _ _; rewrite ?inE.
- split; first by apply: answers_curr Oa _ _; rewrite ?inE.
  have -> : w^-1 * xi = rot_point w prev xi by rewrite /rot_point /= expr1 mulrC.
  by apply: answers_rot Oa _ _; rewrite ?inE.
Qed.

Lemma flat_seen e v : occurs (register_eval_at_challenge xi e v) (vt_oracles VT) -> curr \in o_rots v ->
  answers xi (register_eval_at_challenge xi e v) (committed v).
Proof. by move=> Hv Hr; have [_ _ H] := opens_committed Hv; have := H _ Hr; rewrite rot_point_curr. Qed.
Lemma occurs_kept T (P : pred T) x (s : seq T) : occurs x (filter P s) -> P x /\ occurs x s.
Proof.
by elim: s => [//|y s IH] /=; case E: (P y) => /=; [case=> [->|/IH [H1 H2]]|move=> /IH [H1 H2]]; split=> //; [left|right|right].
Qed.
Lemma z_shape j v c : idx (vt_zs VT) j = Ok v -> idx (cm_z cm) j = Ok c ->
  o_rots v = (if j != (size (cm_z cm)).-1 then sinsert rot_lt (u, Plus) [:: curr; next] else [:: curr; next]) /\ get_commitment v = Ok c.
Proof.
move=> Hv Hc; have Hz : idx [seq z_oracle_v u (size (cm_z cm)) kc | kc <- enumerate (cm_z cm)] j = Ok (z_oracle_v u (size (cm_z cm)) (j, c)).
  by apply: idx_map_ok; rewrite idx_enumerate Hc.
have [sb _] := each2_idx (ff_zs ff) Hz Hv; have [_ -> _ _ _] := sb; split=> //; exact: (sbe_commitment sb).
Qed.
Lemma zs_seen r : (r = curr \/ r = next) -> all_answer (rot_point w r xi) (vt_zs VT) (map unnamed (cm_z cm)).
Proof.
move=> Hr; apply: each2_answer; apply: each2_intro => [|j v p Hv Hp]; first by rewrite size_map -(each2_size (ff_zs ff)) size_map size_enumerate.
have [c Hc ->] := idx_map_inv Hp; have [er ec] := z_shape Hv Hc.
apply: answers_rot ec; first exact: occ_zs (occurs_idx Hv).
by rewrite er; case: ifP => _; rewrite ?mem_sinsert !inE; case: Hr => ->; rewrite eqxx ?orbT.
Qed.
Lemma lz_shape j v c : idx (vt_lzs VT) j = Ok v -> idx (cm_lz cm) j = Ok c -> o_rots v = [:: curr; next] /\ get_commitment v = Ok c.
Proof.
move=> Hv Hc; have [k [e He]] := each2_idx (ff_lzs ff) Hc Hv; move: He; rewrite /lookup_z_oracle_v => He.
have {He} [e0 _ He] := rbind_ok He; have {He} [e1 _ He] := rbind_ok He.
by rewrite -(Ok_inj He).
Qed.
Lemma lzs_seen r : (r = curr \/ r = next) -> all_answer (rot_point w r xi) (vt_lzs VT) (map unnamed (cm_lz cm)).
Proof.
move=> Hr; apply: each2_answer; apply: each2_intro => [|j v p Hv Hp]; first by rewrite size_map -(each2_size (ff_lzs ff)).
have [c Hc ->] := idx_map_inv Hp; have [er ec] := lz_shape Hv Hc.
apply: answers_rot ec; first exact: occ_lzs (occurs_idx Hv).
by rewrite er !inE; case: Hr => ->; rewrite eqxx ?orbT.
Qed.
Lemma chunk_shape j v c : idx (vt_chunks VT) j = Ok v -> idx Q j = Ok c -> o_rots v = [:: curr] /\ get_commitment v = Ok c.
Proof.
move=> Hv Hc; have [k He] := each2_idx (ff_chunks ff) Hc Hv; move: He; rewrite /quotient_oracle_v => He.
by have {He} [e0 _ He] := rbind_ok He; rewrite -(Ok_inj He).
Qed.

Lemma sees_bound : sees w xi u (front_view (s_ins S) VT) A (map unnamed Q).
Proof.
have Hw := opens_updated occ_ws (ff_ws ff).
have nE : w * xi = rot_point w next xi by rewrite /rot_point /= expr1 mulrC.
split; cbn [front_view v_ws v_ins v_fs v_qb v_sigmas v_zs v_los v_lzs v_chunks A bound as_ws as_ins as_fs as_qb as_sigmas as_zs as_lzs].
- by apply: opens_truthful; apply: each2_imp Hw => a b [].
- by rewrite /same_instances /bound_ins -map_comp.
- by apply: opens_truthful; apply: each2_imp (opens_updated occ_fixed (ff_fixed ff)) => a b [].
- have [e He] := ff_qb ff; have := occ_qb; rewrite He => Oq.
  by apply: (flat_seen Oq); rewrite (rd_flat rdy) ?inE //; apply/occurs_cat; right; left.
- have Hc := each2_filter (P := fun v p => opens d xi v p) Hw.
  apply: each2_answer; apply: each2_intro (each2_size Hc) _ => j v p Hv Hp.
  have [_ er H] := each2_idx Hc Hv Hp; rewrite -(rot_point_curr w xi); apply: H.
  have {Hp} [pp Ho] := occurs_kept (occurs_idx Hp); have [v1 Hv1 Ep] := occurs_map Ho.
  have [i Hi] := occurs_ex_idx Hv1; have [v0 [Hv0 _ Er Epm]] := register_shape Hi.
  by rewrite Ep /= Er; apply: (rd_copied rdy (occurs_idx Hv0)); rewrite -Epm; move: pp; rewrite Ep.
- apply: each2_answer; apply: each2_intro => [|j v p Hv Hp]; first by rewrite size_map (each2_size (ff_perm ff)).
  have [v0 Hv0 ->] := idx_map_inv Hp; have [e Ev] := each2_idx (ff_perm ff) Hv0 Hv.
  have := occ_perm (occurs_idx Hv); rewrite Ev => Oq.
  by apply: (flat_seen Oq); rewrite (rd_flat rdy) ?inE //; apply/occurs_cat; left; exact: occurs_idx Hv0.
- by have := zs_seen (or_introl erefl); rewrite rot_point_curr.
- by rewrite nE; apply: zs_seen; right.
- move=> k v p Hk Hv Hp; have [c Hc ->] := idx_map_inv Hp; have [er ec] := z_shape Hv Hc.
  have -> : w ^+ u * xi = rot_point w (u, Plus) xi by rewrite /rot_point /= mulrC.
  apply: answers_rot ec; first exact: occ_zs (occurs_idx Hv).
  move: Hk; rewrite size_map => Hk; rewrite er (_ : k != _); first by rewrite mem_sinsert eqxx.
  by apply/eqP => E; move: Hk; rewrite E; case: (size _) => //= m; rewrite ltnn.
- split; last exact: los_seen.
  by rewrite size_map -(each2_size (ff_los ff)).
- by have := lzs_seen (or_introl erefl); rewrite rot_point_curr.
- by rewrite nE; apply: lzs_seen; right.
- apply: each2_answer; apply: each2_intro => [|j v p Hv Hp]; first by rewrite size_map -(each2_size (ff_chunks ff)).
  have [c Hc ->] := idx_map_inv Hp; have [er ec] := chunk_shape Hv Hc.
  by apply: answers_curr ec; [exact: occ_chunks (occurs_idx Hv)|rewrite er inE].
Qed.

(** ** The opened oracles *)
Lemma sbe_rots vs vs' : each2 updated vs vs' -> map (@o_rots _) vs' = map (@o_rots _) vs.
Proof.
move=> H; apply: map_eq_idx => [|j x y Hx Hy]; first by rewrite (each2_size H).
by have [[_ -> _ _ _] _] := each2_idx H Hy Hx.
Qed.
Lemma register_rots vs (cs : seq (pc_com PC)) : map (@o_rots _) (register_commitments vs cs) = map (@o_rots _) vs.
Proof. by elim: vs cs => [|v vs IH] [|c cs] //=; rewrite IH. Qed.
Lemma lo_shape j l o : idx (zip (s_lookups S) (chunks 2 (cm_l cm))) j = Ok l -> idx (vt_los VT) j = Ok o ->
  exists c0 c1 e0 e1 e2, [/\ idx l.2 0 = Ok c0, idx l.2 1 = Ok c1,
    o_rots (lo_a' o) = [:: curr; prev] /\ o_rots (lo_s' o) = [:: curr],
    get_commitment (lo_a' o) = Ok c0 /\ get_commitment (lo_s' o) = Ok c1 &
    vd_evals (o_data (lo_a' o)) = ains (ains [::] xi e0) (xi * w^-1) e1 /\ vd_evals (o_data (lo_s' o)) = [:: (xi, e2)]].
Proof.
move=> Hl Ho; have [k [e He]] := each2_idx (ff_los ff) Hl Ho; move: He; rewrite /lookup_oracles_v => He.
have {He} [xs' Ex' He] := rbind_ok He; have {He} [tqs' Et' He] := rbind_ok He; have {He} [[a s] Eas' He] := rbind_ok He.
have {He} [e0 _ He] := rbind_ok He; have {He} [e1 _ He] := rbind_ok He; have {He} [c0 Hc0 He] := rbind_ok He.
have {He} [e2 _ He] := rbind_ok He; have {He} [c1 Hc1 He] := rbind_ok He.
by exists c0, c1, e0, e1, e2; rewrite -(Ok_inj He).
Qed.
Lemma l_pairs : exists2 cc : seq (pc_com PC * pc_com PC), chunks 2 (cm_l cm) = [seq [:: x.1; x.2] | x <- cc] &
  cm_l cm = flatten [seq [:: x.1; x.2] | x <- cc] /\ size cc = size (s_lookups S).
Proof.
have [_ sl _ _] := cnt; have [cc E sc] := pairs_of sl; exists cc => //.
by rewrite E chunks_flatten // => c Hc; have [z _ ->] := occurs_map Hc.
Qed.
Lemma size_vlos : size (vt_los VT) = size (s_lookups S).
Proof. by have [cc Ec [_ sc]] := l_pairs; rewrite -(each2_size (ff_los ff)) size_zip Ec size_map sc minnn. Qed.
Lemma vt_rots : map (@o_rots _) (vt_oracles VT) = opened_rots S (size Q).
Proof.
have [sw sl slz sz] := cnt; have [cc Ec [_ sc]] := l_pairs.
rewrite /vt_oracles /opened_rots; cbv zeta; rewrite !map_cat; congr (_ ++ (_ ++ (_ ++ (_ ++ (_ ++ (_ ++ (_ ++ (_ ++ _)))))))).
- by rewrite (sbe_rots (ff_ws ff)) register_rots.
- rewrite /lookup_primes map_flatten -map_comp; congr flatten; apply: map_eq_idx => [|j o l Ho Hl]; first exact: size_vlos.
  have [lc Hlc] := idx_size2 (esym (each2_size (ff_los ff))) Ho.
  by have [c0 [c1 [e0 [e1 [e2 [_ _ [r1 r2] _ _]]]]]] := lo_shape Hlc Ho; rewrite /= r1 r2.
- apply: map_eq_idx => [|j v l Hv Hl]; first by rewrite -(each2_size (ff_lzs ff)).
  by have [c Hc] := idx_size2 (esym (each2_size (ff_lzs ff))) Hv; have [-> _] := lz_shape Hv Hc.
- have <- : size (vt_chunks VT) = size Q by rewrite -(each2_size (ff_chunks ff)).
  have H v : occurs v (vt_chunks VT) -> o_rots v = [:: curr].
    move=> Hv; have [j Hj] := occurs_ex_idx Hv.
    by have [c Hc] := idx_size2 (esym (each2_size (ff_chunks ff))) Hj; have [-> _] := chunk_shape Hj Hc.
  by elim: (vt_chunks VT) H => //= v vs IH H; rewrite H; [congr (_ :: _); apply: IH => y Hy; apply: H; right|left].
- have szz : size (vt_zs VT) = size (cm_z cm) by rewrite -(each2_size (ff_zs ff)) size_map size_enumerate.
  rewrite -sz -{2}szz; symmetry; apply: map_iota_idx => j v Hv.
  by have [c Hc] := idx_size2 szz Hv; have [-> _] := z_shape Hv Hc.
- exact: (sbe_rots (ff_fixed ff)).
- exact: (sbe_rots (ff_table ff)).
- apply: map_eq_idx => [|j v v0 Hv Hv0]; first by rewrite -(each2_size (ff_perm ff)).
  by have [e ->] := each2_idx (ff_perm ff) Hv0 Hv.
- by have [e ->] := ff_qb ff.
Qed.

Lemma register_known vs (cs : seq (pc_com PC)) j (v : voracle F (pc_com PC)) : size cs = size vs -> idx (register_commitments vs cs) j = Ok v ->
  exists2 c, get_commitment v = Ok c & occurs c cs.
Proof.
elim: vs cs j => [|v0 vs IH] [|c cs] [|j] //=; first by move=> _ [<-]; exists c => //; left.
by move=> [E] /(IH _ _ E) [c' H1 H2]; exists c' => //; right.
Qed.
Definition known (c : pc_com PC) : Prop :=
  [\/ occurs c (cm_w cm ++ cm_l cm ++ cm_z cm ++ cm_lz cm), occurs c Q |
      exists2 v, occurs v (vp_fixed pre ++ vp_table pre ++ vp_perm pre ++ [:: vp_q_blind pre]) & get_commitment v = Ok c].
(** Every opened oracle has a commitment and a claim at every declared point. *)
Lemma vt_claimed v : occurs v (vt_oracles VT) -> claimed v /\ exists2 c, get_commitment v = Ok c & known c.
Proof.
have pub vs vs' : (forall v0, occurs v0 vs -> occurs v0 (vp_fixed pre ++ vp_table pre ++ vp_perm pre ++ [:: vp_q_blind pre])) ->
    each2 updated vs vs' -> occurs v vs' -> claimed v /\ exists2 c, get_commitment v = Ok c & known c.
  move=> sub H Hv; have [j Hj] := occurs_ex_idx Hv; have [v0 Hv0] := idx_size2 (esym (each2_size H)) Hj.
  have [sb cl] := each2_idx H Hv0 Hj; split=> //; have Ho := sub _ (occurs_idx Hv0); have [c Hc] := rd_committed rdy Ho.
  by exists c; [exact: (sbe_commitment sb)|apply: Or33; exists v0].
have flat e v0 : o_rots v0 = [:: curr] -> occurs v0 (vp_fixed pre ++ vp_table pre ++ vp_perm pre ++ [:: vp_q_blind pre]) ->
    v = register_eval_at_challenge xi e v0 -> claimed v /\ exists2 c, get_commitment v = Ok c & known c.
  move=> r0 Ho ->; have [c Hc] := rd_committed rdy Ho; split; last by exists c => //; apply: Or33; exists v0.
  by move=> r; rewrite r0 inE => /eqP ->; exists e; rewrite rot_point_curr vo_query_register eqxx.
rewrite /vt_oracles => Hv.
have [sw sl slz sz] := cnt; have [cc Ec [El sc]] := l_pairs.
have two v' x e0 e1 : vd_evals (o_data v') = ains (ains [::] xi e0) x e1 -> (exists e, vo_query v' xi = Ok e) /\ (exists e, vo_query v' x = Ok e).
  move=> E; rewrite /vo_query E; split; last by rewrite assoc_ains eqxx; exists e1.
  by rewrite assoc_ains; case: eqP => _; [exists e1|rewrite assoc_ains eqxx; exists e0].
have prevE : rot_point w prev xi = xi * w^-1 by rewrite /rot_point /= expr1.
have nextE : rot_point w next xi = xi * w by rewrite /rot_point /= expr1.
have nthc j c (cs : seq (pc_com PC)) : idx cs j = Ok c -> occurs c cs by exact: occurs_idx.
have [{}Hv|{}Hv] := (occurs_cat _ _ _).1 Hv;
  last have [{}Hv|{}Hv] := (occurs_cat _ _ _).1 Hv;
  last have [{}Hv|{}Hv] := (occurs_cat _ _ _).1 Hv;
  last have [{}Hv|{}Hv] := (occurs_cat _ _ _).1 Hv;
  last have [{}Hv|{}Hv] := (occurs_cat _ _ _).1 Hv;
  last have [{}Hv|{}Hv] := (occurs_cat _ _ _).1 Hv;
  last have [{}Hv|{}Hv] := (occurs_cat _ _ _).1 Hv;
  last have [{}Hv|{}Hv] := (occurs_cat _ _ _).1 Hv.
- have [j Hj] := occurs_ex_idx Hv; have [v0 Hv0] := idx_size2 (esym (each2_size (ff_ws ff))) Hj.
  have [sb cl] := each2_idx (ff_ws ff) Hv0 Hj; split=> //; have [c Hc Ho] := register_known sw Hv0.
  by exists c; [exact: (sbe_commitment sb)|apply: Or31; apply/occurs_cat; left].
- have {Hv} [lo Hlo Ev] : exists2 lo, occurs lo (vt_los VT) & v = lo_a' lo \/ v = lo_s' lo.
    elim: (vt_los VT) Hv => //= x los IH [->|[->|/IH [lo H1 H2]]]; [exists x; auto|exists x; auto|exists lo; auto].
  have [j Hj] := occurs_ex_idx Hlo; have [lc Hlc] := idx_size2 (esym (each2_size (ff_los ff))) Hj.
  have [c0 [c1 [e0 [e1 [e2 [H0 H1 [r1 r2] [g1 g2] [v1 v2]]]]]]] := lo_shape Hlc Hj.
  have Hk c i : idx lc.2 i = Ok c -> known c.
    move=> Hc; apply: Or31; apply/occurs_cat; right; apply/occurs_cat; left; rewrite El.
    move: Hlc; rewrite Ec; case: lc Hc {H0 H1} => l cs Hc Hlc; have [_ Hcs] := idx_zip Hlc.
    move: (occurs_idx Hcs) (occurs_idx Hc) => /= {}Hcs {}Hc.
    elim: [seq [:: x.1; x.2] | x <- cc] Hcs => //= y ys IH [<-|/IH H]; apply/occurs_cat; by [left|right].
  case: Ev => ->; split; [move=> r| |move=> r| ].
  + have [q1 q2] := two _ _ _ _ _ v1.
    by rewrite r1 !inE => /orP [] /eqP ->; rewrite ?rot_point_curr ?prevE.
  + by exists c0 => //; exact: Hk H0.
  + by rewrite r2 inE => /eqP ->; rewrite rot_point_curr /vo_query v2 /= eqxx; exists e2.
  + by exists c1 => //; exact: Hk H1.
- have [j Hj] := occurs_ex_idx Hv; have [c Hc] := idx_size2 (esym (each2_size (ff_lzs ff))) Hj.
  have [er ec] := lz_shape Hj Hc; split; last first.
    by exists c => //; apply: Or31; do 3 (apply/occurs_cat; right); exact: occurs_idx Hc.
  have [k [e He]] := each2_idx (ff_lzs ff) Hc Hj; move: He; rewrite /lookup_z_oracle_v => He.
  have {He} [e0 _ He] := rbind_ok He; have {He} [e1 _ He] := rbind_ok He.
  have Ev : vd_evals (o_data v) = ains (ains [::] xi e0) (xi * w) e1 by rewrite -(Ok_inj He).
  have [q1 q2] := two _ _ _ _ _ Ev.
  by move=> r; rewrite er !inE => /orP [] /eqP ->; rewrite ?rot_point_curr ?nextE.
- have [j Hj] := occurs_ex_idx Hv; have [c Hc] := idx_size2 (esym (each2_size (ff_chunks ff))) Hj.
  have [er ec] := chunk_shape Hj Hc; split; last by exists c => //; apply: Or32; exact: occurs_idx Hc.
  have [k He] := each2_idx (ff_chunks ff) Hc Hj; move: He; rewrite /quotient_oracle_v => He.
  have {He} [e _ He] := rbind_ok He.
  by move=> r; rewrite er inE => /eqP ->; exists e; rewrite rot_point_curr -(Ok_inj He) /vo_query; cbn [vd_evals o_data assoc]; rewrite eqxx.
- have [j Hj] := occurs_ex_idx Hv.
  have szz : size (vt_zs VT) = size (cm_z cm) by rewrite -(each2_size (ff_zs ff)) size_map size_enumerate.
  have [c Hc] := idx_size2 szz Hj; have [er ec] := z_shape Hj Hc; split; last first.
    by exists c => //; apply: Or31; do 2 (apply/occurs_cat; right); apply/occurs_cat; left; exact: occurs_idx Hc.
  by have [v0 Hv0] := idx_size2 (esym (each2_size (ff_zs ff))) Hj; have [_] := each2_idx (ff_zs ff) Hv0 Hj.
- by apply: (pub _ _ _ (ff_fixed ff)) => // v0 H0; apply/occurs_cat; left.
- by apply: (pub _ _ _ (ff_table ff)) => // v0 H0; apply/occurs_cat; right; apply/occurs_cat; left.
- have [j Hj] := occurs_ex_idx Hv; have [v0 Hv0] := idx_size2 (esym (each2_size (ff_perm ff))) Hj.
  have [e Ev] := each2_idx (ff_perm ff) Hv0 Hj; have H0 := occurs_idx Hv0; apply: (flat e v0) => //.
    by apply: (rd_flat rdy); apply/occurs_cat; left.
  by do 2 (apply/occurs_cat; right); apply/occurs_cat; left.
- have [e Ev] := ff_qb ff; case: Hv => // Hv; rewrite -Hv in Ev; apply: (flat e (vp_q_blind pre)) => //.
    by apply: (rd_flat rdy); apply/occurs_cat; right; left.
  by do 3 (apply/occurs_cat; right); left.
Qed.
End Sound.

Lemma at_most_sub (T : eqType) K (P P' : T -> Prop) : (forall x, P x -> P' x) -> at_most K P' -> at_most K P.
Proof. by move=> H a s us Hs; apply: a us _ => x /Hs /H. Qed.
Lemma at_most_weaken (T : eqType) K K' (P : T -> Prop) : (K <= K')%N -> at_most K P -> at_most K' P.
Proof. by move=> le a s us Hs; apply: leq_trans le; apply: a us Hs. Qed.

Section Main.
Variables (F : fieldType) (env : fenv F).
Hypothesis eok : fenv_ok env.
Variables (PC : pcs F) (pvk : pc_vk PC) (op : pc_com PC -> {poly F}) (S : vinput PC) (es : seq (expr F oquery)) (cm : commitments PC)
  (theta beta gamma : F) (B D : nat).
Let d := s_d S.
Let n := dsize d.
Let w := dgen d.
Let A := bound op S theta cm.
Let pa := s_perm S.
Let nl := size (s_lookups S).
Hypothesis bind : pcs_binding pvk op.
Hypothesis sd : std_domain env d.
Hypothesis rdy : verifiable S es.
Hypothesis cnt : well_counted S cm.
Hypothesis sml : small op S cm B.

Lemma size_copied : size (copied (as_ws A)) = size [seq v <- s_ws S | vd_permute (o_data v)].
Proof.
rewrite /A /bound; cbn [as_ws]; rewrite /bound_ws /copied filter_map size_map.
have E (vs : seq (voracle F (pc_com PC))) cs :
  size [seq v <- register_commitments vs cs | vd_permute (o_data v)] = size [seq v <- vs | vd_permute (o_data v)].
  by elim: vs cs => [|v vs IH] [|c cs] //=; case: ifP => _ //=; rewrite IH.
by rewrite -(E _ (cm_w cm)).
Qed.
Lemma bound_shape : shape_ok d pa A nl.
Proof.
have [n1 un] := rd_rows rdy; have [sw sl slz sz] := cnt; have [cc Ec [_ sc]] := l_pairs cnt.
split=> //; rewrite /A /bound; cbn [as_los as_lzs as_zs as_sigmas as_ws].
- by rewrite size_map size_zip Ec size_map sc minnn.
- by rewrite size_map.
rewrite -[bound_ws _ _ _]/(as_ws A) size_copied; case: ifP => [/eqP K0|/eqP K0].
  by move: sz; rewrite K0 eqxx => /size0nil ->.
have [m0 sp sdl] := rd_perm rdy K0; rewrite !size_map; split=> //.
by rewrite sz (introF eqP K0) !size_chunks // size_iota size_copied.
Qed.

(** The claims of a run are all true. *)
Definition claims_true (xi : F) (vs : seq (voracle F (pc_com PC))) : bool :=
  all (fun v => all (fun r => if vo_query v (rot_point w r xi) is Ok e then e == (value_of op v).[rot_point w r xi] else false) (o_rots v)) vs.
Lemma claims_trueP xi vs : claims_true xi vs -> forall v r, occurs v vs -> r \in o_rots v ->
  vo_query v (rot_point w r xi) = Ok (value_of op v).[rot_point w r xi].
Proof.
rewrite /claims_true => + v r; elim: vs => [//|v0 vs IH] /= /andP [H0 /IH H] [->|Hv] Hr; last exact: H.
by have := allP H0 _ Hr; case: (vo_query _ _) => // e /eqP ->.
Qed.
Lemma claims_falseP xi vs : claims_true xi vs = false -> exists v r, [/\ occurs v vs, r \in o_rots v &
  forall e, vo_query v (rot_point w r xi) = Ok e -> e != (value_of op v).[rot_point w r xi]].
Proof.
rewrite /claims_true; elim: vs => [//|v0 vs IH] /= /negbT; rewrite negb_and => /orP [H0|/negbTE /IH [v [r [Hv Hr H]]]]; last first.
  by exists v, r; split=> //; right.
have /allPn [r Hr H] := H0; exists v0, r; split=> //; first by left.
by move=> e E; move: H; rewrite E.
Qed.

Variables (alpha xi : F) (Q : seq (pc_com PC)) (base : tp_proof PC).
Hypothesis Qs : forall c, occurs c Q -> (size (op c) <= B)%N.
Hypothesis car : carries base cm Q.
Let R := opened_rots S (size Q).
Definition convinces (x1 x2 x3 x4 : F) (qe : seq F) (fc : pc_com PC) (pi : pc_proof PC) : Prop :=
  verdict env (scripted [:: theta; beta; gamma; alpha; xi; x1; x2; x3; x4]) pvk S (with_opening base (MoProof qe fc pi)) = Ok tt.
Lemma convincesE x1 x2 x3 x4 qe fc pi : convinces x1 x2 x3 x4 qe fc pi ->
  exists VT, [/\ verify_front env (s_vk S) (s_pre S) base (s_ws S) (s_ins S) n theta xi = Ok VT,
    vt_check (s_vk S) (s_ins S) (s_vos S) n (s_zh S) beta gamma alpha xi VT = Ok tt &
    mo_verify (FS := scripted [::]) env pvk (MoProof qe fc pi) (vt_oracles VT) xi n [:: x1; x2; x3; x4] = Ok tt].
Proof.
rewrite /convinces /verdict => H.
have {}H := etrans (esym (proj1 (verify_frontE _ _ _ _ _ _ _ _ _ _ _))) H.
have {H} [VT H1 H] := rbind_ok H; have {H} [[] H2 H3] := rbind_ok H.
exists VT; split; [exact: H1|exact: H2|exact: H3].
Qed.
End Main.
