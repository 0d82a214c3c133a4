(** What an Ok outcome says about the queries made on the way to it. *)
From mathcomp Require Import all_ssreflect all_algebra.
From mathcomp Require Import zify.
From Verif Require Import Base ModelPoly ModelVO ModelOracle ModelPC ModelPermutation ModelLookup ModelIndexer ModelMultiproof ModelProtocol
  Spec SpecProtocol SpecClaims ProofBase ProofPoly ProofVO ProofDomain ProofOracle ProofPermutation ProofEach ProofPIOP ProofFront ProofComplete ProofSound.

Set Implicit Arguments.
Unset Strict Implicit.
Unset Printing Implicit Defensive.

Import GRing.Theory.
Local Open Scope ring_scope.

Lemma rfoldM_step A S (f : S -> A -> res S) st s st' x : rfoldM f st s = Ok st' -> occurs x s -> exists t t', f t x = Ok t'.
Proof.
elim: s st => [//|a s IH] st /= H; have {H} [st1 E H] := rbind_ok H.
by case=> [->|Hx]; [exists st, st1|exact: IH H Hx].
Qed.
Lemma eval_res_leaf (F : fieldType) Q (e : expr F Q) (leaf : Q -> res F) v q :
  eval_res e leaf = Ok v -> occurs q (leaves e) -> exists y, leaf q = Ok y.
Proof.
rewrite /eval_res; elim: e v => [c|q'|a IH|a IHa b IHb|a IHa b IHb|a IH c] v //=.
- by move=> H [->|//]; exists v.
- by case E: (evaluate a _ _ _ _ _ _) => [y||] //= _; exact: IH E.
- case Ea: (evaluate a _ _ _ _ _ _) => [y||] //=; case Eb: (evaluate b _ _ _ _ _ _) => [z||] //= _.
  by case/occurs_cat; [exact: IHa Ea|exact: IHb Eb].
- case Ea: (evaluate a _ _ _ _ _ _) => [y||] //=; case Eb: (evaluate b _ _ _ _ _ _) => [z||] //= _.
  by case/occurs_cat; [exact: IHa Ea|exact: IHb Eb].
- by case E: (evaluate a _ _ _ _ _ _) => [y||] //= _; exact: IH E.
Qed.
Lemma occurs_zipl A B (s : seq A) (t : seq B) x : size s = size t -> occurs x s -> exists y, occurs (x, y) (zip s t).
Proof.
elim: s t => [|a s IH] [|b t] //= [E] [->|/(IH _ E) [y Hy]]; [by exists b; left|by exists y; right].
Qed.
Lemma compress_each (F : fieldType) A (theta : F) (f : A -> res F) xs v x : compress theta f xs = Ok v -> occurs x xs ->
  exists y, f x = Ok y.
Proof.
rewrite /compress => H Hx; have [t Ht] : exists t, occurs (x, t) (zip xs (powers (size xs) 1 theta)).
  by apply: occurs_zipl => //; rewrite size_powers.
by have [a [b E]] := rfoldM_step H Ht; have [y Hy _] := rbind_ok E; exists y.
Qed.
Lemma occurs_filter_in A (P : pred A) (x : A) s : P x -> occurs x s -> occurs x (filter P s).
Proof. by move=> Px; elim: s => [//|a s IH] /= [<-|/IH H]; [rewrite Px; left|case: (P a) => //; right]. Qed.
Lemma resolve_ok P (os : seq (oracle P)) l e o : resolve os l e = Ok o -> occurs o os /\ o_label o = l.
Proof.
rewrite /resolve; case E: (label_index _ l) => [i|//] Hi; split; first exact: occurs_idx Hi.
by have [_ /(_ l)] := label_index_some E; have [Hs Hn] := idx_ok Hi; rewrite (nth_map o) // Hn.
Qed.
Lemma chunks3 A B D k (ws : seq A) (ss : seq B) (ds : seq D) o : (0 < k)%N -> size ws = size ss -> size ws = size ds -> occurs o ws ->
  exists w s dd, occurs (w, s, dd) (zip (zip (chunks k ws) (chunks k ss)) (chunks k ds)) /\
    exists s0 d0, occurs (o, s0, d0) (zip (zip w s) dd).
Proof.
move=> k0; move: ws ss ds; apply: (chunks_ind k0) => [//|ws w0 IH] ss ds Es Ed Ho.
have s1 : size (take k ws) = size (take k ss) by rewrite !size_take Es.
have s2 : size (take k ws) = size (take k ds) by rewrite !size_take Ed.
rewrite (chunks_cons k0 w0) (chunks_cons (s := ss) k0) -?Es // (chunks_cons (s := ds) k0) -?Ed //=; move: Ho; rewrite -{1}(cat_take_drop k ws) => /occurs_cat [Ho|Ho].
  exists (take k ws), (take k ss), (take k ds); split; first by left.
  have [s0 H1] := occurs_zipl s1 Ho; have s3 : size (zip (take k ws) (take k ss)) = size (take k ds) by rewrite size_zip -s1 minnn.
  by have [d0 H2] := occurs_zipl s3 H1; exists s0, d0.
have [||w [s [dd [H1 H2]]]] := IH (drop k ss) (drop k ds) _ _ Ho; [by rewrite !size_drop Es|by rewrite !size_drop Ed|].
by exists w, s, dd; split=> //; right.
Qed.

Section Queries.
Variables (F : fieldType) (C : Type) (d : domain F) (xi : F).
Hypothesis dok : domain_ok d.
Let w := dgen d.
Let n0 : (0 < dsize d)%N := dsize_gt0 dok.

Lemma point_info_inv r l x pi : get_point_info r l x (elements d) = Ok pi -> pi.2 = rot_point w r x.
Proof.
case: (ltnP r.1 (dsize d)) => [lt|le]; first by rewrite point_info_ok // => -[<-].
by rewrite point_info_oob //; apply: leq_trans n0 le.
Qed.
Lemma compute_point_inv r x y : compute_evaluation_point r x (elements d) = Ok y -> y = rot_point w r x.
Proof.
case: (ltnP r.1 (dsize d)) => [lt|le]; first by rewrite compute_point_ok // => -[<-].
by rewrite compute_point_oob //; apply: leq_trans n0 le.
Qed.
Lemma oracle_query_set_inv P (o : oracle P) pl x acc qs : oracle_query_set o pl x (elements d) acc = Ok qs ->
  forall e, e \in qs -> e \in acc \/ exists2 r, r \in o_rots o & e.1 = o_label o /\ e.2.2 = rot_point w r x.
Proof.
rewrite /oracle_query_set; elim: (o_rots o) acc => [|r rs IH] acc /=; first by move=> [->] e; left.
move=> H; have {H} [acc' E H] := rbind_ok H; have {E} [pi Epi E] := rbind_ok E.
move=> e /(IH _ H) [|[r' Hr' He]]; last by right; exists r' => //; rewrite inE Hr' orbT.
rewrite -(Ok_inj E) mem_sinsert => /orP[/eqP ->|]; last by left.
by right; exists r; rewrite ?inE ?eqxx //; split=> //=; exact: point_info_inv Epi.
Qed.
Lemma get_query_set_inv P (os : seq (oracle P)) pl x qs : get_query_set os pl x (elements d) = Ok qs ->
  forall e, e \in qs -> exists o r, [/\ occurs o os, r \in o_rots o, e.1 = o_label o & e.2.2 = rot_point w r x].
Proof.
move=> H e He; suff : e \in ([::] : seq (qentry F)) \/ exists o r, [/\ occurs o os, r \in o_rots o, e.1 = o_label o & e.2.2 = rot_point w r x].
  by case.
move: H; rewrite /get_query_set; elim: os [::] => [|o os IH] acc /=; first by move=> [->]; left.
move=> H; have {H} [acc' E H] := rbind_ok H.
have [He'|[o' [r [H1 H2 H3 H4]]]] := IH _ H; last by right; exists o', r; split=> //; right.
have [|[r Hr [H1 H2]]] := oracle_query_set_inv E He'; first by left.
by right; exists o, r; split=> //; left.
Qed.

Implicit Types (os : seq (voracle F C)).
Lemma register_evals_kept missing qs os os' j v : register_evals os missing qs = Ok os' -> idx os j = Ok v ->
  exists2 v', idx os' j = Ok v' & o_label v' = o_label v /\ vd_permute (o_data v') = vd_permute (o_data v).
Proof.
elim: qs os v => [|[q y] qs IH] os v /=; first by move=> [->] Hj; exists v.
rewrite /register_evals /=; case E: (label_index _ _) => [i|//] /=; rewrite -/(register_evals _ _ _) => H Hj.
have := idx_upd i (register_eval_at_challenge q.2.2 y) Hj; case: eqP => [_|_] /(IH _ _ H) [v' Hv' [l1 l2]]; by exists v'.
Qed.
(** An evaluation found after the registration was there before or is one of the registered entries. *)
Lemma register_evals_new missing qs os os' j v' x e : register_evals os missing qs = Ok os' -> idx os' j = Ok v' -> vo_query v' x = Ok e ->
  exists2 v, idx os j = Ok v & [/\ o_label v = o_label v', o_rots v = o_rots v', vd_permute (o_data v) = vd_permute (o_data v') &
    (exists e0, vo_query v x = Ok e0) \/ exists2 q, q \in map fst qs & q.1 = o_label v /\ q.2.2 = x].
Proof.
elim: qs os => [|[q y] qs IH] os /=; first by move=> [->] Hj Hq; exists v' => //; split=> //; left; exists e.
rewrite /register_evals /=; case E: (label_index _ _) => [i|//] /=; rewrite -/(register_evals _ _ _) => H Hj Hq.
have [v1 Hv1 [l1 r1 p1 q1]] := IH _ H Hj Hq.
have [v Hv] : exists v, idx os j = Ok v by apply: idx_some; rewrite -(size_upd _ i (register_eval_at_challenge q.2.2 y)); exact: idx_lt Hv1.
have := idx_upd i (register_eval_at_challenge q.2.2 y) Hv; rewrite Hv1; case: eqP => [ji|_] [?]; subst v1; last first.
  exists v => //; split=> //; case: q1 => [|[q' Hq' H']]; [by left|by right; exists q' => //; rewrite inE Hq' orbT].
exists v => //; split=> //; case: q1 => [[e0]|[q' Hq' H']]; last by right; exists q' => //; rewrite inE Hq' orbT.
rewrite /vo_query; cbn [register_eval_at_challenge o_data vd_evals o_label]; rewrite assoc_ains; case: eqP => [Ex|_] He0.
  right; exists q; first by rewrite inE eqxx.
  by split=> //; have [_ /(_ q.1)] := label_index_some E; subst i; have [Hs Hn] := idx_ok Hv; rewrite (nth_map v) // Hn.
by left; exists e0.
Qed.

Lemma registered_declared missing qs evs os os' v' x e : unused os -> get_query_set os xi_label xi (elements d) = Ok qs ->
  register_evals os missing (zip qs evs) = Ok os' -> occurs v' os' -> vo_query v' x = Ok e ->
  exists v r, [/\ occurs v os, o_label v = o_label v', r \in o_rots v & x = rot_point w r xi].
Proof.
move=> Hf Hg Hr Ho Hq; have [j Hj] := occurs_ex_idx Ho.
have [v Hv [l1 r1 p1]] := register_evals_new Hr Hj Hq; case=> [[e0]|[q Hqs [ql qx]]].
  by rewrite /vo_query (Hf _ (occurs_idx Hv)).
have Hqs' : q \in qs.
  by move: Hqs; rewrite -/unzip1; elim: (qs) (evs) => [|a s IH] [|b t] //=; rewrite !inE => /orP[->//|/IH ->]; rewrite orbT.
by have [o [r [h1 h2 h3 h4]]] := get_query_set_inv Hg Hqs'; exists o, r; split=> //; congruence.
Qed.

Lemma register_commitments_in (PC : pcs F) (os : seq (voracle F (pc_com PC))) cs v : occurs v (register_commitments os cs) ->
  exists2 v0, occurs v0 os & [/\ o_label v0 = o_label v, o_rots v0 = o_rots v, vd_evals (o_data v0) = vd_evals (o_data v) & vd_permute (o_data v0) = vd_permute (o_data v)].
Proof.
elim: os cs => [|v0 os IH] [|c cs] //=; try by (move=> H; exists v).
by case=> [->|/IH [v1 H1 H2]]; [exists v0 => //; left|exists v1 => //; right].
Qed.

Lemma perm_open_queries pa l0 ql qb zs sg os beta gamma alphas y v : perm_open pa l0 ql qb zs sg os beta gamma d xi alphas = Ok y ->
  occurs v os -> exists e, vo_query v xi = Ok e.
Proof.
rewrite /perm_open => H Hv; have {H} [? /rassert_ok /eqP Es H] := rbind_ok H; have {H} [? /rassert_ok /eqP Ed H] := rbind_ok H.
have {H} [wc Ew H] := rbind_ok H; have {H} [sc Esc H] := rbind_ok H; have {H} [dc Edc H] := rbind_ok H.
do 4 (have {H} [? _ H] := rbind_ok H); do 3 (have {H} [? _ H] := rbind_ok H); have {H} [e1 E1 _] := rbind_ok H.
have k0 : (0 < pa_max_cols pa)%N by move: Ew; rewrite /chunksR; case: eqP => // /eqP; rewrite -lt0n.
move: Ew Esc Edc; rewrite /chunksR (gtn_eqF k0) => -[Ew] [Esc] [Edc]; subst wc sc dc.
have [w0 [s0 [d0 [H1 [s1 [d1 H2]]]]]] := chunks3 k0 Es Ed Hv.
have [k Hk] := occurs_ex_idx H1.
have H3 : occurs (k, (w0, s0, d0)) (enumerate (zip (zip (chunks (pa_max_cols pa) os) (chunks (pa_max_cols pa) sg)) (chunks (pa_max_cols pa) (pa_deltas pa)))).
  by apply: (occurs_idx (i := k)); rewrite idx_enumerate Hk.
have [t [t' Et]] := rfoldM_step E1 H3; do 2 (have {Et} [? _ Et] := rbind_ok Et); have {Et} [g Eg _] := rbind_ok Et.
move: Eg; rewrite /gp_open /gp_expr => Eg; do 3 (have {Eg} [? _ Eg] := rbind_ok Eg); have {Eg} [p Ep _] := rbind_ok Eg.
by have [u [u' Eu]] := rfoldM_step Ep H2; have [e He _] := rbind_ok Eu; exists e.
Qed.
End Queries.

Section Run.
Variables (F : fieldType) (env : fenv F) (d : domain F) (PC : pcs F) (FS : fsrng F) (pvk : pc_vk PC) (vk : verifier_key F) (pre : verifier_pre PC)
  (proof : tp_proof PC) (ws : seq (voracle F (pc_com PC))) (ins : seq (ioracle F)) (vos : seq (generic_vo F)) (z_h : lpoly F).
Hypothesis eok : fenv_ok env.
Hypothesis sd : std_domain env d.
Let n := dsize d.
Let xi := ch_xi (derive_challenges FS proof).
Hypothesis fresh_columns : [/\ unused ws, unused (vp_fixed pre) & unused (vp_table pre)].
Hypothesis xi0 : xi != 0.
Hypothesis accepted : (tp_verify env FS pvk vk pre proof ws ins vos n z_h).1 = Ok tt.
Let dok : domain_ok d := std_domain_ok eok sd.

(** The run, taken apart. *)
Record run (T : vtrace PC) : Prop := Run {
  run_ws : forall v x e, occurs v (vt_ws T) -> vo_query v x = Ok e ->
    exists v0 r, [/\ occurs v0 ws, o_label v0 = o_label v, r \in o_rots v0 & x = rot_point (dgen d) r xi];
  run_fixed : forall v x e, occurs v (vt_fixed T) -> vo_query v x = Ok e ->
    exists v0 r, [/\ occurs v0 (vp_fixed pre), o_label v0 = o_label v, r \in o_rots v0 & x = rot_point (dgen d) r xi];
  run_table : forall v x e, occurs v (vt_table T) -> vo_query v x = Ok e ->
    exists v0 r, [/\ occurs v0 (vp_table pre), o_label v0 = o_label v, r \in o_rots v0 & x = rot_point (dgen d) r xi];
  run_d : vt_d T = d;
  run_check : quotient_check vk (vt_ws T) ins (vt_pre T) (vt_copied T) (vt_zs T) (vt_los T) (vt_lzs T) (vt_chunks T) vos
    (ch_beta (derive_challenges FS proof)) (ch_gamma (derive_challenges FS proof)) (ch_alpha (derive_challenges FS proof)) xi d n z_h = Ok tt;
  run_lookups : forall l, occurs l (ix_lookups (vk_index vk)) -> exists k cs es oi lo,
    lookup_oracles_v (vt_ws T) ins (VerifierPre (vt_fixed T) (vt_table T) (vt_perm T) (vp_q_blind pre)) (ch_theta (derive_challenges FS proof)) xi oi (elements d)
      (k, (l, cs, es)) = Ok lo;
  run_copied : forall v, occurs v ws -> vd_permute (o_data v) -> exists2 v', occurs v' (vt_copied T) & o_label v' = o_label v }.
Lemma run_of : exists T, run T.
Proof.
have Hv := etrans (esym (proj1 (verify_frontE _ _ _ _ _ _ _ _ _ _ _))) accepted.
have {Hv} [T Hf Hv] := rbind_ok Hv; have {Hv} [[] Hq Hm] := rbind_ok Hv; exists T.
move: Hf; rewrite /verify_front => H; have {H} [q Hc H] := rbind_ok H; have {H} [d' Ed H] := rbind_ok H.
have {Ed} ? : d' = d by move: Ed; rewrite (_ : domain_new env n = Some d) // => -[].
subst d'; have [fw ff ft] := fresh_columns.
have {H} [wq Ewq H] := rbind_ok H; have {H} [? _ H] := rbind_ok H; have {H} [ws' Ews H] := rbind_ok H.
have {H} [fq Efq H] := rbind_ok H; have {H} [? _ H] := rbind_ok H; have {H} [fixed Ef H] := rbind_ok H.
have {H} [tq Etq H] := rbind_ok H; have {H} [? _ H] := rbind_ok H; have {H} [table Et H] := rbind_ok H.
have {H} [? _ H] := rbind_ok H; have {H} [oi Eoi H] := rbind_ok H.
have {H} [? /rassert_ok /eqP lc H] := rbind_ok H; have {H} [? /rassert_ok /eqP le H] := rbind_ok H.
have {H} [los Elos H] := rbind_ok H.
do 8 (let x := fresh "x" in have {H} [x _ H] := rbind_ok H).
have ET := Ok_inj H; have Hq' := Hq; subst T; split; try by [].
- move=> v y e Hv He; have fw' : unused (register_commitments ws (tp_witness_commitments proof)).
    by move=> v0 /register_commitments_in [v1 /fw H1 [_ _ <- _]].
  have [v0 [r [/register_commitments_in [v1 H1 [<- E1 _ _]] El Hr ->]]] := registered_declared dok fw' Ewq Ews Hv He.
  by exists v1, r; rewrite E1.
- by move=> v y e Hv He; have Hx := registered_declared dok ff Efq Ef Hv He; exact: Hx.
- by move=> v y e Hv He; have Hx := registered_declared dok ft Etq Et Hv He; exact: Hx.
- move=> l Hl; have [k Hk] := occurs_ex_idx Hl.
  have [c Hc'] := idx_size2 (esym lc) Hk; have [e He] := idx_size2 (esym le) Hk.
  have Hz : idx (enumerate (zip (zip (ix_lookups (vk_index vk)) (chunks 2 (tp_lookup_commitments proof))) (chunks 3 (tp_lookup_evals proof)))) k = Ok (k, (l, c, e)).
    by rewrite idx_enumerate (idx_zip_ok (idx_zip_ok Hk Hc') He).
  have [lo Hlo] := idx_size2 (esym (rmapM_ok Elos)) Hz; exists k, c, e, oi, lo.
  have Hx := each2_idx (rmapM_each Elos) Hz Hlo; exact: Hx.
- move=> v Hv Hp; have [j Hj] := occurs_ex_idx Hv.
  have sr : size ws = size (register_commitments ws (tp_witness_commitments proof)).
    by elim: (ws) (tp_witness_commitments proof) => [|a s IH] [|b t] //=; rewrite -IH.
  have [v1 Hv1] := idx_size2 sr Hj.
  have [v0 [Hv0 l1 _ p1]] := register_shape Hv1; move: Hv0; rewrite Hj => -[?]; subst v0.
  have [v2 Hv2 [l2 p2]] := register_evals_kept Ews Hv1; exists v2; last by rewrite l2 l1.
  by apply: occurs_filter_in; [rewrite p2 p1|exact: occurs_idx Hv2].
Qed.
End Run.
