(** The verifier uses commitments only through the operations of the scheme. *)
From mathcomp Require Import all_ssreflect all_algebra.
From Coq Require Import String.
From Verif Require Import Base ModelPoly ModelVO ModelOracle ModelPC ModelPermutation ModelLookup ModelIndexer
  ModelMultiproof ModelProtocol Spec SpecProtocol SpecPIOP SpecMultiopen SpecTranscript SpecSound SpecAlgebraic ProofBase ProofProver ProofFront.

Set Implicit Arguments.
Unset Strict Implicit.
Unset Printing Implicit Defensive.

Import GRing.Theory.
Local Open Scope ring_scope.

Section Generic.
Lemma rmap_bind A B C (f : A -> B) (x : res A) (k : B -> res C) : rbind (rmap f x) k = rbind x (fun a => k (f a)).
Proof. by case: x. Qed.
Lemma bind_eq A B (x x' : res A) (k k' : A -> res B) : x = x' -> (forall a, k a = k' a) -> rbind x k = rbind x' k'.
Proof. by move=> -> H; case: x'. Qed.
Lemma bind_rmap A B C (f : B -> C) (x : res A) (k : A -> res C) (k' : A -> res B) :
  (forall a, k a = rmap f (k' a)) -> rbind x k = rmap f (rbind x k').
Proof. by move=> H; case: x. Qed.
Lemma bind_seen A A' B B' (m : A -> A') (f : B -> B') (x' : res A') (x : res A) (k' : A' -> res B') (k : A -> res B) :
  x' = rmap m x -> (forall a, k' (m a) = rmap f (k a)) -> rbind x' k' = rmap f (rbind x k).
Proof. by move=> -> H; case: x => /=. Qed.
Lemma bind_same A B B' (f : B -> B') (x' x : res A) (k' : A -> res B') (k : A -> res B) :
  x' = x -> (forall a, k' a = rmap f (k a)) -> rbind x' k' = rmap f (rbind x k).
Proof. by move=> ->; exact: bind_rmap. Qed.
Lemma idx_seen A B (f : A -> B) (s : seq A) i : idx (map f s) i = rmap f (idx s i).
Proof. by elim: s i => [|a s IH] [|i] /=. Qed.
Lemma upd_seen A B (f : A -> B) (g : A -> A) (h : B -> B) s i : (forall a, h (f a) = f (g a)) -> upd (map f s) i h = map f (upd s i g).
Proof. by move=> H; elim: s i => [|a s IH] [|i] //=; rewrite ?H ?IH. Qed.
Lemma rfold_seen A A' S S' (m : A -> A') (f : S -> S') (k : S -> A -> res S) (k' : S' -> A' -> res S') st s :
  (forall st a, k' (f st) (m a) = rmap f (k st a)) -> rfoldM k' (f st) (map m s) = rmap f (rfoldM k st s).
Proof. by move=> H; elim: s st => [|a s IH] st //=; apply: bind_seen (H _ _) _ => st'. Qed.
Lemma rfold_same A S (k k' : S -> A -> res S) st s : (forall st a, k' st a = k st a) -> rfoldM k' st s = rfoldM k st s.
Proof. by move=> H; elim: s st => [|a s IH] st //=; apply: bind_eq => // st'. Qed.
Lemma rfold_samem A A' S (m : A -> A') (k : S -> A -> res S) (k' : S -> A' -> res S) st s :
  (forall st a, k' st (m a) = k st a) -> rfoldM k' st (map m s) = rfoldM k st s.
Proof. by move=> H; elim: s st => [|a s IH] st //=; apply: bind_eq => // st'. Qed.
Lemma rmapM_seen A A' B B' (m : A -> A') (f : B -> B') (k : A -> res B) (k' : A' -> res B') s :
  (forall a, k' (m a) = rmap f (k a)) -> rmapM k' (map m s) = rmap (map f) (rmapM k s).
Proof.
move=> H; elim: s => [|a s IH] //=; apply: bind_seen (H _) _ => b; apply: bind_seen IH _ => //.
Qed.
Lemma zip_mapl A A' B (m : A -> A') (s : seq A) (t : seq B) : zip (map m s) t = map (fun x => (m x.1, x.2)) (zip s t).
Proof. by elim: s t => [|a s IH] [|b t] //=; rewrite IH. Qed.
Lemma zip_mapr A B B' (m : B -> B') (s : seq A) (t : seq B) : zip s (map m t) = map (fun x => (x.1, m x.2)) (zip s t).
Proof. by elim: s t => [|a s IH] [|b t] //=; rewrite IH. Qed.
Lemma enumerate_map A B (m : A -> B) s : enumerate (map m s) = map (fun x => (x.1, m x.2)) (enumerate s).
Proof. by rewrite /enumerate size_map zip_mapr. Qed.
Lemma chunks_map A B (m : A -> B) k s : chunks k (map m s) = map (map m) (chunks k s).
Proof.
rewrite /chunks size_map; move: (size s) => f; elim: f s => [|f IH] [|a s] //.
by cbn [chunks_fuel map]; rewrite -[m a :: map m s]/(map m (a :: s)) -map_take -map_drop IH.
Qed.
Lemma eval_res_same (F : fieldType) Q (e : expr F Q) (l l' : Q -> res F) : (forall q, l' q = l q) -> eval_res e l' = eval_res e l.
Proof.
rewrite /eval_res => H; elim: e => //=.
- by move=> a ->.
- by move=> a -> b ->.
- by move=> a -> b ->.
- by move=> a ->.
Qed.
End Generic.

Section Seen.
Variables (F : fieldType) (env : fenv F) (PC1 PC2 : pcs F).
Variables (phi : pc_com PC1 -> pc_com PC2) (psi : pc_proof PC1 -> pc_proof PC2).
Variables (vk1 : pc_vk PC1) (vk2 : pc_vk PC2).
Hypothesis seen : pcs_seen phi psi vk1 vk2.
Notation m := (see_oracle phi).

Lemma labels_seen (os : seq (voracle F (pc_com PC1))) : map (@o_label _) (map m os) = map (@o_label _) os.
Proof. by rewrite -map_comp; apply: eq_map. Qed.
Lemma resolve_seen os l e : resolve (map m os) l e = rmap m (resolve os l e).
Proof. by rewrite /resolve labels_seen; case: label_index => [i|] //; rewrite idx_seen. Qed.
Lemma query_set_seen os pl (x : F) omegas : get_query_set (map m os) pl x omegas = get_query_set os pl x omegas.
Proof. exact: rfold_samem. Qed.
Lemma register_evals_seen os missing qs : register_evals (map m os) missing qs = rmap (map m) (register_evals os missing qs).
Proof.
rewrite /register_evals -[in LHS](map_id qs); apply: rfold_seen => st a.
by rewrite labels_seen; case: label_index => [i|] //=; congr Ok; apply: upd_seen.
Qed.
Lemma register_commitments_seen ws cs : register_commitments (map m ws) (map phi cs) = map m (register_commitments ws cs).
Proof. by elim: ws cs => [|w ws IH] [|c cs] //=; rewrite IH. Qed.
Lemma get_commitment_seen v : get_commitment (m v) = rmap phi (get_commitment v).
Proof. by case: v => l r [k e [c|] p]. Qed.
Lemma filter_seen os : [seq o <- map m os | vd_permute (o_data o)] = map m [seq o <- os | vd_permute (o_data o)].
Proof. by rewrite filter_map. Qed.
Lemma rots_seen os : map (@o_rots _) (map m os) = map (@o_rots _) os.
Proof. by rewrite -map_comp; apply: eq_map. Qed.

Lemma resolve_query (os : seq (voracle F (pc_com PC1))) l e x :
  rbind (resolve (map m os) l e) (fun o => vo_query o x) = rbind (resolve os l e) (fun o => vo_query o x).
Proof. by rewrite resolve_seen rmap_bind. Qed.

Definition see_lo (lo : lookup_oracles (voracle F (pc_com PC1))) := LookupOracles (m (lo_a lo)) (m (lo_s lo)) (m (lo_a' lo)) (m (lo_s' lo)).

Lemma compress_same A (theta : F) (f f' : A -> res F) xs : (forall x, f' x = f x) -> compress theta f' xs = compress theta f xs.
Proof. by move=> H; apply: rfold_same => st a; rewrite H. Qed.

Lemma a_and_s_seen ws ins fs ts k es tqs theta xi omegas :
  construct_a_and_s_verifier (map m ws) ins (map m fs) (map m ts) k es tqs theta xi omegas =
  rmap (fun x => (m x.1, m x.2)) (construct_a_and_s_verifier ws ins fs ts k es tqs theta xi omegas).
Proof.
rewrite /construct_a_and_s_verifier; apply: bind_rmap => _.
apply: bind_same.
  apply: compress_same => e; apply: eval_res_same => q; case: (oq_type q) => //.
  - by apply: bind_eq => // p; exact: resolve_query.
  - exact: resolve_query.
move=> a; apply: bind_same => // ; apply: compress_same => q; rewrite /table_leaf; case: (oq_type q) => //; exact: resolve_query.
Qed.

Lemma lookup_oracles_seen ws ins pre theta xi oi omegas k l cs es :
  lookup_oracles_v (map m ws) ins (see_pre phi pre) theta xi oi omegas (k, (l, map phi cs, es)) =
  rmap see_lo (lookup_oracles_v ws ins pre theta xi oi omegas (k, (l, cs, es))).
Proof.
rewrite /lookup_oracles_v; apply: bind_rmap => xs; apply: bind_rmap => tqs; cbn [vp_fixed vp_table see_pre].
apply: bind_seen (a_and_s_seen _ _ _ _ _ _ _ _ _ _) _ => -[a s]; cbn [fst snd].
apply: bind_rmap => e0; apply: bind_rmap => e1; apply: bind_seen (idx_seen _ _ _) _ => c0; apply: bind_rmap => e2.
by apply: bind_seen (idx_seen _ _ _) _ => c1.
Qed.

Definition see_trace (T : vtrace PC1) : vtrace PC2 :=
  VTrace (vt_d T) (map m (vt_ws T)) (map m (vt_fixed T)) (map m (vt_table T)) (map m (vt_perm T)) (m (vt_qb T))
    (map see_lo (vt_los T)) (map m (vt_lzs T)) (map m (vt_zs T)) (map m (vt_chunks T)).

Lemma z_oracles_seen u nz cs : [seq z_oracle_v u nz kc | kc <- enumerate (map phi cs)] = map m [seq z_oracle_v u nz kc | kc <- enumerate cs].
Proof. by rewrite enumerate_map -!map_comp; apply: eq_map => -[k c]. Qed.

Lemma front_seen vk pre pf ws ins ds theta xi :
  verify_front env vk (see_pre phi pre) (see_proof phi psi pf) (map m ws) ins ds theta xi =
  rmap see_trace (verify_front env vk pre pf ws ins ds theta xi).
Proof.
rewrite /verify_front; cbn [tp_witness_commitments tp_witness_evals tp_fixed_evals tp_table_evals tp_perm_evals tp_q_blind_eval
  tp_lookup_commitments tp_lookup_z_commitments tp_lookup_evals tp_lookup_z_evals tp_z_commitments tp_z_evals
  tp_quotient_commitments tp_quotient_evals see_proof vp_fixed vp_table vp_perm vp_q_blind see_pre].
rewrite !register_commitments_seen !enumerate_map !size_map !chunks_map.
apply: (@bind_seen _ _ _ _ (map m)).
  by apply: rmapM_seen => -[k c]; rewrite /quotient_oracle_v; cbn [fst snd]; apply: bind_rmap.
move=> chs; apply: bind_rmap => d; rewrite query_set_seen; apply: bind_rmap => wqs; apply: bind_rmap => _.
apply: bind_seen (register_evals_seen _ _ _) _ => wsr; rewrite query_set_seen; apply: bind_rmap => fqs; apply: bind_rmap => _.
apply: bind_seen (register_evals_seen _ _ _) _ => fr; rewrite query_set_seen; apply: bind_rmap => tqs; apply: bind_rmap => _.
apply: bind_seen (register_evals_seen _ _ _) _ => tr; apply: bind_rmap => _; apply: bind_rmap => oi.
rewrite size_map; apply: bind_rmap => _; apply: bind_rmap => _.
have Ep : [seq register_eval_at_challenge xi se.2 se.1 | se <- zip (map m (vp_perm pre)) (tp_perm_evals pf)] =
    map m [seq register_eval_at_challenge xi se.2 se.1 | se <- zip (vp_perm pre) (tp_perm_evals pf)].
  by rewrite zip_mapl -!map_comp; apply: eq_map.
rewrite Ep; set pr := [seq register_eval_at_challenge xi se.2 se.1 | se <- zip (vp_perm pre) (tp_perm_evals pf)].
apply: (@bind_seen _ _ _ _ (map see_lo)).
  rewrite zip_mapr zip_mapl enumerate_map; apply: rmapM_seen => -[k [[l cs] es]]; cbn [fst snd].
  exact: (lookup_oracles_seen wsr ins (VerifierPre fr tr pr (vp_q_blind pre))).
move=> los; rewrite ?size_map; apply: bind_rmap => _; apply: bind_rmap => _.
apply: (@bind_seen _ _ _ _ (map m)).
  rewrite zip_mapl enumerate_map; apply: rmapM_seen => -[k [c es]]; rewrite /lookup_z_oracle_v; cbn [fst snd].
  by apply: bind_rmap => e0; apply: bind_rmap => e1.
move=> lzs; rewrite filter_seen size_map; apply: bind_rmap => nz; apply: bind_rmap => _.
have Ez : [seq z_oracle_v (pa_usable_rows (ix_perm (vk_index vk))) nz kc | kc <- [seq (x.1, phi x.2) | x <- enumerate (tp_z_commitments pf)]] =
    map m [seq z_oracle_v (pa_usable_rows (ix_perm (vk_index vk))) nz kc | kc <- enumerate (tp_z_commitments pf)].
  by rewrite -enumerate_map; exact: z_oracles_seen.
rewrite Ez query_set_seen; apply: bind_rmap => zqs; apply: bind_rmap => _.
by apply: bind_seen (register_evals_seen _ _ _) _ => zs.
Qed.

Lemma gp_expr_seen q_last qb zn zc xi sigmas ws ds (beta gamma x : F) :
  gp_expr q_last qb zn zc (fun o => vo_query o xi) (fun o => vo_query o xi) (map m sigmas) (map m ws) ds beta gamma x =
  gp_expr q_last qb zn zc (fun o => vo_query o xi) (fun o => vo_query o xi) sigmas ws ds beta gamma x.
Proof.
rewrite /gp_expr; apply: bind_eq => // b; apply: bind_eq => // l; apply: bind_eq => // r; apply: bind_eq => //.
by rewrite zip_mapl zip_mapr -map_comp zip_mapl; apply: rfold_samem => st -[[w s] dd].
Qed.
Lemma perm_open_seen pa l0 q_last qb aggs sigmas ws (beta gamma : F) d xi alphas :
  perm_open pa l0 q_last (m qb) (map m aggs) (map m sigmas) (map m ws) beta gamma d xi alphas =
  perm_open pa l0 q_last qb aggs sigmas ws beta gamma d xi alphas.
Proof.
rewrite /perm_open /chunksR !size_map; case: (pa_max_cols pa == 0%N); first by case: (rassert _); case: (rassert _).
rewrite !chunks_map; apply: bind_eq => // _; apply: bind_eq => // _; cbn [rbind]; rewrite !size_map.
apply: bind_eq => // _; apply: bind_eq => // _; apply: bind_eq => // _; apply: bind_eq => // _; apply: bind_eq => // a0.
rewrite idx_seen rmap_bind; apply: bind_eq => // z0; apply: bind_eq => // z0e; apply: bind_eq.
  rewrite zip_mapl zip_mapr -map_comp zip_mapl enumerate_map; apply: rfold_samem => st -[k [[w s] dd]]; cbn [fst snd].
  apply: bind_eq => // a; rewrite idx_seen rmap_bind; apply: bind_eq => // z; rewrite /gp_open.
  by apply: bind_eq => //; exact: gp_expr_seen.
move=> e1; apply: bind_eq => // mm; apply: bind_eq.
  apply: rfold_same => st k; apply: bind_eq => // a; rewrite idx_seen rmap_bind; apply: bind_eq => // z1.
  by apply: bind_eq => // x; rewrite idx_seen rmap_bind.
move=> e2; have -> : last_unwrap (map m aggs) = rmap m (last_unwrap aggs).
  by rewrite /last_unwrap; case: (aggs) => [|a s] //=; rewrite last_map.
by rewrite rmap_bind.
Qed.

Lemma quotient_seen vk ws ins pre to_copy zs los lzs chs vos (beta gamma alpha xi : F) d ds z_h :
  quotient_check vk (map m ws) ins (see_pre phi pre) (map m to_copy) (map m zs) (map see_lo los) (map m lzs) (map m chs) vos beta gamma alpha xi d ds z_h =
  quotient_check vk ws ins pre to_copy zs los lzs chs vos beta gamma alpha xi d ds z_h.
Proof.
rewrite /quotient_check; cbn [vp_fixed vp_perm vp_q_blind see_pre]; rewrite !size_map /nilp size_map.
apply: bind_eq => // al; apply: bind_eq => // l0; apply: bind_eq => // lu; apply: bind_eq.
  apply: rfold_same => st a; apply: bind_eq => // e; apply: bind_eq => //; apply: eval_res_same => q.
  rewrite /verifier_leaf; apply: bind_eq => // p; rewrite /query_leaf; case: (oq_type q) => //; exact: resolve_query.
move=> v; apply: bind_eq; first by case: (size to_copy == 0%N) => //; exact: perm_open_seen.
move=> p; apply: bind_eq; first by rewrite zip_mapl zip_mapr -map_comp zip_mapl; apply: rfold_samem => st -[[lo z] a].
by move=> e; apply: bind_eq => //; rewrite zip_mapr; apply: rfold_samem => st -[x c].
Qed.

Lemma oset_add_seen k v (s : seq (seq rotation * seq (voracle F (pc_com PC1)))) :
  oset_add k (m v) (map (fun x => (x.1, map m x.2)) s) = map (fun x => (x.1, map m x.2)) (oset_add k v s).
Proof.
elim: s => [|[k' vs] s IH] //=; case: (k == k') => /=; first by rewrite map_rcons.
by case: (rots_lt k k') => //=; rewrite IH.
Qed.
Lemma opening_sets_seen vs : opening_sets (fun o => o_rots o) (map m vs) =
  map (fun x => (x.1, map m x.2)) (opening_sets (fun o => o_rots o) vs).
Proof.
rewrite /opening_sets -[in LHS](_ : map (fun x => (x.1, map m x.2)) [::] = [::]) //.
elim: vs [::] => [|v vs IH] s //=; rewrite -IH; congr foldl; exact: oset_add_seen.
Qed.
Lemma batched_seen dup omegas (xi : F) pows os rots acc :
  batched_evals (@vo_query F (pc_com PC2)) dup omegas xi pows (map m os) rots acc =
  batched_evals (@vo_query F (pc_com PC1)) dup omegas xi pows os rots acc.
Proof.
elim: rots acc => [|r rots IH] acc //=; apply: bind_eq => // pt; apply: bind_eq.
  by rewrite zip_mapl; apply: rfold_samem.
by move=> ev; case: ifP.
Qed.
Lemma item_seen pows omegas xi s : mo_verifier_item pows omegas xi (s.1, map m s.2) =
  rmap (fun x => (phi x.1, x.2)) (mo_verifier_item pows omegas xi s).
Proof.
case: s => rots os; rewrite /mo_verifier_item; cbn [fst snd]; apply: bind_seen.
  rewrite zip_mapl -(se_zero seen); apply: rfold_seen => q -[v x]; cbn [fst snd].
  rewrite get_commitment_seen rmap_bind; apply: (@bind_rmap _ _ _ phi) => c.
  by cbn [rmap]; rewrite (se_add seen) (se_scale seen).
by move=> q; rewrite batched_seen; apply: bind_rmap.
Qed.
Lemma mo_zip_seen pows omegas xi x3 sets qe : mo_zip pows omegas xi x3 (map (fun x => (x.1, map m x.2)) sets) qe =
  rmap (map (fun x => (phi x.1.1, x.1.2, x.2))) (mo_zip pows omegas xi x3 sets qe).
Proof.
elim: sets qe => [|s sets IH] [|q qe] //; cbn [mo_zip map]; rewrite item_seen.
  by case: (mo_verifier_item pows omegas xi s).
case: (mo_verifier_item pows omegas xi s) => [[c evs]|e|e] //; cbn [rbind rmap fst snd].
by apply: bind_rmap => fe; rewrite IH rmap_bind; apply: bind_rmap.
Qed.

Section Run.
Variable (FS : fsrng F).
Hypothesis same : same_transcript phi FS.

Lemma multiopen_seen pf os xi ds (fs : fs_state FS) :
  mo_verify env vk2 (see_opening phi psi pf) (map m os) xi ds fs = mo_verify env vk1 pf os xi ds fs.
Proof.
rewrite /mo_verify; cbn [mp_q_evals mp_f_commit mp_opening see_opening]; apply: bind_eq => // d.
case: (fs_rand fs) => x1 fs1; case: (fs_rand fs1) => x2 fs2; rewrite (st_com same).
case: (fs_rand _) => x3 fs3; rewrite (st_evals same); case: (fs_rand _) => x4 fs4.
rewrite opening_sets_seen size_map mo_zip_seen rmap_bind; apply: bind_eq => // items.
apply: bind_eq => //; rewrite -(se_check seen).
have E0 : foldl (fun (e : F) (ix : pc_com PC2 * F * F * F) => e + ix.2 * ix.1.1.2) 0
    (zip [seq (phi x.1.1, x.1.2, x.2) | x <- items] (powers (size os) 1 x2)) =
  foldl (fun (e : F) (ix : pc_com PC1 * F * F * F) => e + ix.2 * ix.1.1.2) 0 (zip items (powers (size os) 1 x2)).
  by rewrite zip_mapl; elim: (zip _ _) 0 => [|a s IH] z //=.
rewrite E0; move: (foldl _ 0 _) => e0; move: (mp_f_commit pf) => fc.
have : forall ps, foldl (fun (ce : pc_com PC2 * F) ix => (pc_add ce.1 (pc_scale ix.1.1.1 ix.2), ce.2 + ix.2 * ix.1.2)) (phi fc, e0)
    (zip [seq (phi x.1.1, x.1.2, x.2) | x <- items] ps) =
  (fun x => (phi x.1, x.2)) (foldl (fun (ce : pc_com PC1 * F) ix => (pc_add ce.1 (pc_scale ix.1.1.1 ix.2), ce.2 + ix.2 * ix.1.2)) (fc, e0) (zip items ps)).
  by move=> ps; rewrite zip_mapl; elim: (zip _ _) fc e0 {E0} => [|a s IH] fc e0 //=; rewrite -(se_scale seen) -(se_add seen) IH.
by move=> ->.
Qed.

Lemma challenges_seen pf : derive_challenges FS (see_proof phi psi pf) = derive_challenges FS pf.
Proof.
by rewrite /derive_challenges; cbn [tp_witness_commitments tp_lookup_commitments tp_z_commitments tp_lookup_z_commitments tp_quotient_commitments see_proof];
  rewrite (st_coms same); case: (fs_rand _) => ? ?; rewrite (st_coms same); case: (fs_rand _) => ? ?; case: (fs_rand _) => ? ?;
  rewrite !(st_coms same); case: (fs_rand _) => ? ?; rewrite (st_coms same).
Qed.

Theorem verdict_seen S pf : verdict env FS vk2 (see_input phi S) (see_proof phi psi pf) = verdict env FS vk1 S pf.
Proof.
rewrite /verdict; cbn [s_vk s_pre s_ws s_ins s_vos s_d s_zh see_input].
apply: (etrans (proj1 (verify_frontE env FS vk2 _ _ _ _ _ _ _ _))); apply: esym.
apply: (etrans (proj1 (verify_frontE env FS vk1 _ _ _ _ _ _ _ _))); apply: esym.
rewrite challenges_seen front_seen rmap_bind; apply: bind_eq => // T.
rewrite /vt_check /vt_copied; cbn [vt_ws vt_zs vt_los vt_lzs vt_chunks vt_d see_trace].
rewrite filter_seen (quotient_seen _ _ _ (vt_pre T)); apply: bind_eq => // _.
rewrite -multiopen_seen; congr mo_verify; rewrite /vt_oracles; cbn [vt_ws vt_fixed vt_table vt_perm vt_qb vt_los vt_lzs vt_zs vt_chunks see_trace].
rewrite !map_cat /=; congr (_ ++ (_ ++ _)); rewrite /lookup_primes map_flatten -!map_comp; congr flatten; exact: eq_map.
Qed.
End Run.
End Seen.
