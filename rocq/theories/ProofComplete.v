(** The verifier run on an honest proof: every registered evaluation is true and every commitment
    is to the prover's polynomial. *)
From mathcomp Require Import all_ssreflect all_algebra.
From mathcomp Require Import zify.
From Coq Require Import String.
From Verif Require Import Base ModelPoly ModelVO ModelOracle ModelPC ModelPermutation
  ModelLookup ModelIndexer ModelMultiproof ModelProtocol Spec SpecProtocol SpecPIOP SpecMultiopen SpecCircuit
  ProofBase ProofPoly ProofDomain ProofEach ProofOracle ProofPermutation ProofPermArg ProofIndexer ProofOpen ProofPIOP ProofPIOP2 ProofPIOP3 ProofColumns
  ProofVerifierCols ProofProver ProofFront ProofCounts ProofRounds ProofHonest.

Set Implicit Arguments.
Unset Strict Implicit.
Unset Printing Implicit Defensive.

Import GRing.Theory.
Local Open Scope ring_scope.

Lemma Ok_inj A (x y : A) : Ok x = Ok y -> x = y.
Proof. by case. Qed.

Lemma register_evals_size (F : fieldType) (C : Type) (vs vs' : seq (voracle F C)) m es : register_evals vs m es = Ok vs' -> size vs' = size vs.
Proof.
elim: es vs => [|e es IH] vs; first by case=> <-.
rewrite /register_evals /=; case: (label_index _ _) => //= k; rewrite -/(register_evals _ _ _) => /IH ->.
exact: size_upd.
Qed.

Lemma idx_zip_ok A B (s : seq A) (t : seq B) j a b : idx s j = Ok a -> idx t j = Ok b -> idx (zip s t) j = Ok (a, b).
Proof. by elim: s t j => [|x s IH] [|y t] [|j] //= => [[->] [->]|/IH H /H]. Qed.

Lemma idx_map_ok A B (g : A -> B) (s : seq A) j a : idx s j = Ok a -> idx (map g s) j = Ok (g a).
Proof. by rewrite idx_map => ->. Qed.

Section Pairs.
Variables (A B D O : Type) (P : A -> B -> D -> Prop) (g h : O -> A).
Lemma each3_pairs (os : seq O) (l : seq (B * B)) (r : seq (D * D)) : size l = size os -> size r = size os ->
  each3 P (flatten [seq [:: g o; h o] | o <- os]) (flatten [seq [:: x.1; x.2] | x <- l]) (flatten [seq [:: x.1; x.2] | x <- r]) <->
  each3 (fun o x y => P (g o) x.1 y.1 /\ P (h o) x.2 y.2) os l r.
Proof.
elim: os l r => [|o os IH] [|x l] [|y r] //= [s1] [s2].
by split=> [[h1 [h2 /(IH _ _ s1 s2) h3]]|[[h1 h2] /(IH _ _ s1 s2) h3]].
Qed.
End Pairs.

Lemma vo_query_two (F : fieldType) (C : Type) l rs t (c : option C) b (x y a e z : F) (g : F -> F) :
  a = g x -> e = g y -> z = x \/ z = y ->
  vo_query (Oracle l rs (VData t (ains (ains [::] x a) y e) c b)) z = Ok (g z).
Proof.
move=> -> -> Hz; rewrite /vo_query; cbn [vd_evals o_data]; rewrite assoc_ains; case: eqP => [->|ne] //.
by case: Hz => [->|E]; [rewrite assoc_ains eqxx|case: ne].
Qed.

Section Align.
Variables (F : fieldType) (PC : pcs F) (ck : pc_ck PC) (d : domain F) (xi : F).
Let w := dgen d.
Hypothesis dok : domain_ok d.

(** Same label and rotations, and true at all of them. *)
Definition opens (v : voracle F (pc_com PC)) (p : poracle F) : Prop :=
  [/\ o_label v = o_label p, o_rots v = o_rots p & forall r, r \in o_rots p -> answers (rot_point w r xi) v p].
Lemma opens_truthful vs ps : each2 opens vs ps -> truthful w xi vs ps.
Proof.
move=> H; split; last by move=> j v p r Hv Hp Hr; have [_ _] := each2_idx H Hv Hp; apply.
by apply: map_eq_idx (each2_size H) _ => j x y Hx Hy; have [-> ->] := each2_idx H Hx Hy.
Qed.

Lemma mirrors_each P (vs : seq (oracle P)) (ps : seq (poracle F)) : mirrors vs ps ->
  each2 (fun v p => o_label v = o_label p /\ o_rots v = o_rots p) vs ps.
Proof.
move=> H; apply: each2_intro; first by rewrite -(size_map (fun o : oracle P => (o_label o, o_rots o))) H size_map.
move=> j v p Hv Hp; have [v' Hv' [E1 E2]] := idx_map_eq H Hp; move: Hv'; rewrite Hv => -[E]; by rewrite E.
Qed.

Lemma align (ps : seq (poracle F)) (vs : seq (voracle F (pc_com PC))) missing qs evs :
  uniq (map (@o_label _) ps) -> rots_below ps (dsize d) -> mirrors vs ps ->
  get_query_set ps xi_label xi (elements d) = Ok qs -> evaluate_query_set ps qs = Ok evs ->
  exists vs', [/\ get_query_set vs xi_label xi (elements d) = Ok qs, size qs = size evs,
    register_evals vs missing (zip qs evs) = Ok vs',
    each2 (@same_but_evals F (pc_com PC)) vs vs' & each2 opens vs' ps].
Proof.
move=> up rb m Hq He; have [qs' [evs' [vs' [E1 E2 E3 E4 [E5 H]]]]] := evals_alignment xi_label xi missing dok up rb m.
move: Hq; rewrite E1 => -[?]; subst qs'; move: He; rewrite E3 => -[?]; subst evs'; exists vs'.
have sv := register_evals_size E5.
have sm : size vs = size ps by exact: each2_size (mirrors_each m).
split=> //.
- apply: each2_intro => // j v v' Hv Hv'; have [p Hp] := idx_size2 sm Hv.
  by have [v1 [v2 [H1 H2 H3 _]]] := H j p Hp; move: H1 H2; rewrite Hv Hv' => -[->] [->].
- apply: each2_intro => [|j v' p Hv' Hp]; first by rewrite sv.
  have [v1 [v2 [H1 H2 [e1 e2 _ _ _] H4]]] := H j p Hp; move: H2; rewrite Hv' => -[?]; subst v2.
  have [l1 l2] := each2_idx (mirrors_each m) H1 Hp; split; rewrite ?e1 ?e2 //.
  by move=> r Hr; rewrite /answers H4 (map_f (fun r => rot_point (dgen d) r xi) Hr).
Qed.
(** Commitments registered for the witness columns. *)
Lemma register_commitments_each vs cs : size cs = size vs ->
  each2 (fun (vc : voracle F (pc_com PC) * pc_com PC) v' => v' = register_commitment vc.2 vc.1) (zip vs cs) (register_commitments vs cs).
Proof. by elim: vs cs => [|v vs IH] [|c cs] //= [/IH]. Qed.
Lemma committed_stands v c p r : opens v p -> get_commitment v = Ok c -> pc_commit1 ck (po_poly p) r = Ok c -> stands_for ck w xi v p r.
Proof. by move=> [h1 h2 h3] h4 h5; split=> //; exists c. Qed.
Lemma sbe_commitment (v v' : voracle F (pc_com PC)) c : same_but_evals v v' -> get_commitment v = Ok c -> get_commitment v' = Ok c.
Proof. by rewrite /get_commitment => -[-> _ -> -> _]. Qed.
(** Unrotated columns registered by position. *)
Lemma flat_opens (v : voracle F (pc_com PC)) p : o_label v = o_label p -> o_rots v = o_rots p -> (forall r, r \in o_rots p -> r = curr) ->
  opens (register_eval_at_challenge xi (peval (po_poly p) xi) v) p.
Proof. by move=> h1 h2 H; split=> // r /H ->; rewrite /answers rot_point_curr vo_query_register eqxx. Qed.
Lemma flat_answers (v : voracle F (pc_com PC)) p : answers xi (register_eval_at_challenge xi (peval (po_poly p) xi) v) p.
Proof. by rewrite /answers vo_query_register eqxx. Qed.
End Align.

Section Verifier.
Variables (F : fieldType) (env : fenv F).
Hypothesis eok : fenv_ok env.
Variables (PC : pcs F) (ck : pc_ck PC) (C : circuit F) (vk : verifier_key F) (zk : pc_zk PC)
  (theta beta gamma alpha xi : F) (pf : tp_proof PC) (T : ptrace PC).
Let ix := vk_index vk.
Let ext := ix_ext ix.
Let d := c_d C.
Let n := c_rows C.
Let w := dgen d.
Let pre := preprocessed env PC C vk.
Notation f := (compute_extended_evals env ext).
Hypothesis sd : std_domain env d.
Hypothesis ixd : indexed env C vk.
Hypothesis lay : laid_out C.
Hypothesis lks : lookups_ok C (dsize ext).
Hypothesis tr : prover_trace env ck vk pre (c_ws C) (c_ins C) (c_vos C) n zk theta beta gamma alpha xi pf T.
Variables (vws : seq (voracle F (pc_com PC))) (vins : seq (ioracle F)) (vpre : verifier_pre PC).
Hypothesis copy : verifier_copy ck C vws vins vpre.
Let dok : domain_ok d := std_domain_ok eok sd.
Let tdE : t_d T = d := t_dE sd tr.
Notation opens := (@opens F PC d xi).
Notation stands := (@stands_for F PC ck w xi).

Lemma front_ws : exists vs, [/\ get_query_set (register_commitments vws (tp_witness_commitments pf)) xi_label xi (elements d) = Ok (t_wqs T),
  size (t_wqs T) = size (tp_witness_evals pf),
  register_evals (register_commitments vws (tp_witness_commitments pf)) MissingWitnessOracle (zip (t_wqs T) (tp_witness_evals pf)) = Ok vs,
  each2 (fun v p => opens v p /\ vd_permute (o_data v) = pd_permute (o_data p)) vs (map f (c_ws C)) &
  each3 stands vs (map f (c_ws C)) (t_wr T)].
Proof.
have [m mp] := vc_ws copy; have me := mirrors_each m.
have ce := commit_each (pt_w tr); have [cs1 cs2] := each3_size ce.
have sv : size vws = size (c_ws C) by exact: each2_size me.
have scs : size (tp_witness_commitments pf) = size vws by rewrite cs1 size_map sv.
have re := register_commitments_each scs.
have sr : size (register_commitments vws (tp_witness_commitments pf)) = size (c_ws C) by rewrite -(each2_size re) size_zip scs minnn sv.
have Hreg j v' : idx (register_commitments vws (tp_witness_commitments pf)) j = Ok v' ->
   exists v c, [/\ idx vws j = Ok v, idx (tp_witness_commitments pf) j = Ok c & v' = register_commitment c v].
  move=> Hv'; have [[v c] Hvc] := idx_size2 (esym (each2_size re)) Hv'.
  by have [Hv Hc] := idx_zip Hvc; exists v, c; split=> //; exact: (each2_idx re Hvc Hv').
have m' : mirrors (register_commitments vws (tp_witness_commitments pf)) (map f (c_ws C)).
  apply: map_eq_idx => [|j v' p Hv' Hp]; first by rewrite sr size_map.
  have [v [c [Hv Hc ->]]] := Hreg _ _ Hv'; have [p' Hp' ->] := idx_map_inv Hp.
  by have [-> ->] := each2_idx me Hv Hp'.
have [lw _ _ _] := lay_labels lay; have [rw _ _] := lay_rots lay.
have := pt_wqs tr; have := pt_wevals tr; rewrite tdE => He Hq.
have [|vs [E1 E2 E3 E4 E5]] := align dok MissingWitnessOracle _ (rots_below_ext (env := env) (ext := ext) rw) m' Hq He.
  by rewrite labels_ext.
exists vs; split=> //.
- apply: each2_intro (each2_size E5) _ => j v p Hv Hp; split; first exact: (each2_idx E5 Hv Hp).
  have [v' Hv'] := idx_size2 (esym (each2_size E4)) Hv; have [_ _ _ _ ->] := each2_idx E4 Hv' Hv.
  have [v0 [c [Hv0 Hc ->]]] := Hreg _ _ Hv'; have [p' Hp' ->] := idx_map_inv Hp.
  by have [p1 Hp1] := idx_map_eq (esym mp) Hv0; move: Hp1; rewrite Hp' => -[->].
- apply: each3_intro => [||j v p r Hv Hp Hr]; rewrite ?(each2_size E5) //.
  have [v' Hv'] := idx_size2 (esym (each2_size E4)) Hv; have [v0 [c [Hv0 Hc Ev]]] := Hreg _ _ Hv'.
  apply: (@committed_stands _ _ _ _ _ v c) => //; first exact: (each2_idx E5 Hv Hp).
    by apply: sbe_commitment (each2_idx E4 Hv' Hv) _; rewrite Ev.
  exact: (each3_idx ce Hp Hc Hr).
Qed.

(** Published columns: fixed and tables. *)
Lemma front_pub missing (vs : seq (voracle F (pc_com PC))) ps qs evs :
  publishes ck vs ps -> uniq (map (@o_label _) ps) -> rots_below ps n ->
  get_query_set (map f ps) xi_label xi (elements (t_d T)) = Ok qs -> evaluate_query_set (map f ps) qs = Ok evs ->
  exists vs', [/\ get_query_set vs xi_label xi (elements d) = Ok qs, size qs = size evs,
    register_evals vs missing (zip qs evs) = Ok vs', each2 opens vs' (map f ps) &
    each3 stands vs' (map f ps) (nseq (size ps) (pc_empty PC))].
Proof.
move=> [m pub] up rb; rewrite tdE => Hq He.
have [|vs' [E1 E2 E3 E4 E5]] := align dok missing _ (rots_below_ext (env := env) (ext := ext) rb) (mirrors_ext env ext m) Hq He.
  by rewrite labels_ext.
exists vs'; split=> //; apply: each3_intro => [||j v p r Hv Hp Hr].
- by rewrite (each2_size E5).
- by rewrite size_nseq (each2_size E5) size_map.
have [p' Hp' Ep] := idx_map_inv Hp.
have {}Hr : r = pc_empty PC by have := occurs_idx Hr; elim: (size ps) => //= k IH [->|/IH].
have [v' Hv'] := idx_size2 (esym (each2_size E4)) Hv; have [c Hc1 Hc2] := pub _ _ _ Hv' Hp'.
apply: (@committed_stands _ _ _ _ _ v c); [exact: (each2_idx E5 Hv Hp)| |by rewrite Ep Hr].
exact: sbe_commitment (each2_idx E4 Hv' Hv) Hc1.
Qed.

(** The permutation columns and the blinding column. *)
Lemma front_flat (vs : seq (voracle F (pc_com PC))) ps :
  publishes ck vs ps -> (forall o r, occurs o ps -> r \in o_rots o -> r = curr) ->
  let vs' := [seq register_eval_at_challenge xi se.2 se.1 | se <- zip vs [seq peval (po_poly s) xi | s <- map f ps]] in
  [/\ size vs = size ps, each2 (answers xi) vs' (map f ps) & each3 stands vs' (map f ps) (nseq (size ps) (pc_empty PC))].
Proof.
move=> [m pub] flat vs'; have me := mirrors_each m; have sz := each2_size me.
have sv : size vs' = size ps by rewrite /vs' size_map size_zip !size_map sz minnn.
have Hi j v p : idx vs' j = Ok v -> idx (map f ps) j = Ok p ->
   exists v0 p0, [/\ idx vs j = Ok v0, idx ps j = Ok p0, p = f p0 & v = register_eval_at_challenge xi (peval (po_poly p) xi) v0].
  move=> Hv Hp; have [[v0 e] /idx_zip [Hv0 He] ->] := idx_map_inv Hv; have [p0 Hp0 Ep] := idx_map_inv Hp.
  have [p1 Hp1 ->] := idx_map_inv He; move: Hp1; rewrite Hp => -[<-]; by exists v0, p0.
split=> //; first by apply: each2_intro => [|j v p Hv Hp]; [rewrite sv size_map|
   have [v0 [p0 [_ _ _ ->]]] := Hi _ _ _ Hv Hp; exact: flat_answers].
apply: each3_intro => [||j v p r Hv Hp Hr]; first by rewrite size_map sv.
  by rewrite size_nseq sv.
have {}Hr : r = pc_empty PC by have := occurs_idx Hr; elim: (size ps) => //= k IH [->|/IH].
have [v0 [p0 [Hv0 Hp0 Ep ->]]] := Hi _ _ _ Hv Hp; have [c Hc1 Hc2] := pub _ _ _ Hv0 Hp0.
have [l1 l2] := each2_idx me Hv0 Hp0.
apply: (@committed_stands _ _ _ _ _ _ c); [|by []|by rewrite Ep Hr].
by apply: flat_opens => [||r0]; rewrite Ep //=; apply: flat; exact: occurs_idx Hp0.
Qed.

Lemma chunks_shape k c : idx (t_chunks T) k = Ok c -> o_label c = ("quotient_chunk_" ++ show_nat k)%string /\ o_rots c = [:: curr].
Proof.
have := pt_chunks tr; rewrite /prover_quotient_round => H.
do 5! [have {H} [? _ H] := rbind_ok H].
have {H} [cs _ H] := rbind_ok H; have {}H := Ok_inj H; rewrite -H => Hc; have [[j x] Hj ->] := idx_map_inv Hc.
by move: Hj; rewrite idx_enumerate; case: (idx cs k) => // y [<- _].
Qed.

Lemma front_chunks : exists vs, [/\ rmapM (quotient_oracle_v xi (tp_quotient_evals pf)) (enumerate (tp_quotient_commitments pf)) = Ok vs,
   each2 (answers xi) vs (t_chunks T) & each3 stands vs (t_chunks T) (t_qr T)].
Proof.
have ce := commit_each (pt_q tr); have [cs1 cs2] := each3_size ce.
have [vs Hvs] : exists vs, rmapM (quotient_oracle_v xi (tp_quotient_evals pf)) (enumerate (tp_quotient_commitments pf)) = Ok vs.
  apply: rmapM_total => -[k c] Hkc; have [j] := occurs_ex_idx Hkc; rewrite idx_enumerate.
  case Hc: (idx _ j) => [c'|//|//] [<- _]; rewrite /quotient_oracle_v /=.
  have [p Hp] := idx_size2 cs1 Hc.
  by rewrite (pt_qevals tr) idx_map Hp /=; eexists.
have re := rmapM_each Hvs; have sv := each2_size re; rewrite size_enumerate cs1 in sv.
have Hi j v p : idx vs j = Ok v -> idx (t_chunks T) j = Ok p -> exists2 c, idx (tp_quotient_commitments pf) j = Ok c &
   v = Oracle ("quotient_chunk_" ++ show_nat j)%string [:: curr] (VData Witness [:: (xi, peval (po_poly p) xi)] (Some c) false).
  move=> Hv Hp; have [c Hc] := idx_size2 (esym cs1) Hp; exists c => //.
  have Hk : idx (enumerate (tp_quotient_commitments pf)) j = Ok (j, c) by rewrite idx_enumerate Hc.
  have := each2_idx re Hk Hv; rewrite /quotient_oracle_v (pt_qevals tr) idx_map Hp /=; by case.
exists vs; split=> //.
  by apply: each2_intro => // j v p Hv Hp; have [c _ ->] := Hi _ _ _ Hv Hp; rewrite /answers /vo_query /= eqxx.
apply: each3_intro => [||j v p r Hv Hp Hr]; rewrite -?sv //.
have [c Hc ->] := Hi _ _ _ Hv Hp; have [_ Er] := chunks_shape Hp.
split=> //; first by exists c => //; exact: (each3_idx ce Hp Hc Hr).
by move=> r'; rewrite Er inE => /eqP ->; rewrite rot_point_curr /answers /vo_query /= eqxx.
Qed.

Let u := pa_usable_rows (ix_perm ix).
Lemma zs_count : number_of_z_polys (ix_perm ix) (size (copied (map f (c_ws C)))) = Ok (size (t_zs T)).
Proof.
have [[H ->]|[nn [m0 _ _ ->] _ _ _]] := honest_perm sd lay tr; last exact: z_polys_chunks.
by rewrite (nilP H).
Qed.

Lemma zs_rots k z : idx (t_zs T) k = Ok z -> o_rots z = if k.+1 == size (t_zs T) then [:: curr; next] else sinsert rot_lt (u, Plus) [:: curr; next].
Proof.
have [[H ->]|[nn _ _ _ H]] := honest_perm sd lay tr; first by case: k.
by move=> Hz; have [] := H k z Hz.
Qed.
Lemma zs_labels : map (@o_label _) (t_zs T) = [seq append "agg_permutation_" (show_nat k) | k <- iota 0 (size (t_zs T))].
Proof. by have [[H ->]|[]] := honest_perm sd lay tr. Qed.

Lemma front_zs : let vz := [seq z_oracle_v u (size (t_zs T)) kc | kc <- enumerate (tp_z_commitments pf)] in
  exists zs, [/\ size (t_zs T) = size (tp_z_commitments pf), get_query_set vz xi_label xi (elements d) = Ok (t_zqs T),
    size (t_zqs T) = size (tp_z_evals pf), register_evals vz MissingPermutationOracle (zip (t_zqs T) (tp_z_evals pf)) = Ok zs &
    each2 opens zs (t_zs T) /\ each3 stands zs (t_zs T) (t_zr T)].
Proof.
move=> vz; have ce := commit_each (pt_z tr); have [cs1 cs2] := each3_size ce.
have svz : size vz = size (t_zs T) by rewrite size_map size_enumerate.
have Hz j v z : idx vz j = Ok v -> idx (t_zs T) j = Ok z ->
    exists2 c, idx (tp_z_commitments pf) j = Ok c & v = z_oracle_v u (size (t_zs T)) (j, c).
  move=> Hv Hz; have [[k c] Hk ->] := idx_map_inv Hv; move: Hk; rewrite idx_enumerate.
  by case: (idx _ j) => // c' [<- <-]; exists c'.
have m : mirrors vz (t_zs T).
  apply: map_eq_idx => // j v z Hv Hz'; have [c Hc ->] := Hz _ _ _ Hv Hz'; rewrite (zs_rots Hz') /=.
  have jn := idx_lt Hz'; congr (_, _); last by rewrite -[in RHS](ltn_predK jn) eqSS; case: (j == _).
  have : idx (map (@o_label _) (t_zs T)) j = Ok (o_label z) by rewrite idx_map Hz'.
  by rewrite zs_labels idx_map (idx_nth 0%N) ?size_iota // nth_iota // => -[->].
have [] := (pt_zqs tr, pt_zevals tr); rewrite tdE => Hq He.
have [||zs [E1 E2 E3 E4 E5]] := align dok MissingPermutationOracle _ _ m Hq He.
- by rewrite zs_labels uniq_numbered.
- move=> j z Hz' r; rewrite (zs_rots Hz'); have un := u_lt sd tr; have n1 := lay_rows lay.
  by case: ifP => _; rewrite ?mem_sinsert !inE => /orP [/eqP ->|] //; [exact: ltnW|move/eqP->|move/orP => [] /eqP-> //; exact: ltnW].
exists zs; split=> //; split=> //; apply: each3_intro => [||j v z r Hv Hz' Hr]; rewrite ?(each2_size E5) //.
have [v' Hv'] := idx_size2 (esym (each2_size E4)) Hv; have [c Hc Ev] := Hz _ _ _ Hv' Hz'.
apply: (@committed_stands _ _ _ _ _ _ c); [exact: (each2_idx E5 Hv Hz')| |exact: (each3_idx ce Hz' Hc Hr)].
by apply: sbe_commitment (each2_idx E4 Hv' Hv) _; rewrite Ev.
Qed.

Lemma w0 : w != 0. Proof. exact: dgen_neq0. Qed.
Lemma elem1 : element (t_d T) 1 = w. Proof. by rewrite tdE /element expr1. Qed.

Lemma front_lzs : exists zs, [/\ size (tp_lookup_z_commitments pf) = size (ix_lookups ix),
   size (chunks 2 (tp_lookup_z_evals pf)) = size (ix_lookups ix),
   rmapM (lookup_z_oracle_v xi (element d 1)) (enumerate (zip (tp_lookup_z_commitments pf) (chunks 2 (tp_lookup_z_evals pf)))) = Ok zs,
   each2 (fun v z => answers xi v z /\ answers (xi * w) v z) zs (t_lzs T) & each3 stands zs (t_lzs T) (t_lzr T)].
Proof.
have ce := commit_each (pt_lz tr); have [cs1 cs2] := each3_size ce.
have Ec : chunks 2 (tp_lookup_z_evals pf) = [seq [:: peval (po_poly z) xi; peval (po_poly z) (xi * w)] | z <- t_lzs T].
  by rewrite (pt_lzevals tr) elem1 chunks_flatten // => c Hc; have [z _ ->] := occurs_map Hc.
have sl : size (t_lzs T) = size (ix_lookups ix) by rewrite (ix_lookupsE eok sd ixd) (size_lzs eok sd ixd tr).
have Hi j z c : idx (t_lzs T) j = Ok z -> idx (tp_lookup_z_commitments pf) j = Ok c ->
  idx (enumerate (zip (tp_lookup_z_commitments pf) (chunks 2 (tp_lookup_z_evals pf)))) j = Ok (j, (c, [:: peval (po_poly z) xi; peval (po_poly z) (xi * w)])).
  by move=> Hz Hc; rewrite idx_enumerate Ec (idx_zip_ok Hc (idx_map_ok _ Hz)).
set zz := enumerate _; have sz : size zz = size (t_lzs T) by rewrite size_enumerate size_zip Ec size_map cs1 minnn.
have [zs Hzs] : exists zs, rmapM (lookup_z_oracle_v xi (element d 1)) zz = Ok zs.
  apply: rmapM_total => x Hx; have [j Hj] := occurs_ex_idx Hx.
  have [z Hz] := idx_size2 sz Hj; have [c Hc] := idx_size2 (esym cs1) Hz.
  by move: Hj; rewrite /zz (Hi _ _ _ Hz Hc) => -[<-]; eexists.
have re := rmapM_each Hzs; have sv := each2_size re; rewrite sz in sv.
have Hv j v z : idx zs j = Ok v -> idx (t_lzs T) j = Ok z -> exists2 c, idx (tp_lookup_z_commitments pf) j = Ok c &
   v = Oracle ("lookup_" ++ show_nat j ++ "_agg_poly")%string [:: curr; next]
        (VData Witness (ains (ains [::] xi (peval (po_poly z) xi)) (xi * w) (peval (po_poly z) (xi * w))) (Some c) false).
  move=> Hv Hz; have [c Hc] := idx_size2 (esym cs1) Hz; exists c => //.
  by have := each2_idx re (Hi _ _ _ Hz Hc) Hv; rewrite /lookup_z_oracle_v {1}/element expr1 -/w => -[<-].
exists zs; split=> //; rewrite ?Ec ?size_map ?cs1 //.
- apply: each2_intro => // j v z Hv' Hz; have [c Hc ->] := Hv _ _ _ Hv' Hz.
  by split; rewrite /answers (vo_query_two _ _ _ _ _ (g := peval (po_poly z))) //; [left|right].
- apply: each3_intro => [||j v z r Hv' Hz Hr]; rewrite -?sv //.
  have [c Hc ->] := Hv _ _ _ Hv' Hz.
  have [l Hl] := idx_size2 sl Hz; rewrite (ix_lookupsE eok sd ixd) in Hl.
  have [lo Hlo] : exists lo, idx (t_los T) j = Ok lo by apply: (idx_size2 _ Hl); rewrite (size_los eok sd ixd tr).
  have [es [tqs [_ _ _ _ Hcols]]] := honest_lookup eok sd ixd lay lks tr Hl Hlo.
  have [_ [Er _]] := honest_subset eok sd ixd lks tr Hl Hlo Hz Hcols.
  split=> //; first by exists c => //; exact: (each3_idx ce Hz Hc Hr).
  move=> r'; rewrite Er !inE => /orP [] /eqP ->; rewrite ?rot_point_curr /answers (vo_query_two _ _ _ _ _ (g := peval (po_poly z))) //; first by left.
  by right; rewrite /rot_point /= expr1.
Qed.

Lemma front_los vs fx tb perm qb : each2 opens vs (map f (c_ws C)) -> each2 opens fx (map f (c_fs C)) -> each2 opens tb (map f (c_ts C)) ->
  exists los, [/\ size (chunks 2 (tp_lookup_commitments pf)) = size (ix_lookups ix),
   size (chunks 3 (tp_lookup_evals pf)) = size (ix_lookups ix),
   rmapM (lookup_oracles_v vs vins (VerifierPre fx tb perm qb) theta xi w^-1 (elements d))
      (enumerate (zip (zip (ix_lookups ix) (chunks 2 (tp_lookup_commitments pf))) (chunks 3 (tp_lookup_evals pf)))) = Ok los,
   each2 (fun o p => [/\ answers xi (lo_a o) (lo_a p), answers xi (lo_s o) (lo_s p), answers xi (lo_s' o) (lo_s' p) &
          answers xi (lo_a' o) (lo_a' p) /\ answers (w^-1 * xi) (lo_a' o) (lo_a' p)]) los (t_los T) &
   each3 stands (lookup_primes los) (lookup_primes (t_los T)) (t_lr T)].
Proof.
move=> Hw Hf Ht; have ce := commit_each (pt_l tr); have [cs1 cs2] := each3_size ce.
have sp (O : Type) (l : seq (lookup_oracles O)) : size (lookup_primes l) = (2 * size l)%N.
  by rewrite /lookup_primes; elim: l => //= x l ->; lia.
rewrite !sp in cs1 cs2; have [cc Ecc scc] := pairs_of cs1; have [rr Err srr] := pairs_of cs2.
move: ce; rewrite Ecc Err => ce.
have ce' : each3 (fun lo x y => pc_commit1 ck (po_poly (lo_a' lo)) y.1 = Ok x.1 /\ pc_commit1 ck (po_poly (lo_s' lo)) y.2 = Ok x.2) (t_los T) cc rr.
  by have [H _] := each3_pairs (fun o c r => pc_commit1 ck (po_poly o) r = Ok c) (@lo_a' _) (@lo_s' _) scc srr; apply: H.
have Ec : chunks 2 (flatten [seq [:: x.1; x.2] | x <- cc]) = [seq [:: x.1; x.2] | x <- cc].
  by rewrite chunks_flatten // => c Hc; have [z _ ->] := occurs_map Hc.
have Ee : chunks 3 (tp_lookup_evals pf) = [seq [:: peval (po_poly (lo_a' lo)) xi;
                 peval (po_poly (lo_a' lo)) (xi * w^-1); peval (po_poly (lo_s' lo)) xi] | lo <- t_los T].
  by rewrite (pt_levals tr) elem1 chunks_flatten // => c Hc; have [z _ ->] := occurs_map Hc.
have sl : size (t_los T) = size (c_lookups C) by rewrite (size_los eok sd ixd tr).
rewrite (ix_lookupsE eok sd ixd); set zz := enumerate _.
have sz : size zz = size (t_los T) by rewrite size_enumerate !size_zip Ec Ee !size_map scc -sl !minnn.
have [lw li lf lt] := lay_labels lay.
have Hi j l c lo : idx (c_lookups C) j = Ok l -> idx cc j = Ok c -> idx (t_los T) j = Ok lo ->
  idx zz j = Ok (j, (l, [:: c.1; c.2], [:: peval (po_poly (lo_a' lo)) xi;
                 peval (po_poly (lo_a' lo)) (xi * w^-1); peval (po_poly (lo_s' lo)) xi])).
  by move=> Hl Hc Hlo; rewrite /zz idx_enumerate Ec Ee (idx_zip_ok (idx_zip_ok Hl (idx_map_ok _ Hc)) (idx_map_ok _ Hlo)).
have Hv j l c lo : idx (c_lookups C) j = Ok l -> idx cc j = Ok c -> idx (t_los T) j = Ok lo ->
  exists a s, [/\ lookup_oracles_v vs vins (VerifierPre fx tb perm qb) theta xi w^-1 (elements d) (j, (l, [:: c.1; c.2], [:: peval (po_poly (lo_a' lo)) xi;
                 peval (po_poly (lo_a' lo)) (xi * w^-1); peval (po_poly (lo_s' lo)) xi])) =
     Ok (LookupOracles a s
        (Oracle ("lookup_a_prime_" ++ show_nat j ++ "_poly")%string [:: curr; prev]
           (VData Witness (ains (ains [::] xi (peval (po_poly (lo_a' lo)) xi)) (xi * w^-1) (peval (po_poly (lo_a' lo)) (xi * w^-1))) (Some c.1) false))
        (Oracle ("lookup_s_prime_" ++ show_nat j ++ "_poly")%string [:: curr]
           (VData Witness [:: (xi, peval (po_poly (lo_s' lo)) xi)] (Some c.2) false))),
     answers xi a (lo_a lo) & answers xi s (lo_s lo)].
  move=> Hl Hc Hlo; have [es [tqs [Ees Etq [eo ed] [t1 t2 t3 t4] [_ _ _ [[Ea Es] _] _]]]] := honest_lookup eok sd ixd lay lks tr Hl Hlo.
  have [t1' t2'] := tables_ext env ext (conj t1 t2).
  have [||||a [s [E1 E2 E3]]] := @verifier_columns_eq F (pc_com PC) d xi dok (map f (c_ws C)) (map f (c_ins C)) (map f (c_fs C)) vs fx vins
    (opens_truthful Hw) (opens_truthful Hf) (instances_ext env ext (vc_ins copy)) _ _ _ (map f (c_ts C)) tb (opens_truthful Ht) _ j es tqs theta t3
    (exprs_ok_ext env ext eo) (exprs_declared_ext env ext ed) t4 t1' t2'; rewrite ?labels_ext //.
  exists a, s; split.
  - by rewrite /lookup_oracles_v Ees /= Etq /= E1.
  - by rewrite /answers E2 -Ea pevalE.
  - by rewrite /answers E3 pevalE Es /table_point /table_poly compressed_horner -map_comp; congr (Ok (compressed _ _)); apply: eq_map => q /=; rewrite pevalE.
have sc : size cc = size (t_los T) := scc.
have [los Hlos] : exists los, rmapM (lookup_oracles_v vs vins (VerifierPre fx tb perm qb) theta xi w^-1 (elements d)) zz = Ok los.
  apply: rmapM_total => x Hx; have [j Hj] := occurs_ex_idx Hx.
  have [lo Hlo] := idx_size2 sz Hj; have [c Hc] := idx_size2 (esym sc) Hlo; have [l Hl] := idx_size2 sl Hlo.
  by move: Hj; rewrite (Hi _ _ _ _ Hl Hc Hlo) => -[<-]; have [a [s [-> _ _]]] := Hv _ _ _ _ Hl Hc Hlo; eexists.
have re := rmapM_each Hlos; have sv := each2_size re; rewrite sz in sv.
exists los; split=> //; rewrite ?Ec ?Ee ?size_map ?sc //.
- apply: each2_intro => // j v lo Hv' Hlo.
  have [c Hc] := idx_size2 (esym sc) Hlo; have [l Hl] := idx_size2 sl Hlo; have [a [s [E Ha Hs]]] := Hv _ _ _ _ Hl Hc Hlo.
  have := each2_idx re (Hi _ _ _ _ Hl Hc Hlo) Hv'; rewrite E => -[<-]; split=> //.
    by rewrite /answers /vo_query /= eqxx.
  by split; rewrite /answers (vo_query_two _ _ _ _ _ (g := peval (po_poly (lo_a' lo)))) //; [left|right; rewrite mulrC].
have -> : lookup_primes los = flatten [seq [:: lo_a' o; lo_s' o] | o <- los] by [].
have -> : lookup_primes (t_los T) = flatten [seq [:: x.1; x.2] | x <- [seq (lo_a' o, lo_s' o) | o <- t_los T]] by rewrite -map_comp.
have [||_ H] := each3_pairs stands (@lo_a' _) (@lo_s' _) (os := los) (l := [seq (lo_a' o, lo_s' o) | o <- t_los T]) (r := rr); rewrite ?size_map ?sv ?srr //.
apply: H; apply: each3_intro => [||j v p r Hv' Hp Hr]; rewrite ?size_map ?sv ?srr //.
have [lo Hlo ->] := idx_map_inv Hp.
have [c Hc] := idx_size2 (esym sc) Hlo; have [l Hl] := idx_size2 sl Hlo; have [a [s [E Ha Hs]]] := Hv _ _ _ _ Hl Hc Hlo.
have [es [tqs [_ _ _ _ [_ _ _ [_ [r1 r2]] _]]]] := honest_lookup eok sd ixd lay lks tr Hl Hlo.
have [k1 k2] := each3_idx ce' Hlo Hc Hr.
have := each2_idx re (Hi _ _ _ _ Hl Hc Hlo) Hv'; rewrite E => -[<-]; split; split=> //=.
- by exists c.1.
- move=> r'; rewrite r1 !inE => /orP [] /eqP ->; rewrite ?rot_point_curr /answers (vo_query_two _ _ _ _ _ (g := peval (po_poly (lo_a' lo)))) //; first by left.
  by right; rewrite /rot_point /= expr1.
- by exists c.2.
- by move=> r'; rewrite r2 inE => /eqP ->; rewrite rot_point_curr /answers /vo_query /= eqxx.
Qed.

Definition front_view (VT : vtrace PC) : view F (pc_com PC) :=
  View (vt_ws VT) vins (vt_fixed VT) (vt_qb VT) (vt_perm VT) (vt_zs VT) (vt_los VT) (vt_lzs VT) (vt_chunks VT).

Lemma each2_answer (x : F) (vs : seq (voracle F (pc_com PC))) (ps : seq (poracle F)) : each2 (answers x) vs ps -> all_answer x vs ps.
Proof. by move=> H; split; [exact: each2_size H|exact: each2_idx H]. Qed.
Lemma nseq_add A (x : A) a b : nseq (a + b) x = nseq a x ++ nseq b x.
Proof. by elim: a => //= a ->. Qed.

Lemma front_ok : exists VT, [/\ verify_front env vk vpre pf vws vins n theta xi = Ok VT, vt_d VT = d,
  sees w xi u (front_view VT) (honest env C vk T) (t_chunks T) &
  each3 stands (vt_oracles VT) (t_oracles pre (map f (c_ws C)) T) (t_rands pre T)].
Proof.
have [lw li lf lt] := lay_labels lay; have [rw rf rt] := lay_rots lay.
have [ch [C1 C2 C3]] := front_chunks.
have [ws [W1 W2 W3 W4 W5]] := front_ws.
have [fx [F1 F2 F3 F4 F5]] := front_pub MissingFixedOracle (vc_fs copy) lf rf (pt_fqs tr) (pt_fevals tr).
have [tb [T1 T2 T3 T4 T5]] := front_pub MissingLookupTableOracle (vc_ts copy) lt rt (pt_tqs tr) (pt_tevals tr).
have [|S1 S2 S3] := front_flat (vc_sigmas copy).
  by move=> o r Ho; apply: (lay_flat lay); apply/occurs_cat; left.
have [|_ Q2 Q3] := front_flat (vc_qb copy).
  by move=> o r Ho; apply: (lay_flat lay); apply/occurs_cat; right.
have W4' : each2 opens ws (map f (c_ws C)) by apply: each2_imp W4 => x y [].
set perm := [seq _ | se <- zip (vp_perm vpre) _] in S2 S3.
have [los [L1 L2 L3 L4 L5]] := front_los perm (vp_q_blind vpre) W4' F4 T4.
have [lzs [Z1 Z2 Z3 Z4 Z5]] := front_lzs.
have [zs [P1 P2 P3 P4 [P5 P6]]] := front_zs.
have Hcp : each2 opens [seq o <- ws | vd_permute (o_data o)] (copied (map f (c_ws C))) by exact: each2_filter W4.
have qb1 := S2.
exists (VTrace d ws fx tb perm (register_eval_at_challenge xi (tp_q_blind_eval pf) (vp_q_blind vpre)) los lzs zs ch); split=> //.
- rewrite /verify_front C1 /= (_ : domain_new env n = Some d); last by rewrite -tdE; exact: pt_d tr.
  rewrite /= W1 /= W2 eqxx /= W3 /= F1 /= F2 eqxx /= F3 /= T1 /= T2 eqxx /= T3 /=.
  rewrite (pt_pevals tr) /= !size_map S1 eqxx /=.
  rewrite /finv {1 2}/element expr1 -/w (negbTE w0) /= L1 eqxx /= L2 eqxx /= L3 /= Z1 eqxx /= Z2 eqxx /= Z3 /=.
  rewrite (each2_size Hcp) zs_count /= P1 eqxx /= -P1 P2 /= P3 eqxx /= P4 /=.
  by [].
- split=> /=.
  + exact: opens_truthful.
  + exact: instances_ext (vc_ins copy).
  + exact: opens_truthful.
  + by case: Q2 => + _; rewrite (pt_qb tr).
  + apply: each2_answer; apply: each2_intro (each2_size Hcp) _ => j v p Hv Hp.
    have [_ _ H] := each2_idx Hcp Hv Hp; rewrite -(rot_point_curr w xi); apply: H.
    have := occurs_idx Hp; rewrite copied_ext => Ho; have [o Ho' ->] := occurs_map Ho; exact: (lay_copied lay Ho').
  + exact: each2_answer.
  + apply: each2_answer; apply: each2_intro (each2_size P5) _ => j v p Hv Hp.
    have [_ _ H] := each2_idx P5 Hv Hp; rewrite -(rot_point_curr w xi); apply: H.
    by rewrite (zs_rots Hp); case: ifP => _; rewrite ?mem_sinsert inE eqxx ?orbT.
  + apply: each2_answer; apply: each2_intro (each2_size P5) _ => j v p Hv Hp.
    have [_ _ H] := each2_idx P5 Hv Hp.
    have -> : w * xi = rot_point w next xi by rewrite /rot_point /= expr1 mulrC.
    by apply: H; rewrite (zs_rots Hp); case: ifP => _; rewrite ?mem_sinsert !inE eqxx ?orbT.
  + move=> k v p Hk Hv Hp; have [_ _ H] := each2_idx P5 Hv Hp.
    have -> : w ^+ u * xi = rot_point w (u, Plus) xi by rewrite /rot_point /= mulrC.
    by apply: H; rewrite (zs_rots Hp) ltn_eqF // mem_sinsert eqxx.
  + by split; [exact: each2_size L4|move=> j v p; exact: (each2_idx L4)].
  + by apply: each2_answer; apply: each2_imp Z4 => x y [].
  + by rewrite mulrC; apply: each2_answer; apply: each2_imp Z4 => x y [].
  + exact: each2_answer.
- rewrite /vt_oracles /t_oracles /t_rands /=.
  rewrite (_ : (_ + _ + _ + 1 = size (c_fs C) + (size (c_ts C) + (size (c_sigmas C) + 1)))%N); last by lia.
  rewrite !nseq_add; do ! apply: each3_cat => //.
  by move: Q3; rewrite /= (pt_qb tr).
Qed.
End Verifier.
