(** Which proofs make verify panic. *)
From mathcomp Require Import all_ssreflect all_algebra.
From mathcomp Require Import zify.
From Coq Require Import String.
From Verif Require Import Base ModelPoly ModelVO ModelOracle ModelPC ModelPermutation
  ModelLookup ModelIndexer ModelMultiproof ModelProtocol Spec SpecProtocol SpecPIOP SpecMultiopen SpecCircuit SpecSound SpecShape
  ProofBase ProofPoly ProofDomain ProofEach ProofOracle ProofLookup ProofPermutation ProofPermArg ProofIndexer ProofOpen ProofPIOP ProofPIOP2 ProofPIOP3 ProofColumns
  ProofVerifierCols ProofProver ProofFront ProofCounts ProofRounds ProofMultiopen ProofMultiopen2 ProofMultiopen3 ProofHonest ProofComplete ProofSound ProofShape.

Set Implicit Arguments.
Unset Strict Implicit.
Unset Printing Implicit Defensive.

Import GRing.Theory.
Local Open Scope ring_scope.

(** ** Computations that succeed when [b] and panic otherwise *)
Definition goes {A} (r : res A) (b : bool) : Prop := match r with Ok _ => b | Err _ => False | Panic _ => ~~ b end.
Lemma goes_bind A B (r : res A) (f : A -> res B) b c : goes r b -> (forall a, r = Ok a -> b -> goes (f a) c) -> goes (rbind r f) (b && c).
Proof. by case: r => [a|e|e] //= Hb; [move/(_ a erefl Hb); case: (f a) => //=; rewrite Hb|move=> _; rewrite negb_and Hb]. Qed.
Lemma goes_ok A (a : A) : goes (Ok a) true. Proof. by []. Qed.
Lemma goes_Ok A (r : res A) a : r = Ok a -> goes r true. Proof. by move=> ->. Qed.
Lemma goes_assert b : goes (rassert b) b. Proof. by case: b. Qed.
Lemma goes_idx A (s : seq A) i : goes (idx s i) (i < size s)%N.
Proof. by elim: s i => [|a s IH] [|i] //=; exact: IH. Qed.
Lemma goes_all A B (f : A -> res B) (g : A -> bool) s : (forall x, occurs x s -> goes (f x) (g x)) -> goes (rmapM f s) (all g s).
Proof.
elim: s => [|a s IH] //= H; apply: goes_bind; first by apply: H; left.
move=> b _ _; rewrite -[all g s]andbT; apply: goes_bind => //; apply: IH => x Hx; apply: H; by right.
Qed.
Lemma goes_eq A (r : res A) b c : goes r b -> b = c -> goes r c. Proof. by move=> H <-. Qed.

Lemma all_enum A (P : pred nat) k (s : seq A) : all (fun x => P x.1) (zip (iota k (size s)) s) = all P (iota k (size s)).
Proof. by elim: s k => [|a s IH] k //=; rewrite IH. Qed.
Lemma all_below m k n : all (fun i => (i < m)%N) (iota k n) = (n == 0%N) || (k + n <= m)%N.
Proof. by elim: n k => [|n IH] k //=; rewrite IH; case: n {IH} => [|n] /=; lia. Qed.
Lemma all_enum_zip A B C (P : pred B) (Q : pred C) k (a : seq A) (b : seq B) (c : seq C) : size b = size a -> size c = size a ->
  all (fun x => P x.2.1.2 && Q x.2.2) (zip (iota k (size a)) (zip (zip a b) c)) = all P b && all Q c.
Proof.
elim: a b c k => [|x a IH] [|y b] [|z c] k //= [sb] [sc]; rewrite IH //.
by case: (P y); case: (Q z); case: (all P b); case: (all Q c).
Qed.
Lemma all_enum_zip2 A C (Q : pred C) k (a : seq A) (c : seq C) : size c = size a ->
  all (fun x => Q x.2.2) (zip (iota k (size a)) (zip a c)) = all Q c.
Proof. by elim: a c k => [|x a IH] [|z c] k //= [sc]; rewrite IH. Qed.
Lemma chunks_exact A k m (s : seq A) : (0 < k)%N ->
  (size (chunks k s) == m) && all (fun x => k <= size x)%N (chunks k s) = (size s == (k * m)%N).
Proof.
move=> k0; elim: m s => [|m IH] s.
  rewrite muln0; case: (ltnP 0 (size s)) => [s0|]; first by rewrite chunks_cons //=; lia.
  by rewrite leqn0 => /eqP /size0nil ->; rewrite chunks_nil.
case: (ltnP 0 (size s)) => [s0|]; last first.
  by rewrite leqn0 => /eqP /size0nil ->; rewrite chunks_nil /=; lia.
rewrite chunks_cons //= eqSS andbCA IH size_drop size_take mulnS.
case: (ltnP k (size s)) => H; first by rewrite leqnn /=; lia.
case: (leqP k (size s)) => H2 /=; lia.
Qed.

Section Total.
Variables (F : fieldType) (env : fenv F).
Hypothesis eok : fenv_ok env.
Variables (PC : pcs F) (S : vinput PC) (es : seq (expr F oquery)) (theta xi : F) (pf : tp_proof PC).
Let d := s_d S.
Let n := dsize d.
Let w := dgen d.
Let pre := s_pre S.
Let u := pa_usable_rows (s_perm S).
Hypothesis sd : std_domain env d.
Hypothesis rdy : verifiable S es.
Let dok : domain_ok d := std_domain_ok eok sd.
Notation claimed := (@claimed F (pc_com PC) d xi).
Notation updated := (@updated F (pc_com PC) d xi).
Notation vorc := (voracle F (pc_com PC)).

(** A polynomial through all the values registered in an oracle. *)
Definition stand (v : vorc) : poracle F :=
  let pts := undup (map fst (vd_evals (o_data v))) in
  column d (o_label v) (o_rots v) (interp [seq (x, ok_or 0 (vo_query v x)) | x <- pts]) (vd_permute (o_data v)).
Lemma stand_at v x e : vo_query v x = Ok e -> answers x v (stand v).
Proof.
move=> H; rewrite /answers H /= pevalE polyseqK; congr Ok; symmetry.
have E : map fst [seq (y, ok_or 0 (vo_query v y)) | y <- undup (map fst (vd_evals (o_data v)))] = undup (map fst (vd_evals (o_data v))).
  by rewrite -map_comp map_id_in.
apply: interp_at; first by rewrite E undup_uniq.
have <- : ok_or 0 (vo_query v x) = e by rewrite H.
apply/mapP; exists x => //; rewrite mem_undup.
move: H; rewrite /vo_query; elim: (vd_evals _) => [|[k y] s IH] //=; rewrite inE eq_sym; case: eqP => //= _; exact: IH.
Qed.
Lemma stand_opens v : claimed v -> opens d xi v (stand v).
Proof. by move=> H; split=> // r Hr; have [e He] := H r Hr; exact: stand_at He. Qed.
Lemma stand_mirrors (vs : seq vorc) : mirrors vs (map stand vs).
Proof. by rewrite /mirrors -map_comp. Qed.
Lemma updated_mirrors vs vs' : each2 updated vs vs' -> mirrors vs (map stand vs').
Proof.
move=> H; apply: map_eq_idx => [|j a b Ha Hb]; first by rewrite size_map (each2_size H).
by have [v Hv ->] := idx_map_inv Hb; have [[-> -> _ _ _] _] := each2_idx H Ha Hv.
Qed.
Lemma updated_truthful vs vs' : each2 updated vs vs' -> truthful w xi vs' (map stand vs').
Proof.
move=> H; apply: opens_truthful; apply: each2_intro => [|j v p Hv Hp]; first by rewrite size_map.
have [v' Hv' ->] := idx_map_inv Hp; move: Hv'; rewrite Hv => -[<-].
have [v0 Hv0] := idx_size2 (esym (each2_size H)) Hv; have [_ c] := each2_idx H Hv0 Hv; exact: stand_opens.
Qed.

Lemma goes_query_set (vs : seq vorc) : rots_below vs n -> uniq (map (@o_label _) vs) -> forall missing evs,
  let qs := get_query_set vs xi_label xi (elements d) in
  exists2 qs, get_query_set vs xi_label xi (elements d) = Ok qs &
  size qs = openings (map (@o_rots _) vs) /\ (size qs = size evs ->
    exists2 vs', register_evals vs missing (zip qs evs) = Ok vs' & each2 updated vs vs').
Proof.
move=> rb ul missing evs _; have [qs Eq sq] := query_set_size xi dok rb ul; exists qs => //; split=> // se.
have [q2] := get_query_set_ok xi_label xi dok rb; rewrite Eq => -[<-] Hin.
have [|vs' [Hr _ _]] := @register_evals_spec _ _ vs missing (zip qs evs) ul.
  by move=> e /(map_f fst); rewrite -/(unzip1 _) unzip1_zip ?se // Hin; exact: query_entries_label.
by exists vs' => //; exact: (register_declared dok ul rb Eq se Hr).
Qed.
Lemma goes_register (vs : seq vorc) missing evs B (f : seq vorc -> res B) c : rots_below vs n -> uniq (map (@o_label _) vs) ->
  (forall vs', each2 updated vs vs' -> goes (f vs') c) ->
  goes (qs <- get_query_set vs xi_label xi (elements d) ;; _ <- rassert (size qs == size evs) ;;
        vs' <- register_evals vs missing (zip qs evs) ;; f vs') ((size evs == openings (map (@o_rots _) vs)) && c).
Proof.
move=> rb ul H; have [qs -> [sq Hr]] := goes_query_set rb ul missing evs; rewrite rbind_Ok.
rewrite -sq [size evs == _]eq_sym; apply: goes_bind (goes_assert _) _ => _ _ /eqP se; have [vs' -> up] := Hr se; rewrite rbind_Ok; exact: H.
Qed.

Lemma exprs_ok_stand (ws fs : seq (poracle F)) (xs : seq (expr F oquery)) : mirrors (s_ws S) ws -> mirrors (vp_fixed pre) fs ->
  exprs_ok (s_ws S) (s_ins S) (vp_fixed pre) n xs -> exprs_ok ws (bound_ins S) fs n xs (F := F).
Proof. move=> mw mf; apply: exprs_ok_labels; [exact: mirrors_labels|exact: ins_labels|exact: mirrors_labels]. Qed.
Lemma goes_lookup ws fixed table perm qb k l cs evs : occurs l (s_lookups S) ->
  each2 updated (register_commitments (s_ws S) (tp_witness_commitments pf)) ws -> each2 updated (vp_fixed pre) fixed -> each2 updated (vp_table pre) table ->
  goes (lookup_oracles_v ws (s_ins S) (VerifierPre fixed table perm qb) theta xi w^-1 (elements d) (k, (l, cs, evs)))
    ((1 < size cs)%N && (2 < size evs)%N).
Proof.
move=> Hl uw uf ut; have [xs [tqs [Ex Et sz [xok xdec] [tok tdec rot]]]] := rd_lookups rdy Hl; have [lw li lf lt] := rd_labels rdy.
have mw : mirrors (s_ws S) (map stand ws).
  rewrite /mirrors -(updated_mirrors uw); exact: register_mirrors.
have mf := updated_mirrors uf; have mt := updated_mirrors ut.
have [|||||||||a [s [Eas _ _]]] := @verifier_columns_ok F (pc_com PC) d xi dok (map stand ws) (bound_ins S) (map stand fixed)
    ws fixed (s_ins S) (updated_truthful uw) (updated_truthful uf) _ _ _ _ (map stand table) table (updated_truthful ut) _ k xs tqs theta sz.
- by rewrite /same_instances /bound_ins -map_comp.
- by rewrite -(mirrors_labels mw).
- by rewrite -ins_labels.
- by rewrite -(mirrors_labels mf).
- by rewrite -(mirrors_labels mt).
- exact: exprs_ok_stand xok.
- move=> e q He Hq; rewrite unrotated_id; last exact: rot He Hq.
  exact: (exprs_declared_mirror mw mf xdec He Hq).
- by move=> q Hq; have := tok _ Hq; rewrite (mirrors_labels mt).
- by move=> q Hq; have := tdec _ Hq; rewrite (declares_mirror _ mt).
rewrite /lookup_oracles_v Ex Et !rbind_Ok; cbn [vp_fixed vp_table]; rewrite Eas rbind_Ok.
apply: (@goes_eq _ _ ((0 < size evs)%N && ((1 < size evs)%N && ((0 < size cs)%N && ((2 < size evs)%N && ((1 < size cs)%N && true)))))); last by lia.
by do 5!(apply: goes_bind (goes_idx _ _) _ => ? _ _).
Qed.
Lemma goes_lookup_z k c evs : goes (lookup_z_oracle_v xi w (k, (c, evs)) : res vorc) (1 < size evs)%N.
Proof.
apply: (@goes_eq _ _ ((0 < size evs)%N && ((1 < size evs)%N && true))); last by lia.
by rewrite /lookup_z_oracle_v; do 2!(apply: goes_bind (goes_idx _ _) _ => ? _ _).
Qed.

Lemma front_goes : goes (verify_front env (s_vk S) pre pf (s_ws S) (s_ins S) n theta xi) (right_lengths S pf).
Proof.
have [lw li lf lt] := rd_labels rdy; have [rw rf rt] := rd_rots rdy; have [n1 un] := rd_rows rdy.
set nl := size (s_lookups S).
have mr := register_mirrors (s_ws S) (tp_witness_commitments pf).
apply: (@goes_eq _ _ ((size (tp_quotient_commitments pf) <= size (tp_quotient_evals pf))%N &&
  ((size (tp_witness_evals pf) == openings (map (@o_rots _) (register_commitments (s_ws S) (tp_witness_commitments pf)))) &&
  ((size (tp_fixed_evals pf) == openings (map (@o_rots _) (vp_fixed pre))) &&
  ((size (tp_table_evals pf) == openings (map (@o_rots _) (vp_table pre))) &&
  ((size (vp_perm pre) == size (tp_perm_evals pf)) &&
  ((size (chunks 2 (tp_lookup_commitments pf)) == nl) &&
  ((size (chunks 3 (tp_lookup_evals pf)) == nl) &&
  ((all (fun c => 2 <= size c)%N (chunks 2 (tp_lookup_commitments pf)) && all (fun c => 3 <= size c)%N (chunks 3 (tp_lookup_evals pf))) &&
  ((size (tp_lookup_z_commitments pf) == nl) &&
  ((size (chunks 2 (tp_lookup_z_evals pf)) == nl) &&
  (all (fun c => 2 <= size c)%N (chunks 2 (tp_lookup_z_evals pf)) &&
  ((product_count S == size (tp_z_commitments pf)) &&
  ((size (tp_z_evals pf) == openings (product_rots S)) && true)))))))))))))); last first.
  rewrite /right_lengths register_rots -!chunks_exact // -/nl [size (vp_perm pre) == _]eq_sym [product_count S == _]eq_sym andbT.
  congr (_ && (_ && (_ && (_ && (_ && _))))).
  by case: (size (chunks 2 _) == nl); case: (size (chunks 3 _) == nl); case: (all _ _); case: (all _ _) => //=; rewrite ?andbF ?andbA.
rewrite /verify_front.
apply: goes_bind => [|qc _ _].
  rewrite /enumerate; apply: (@goes_eq _ _ (all (fun x => (x.1 < size (tp_quotient_evals pf))%N) (enumerate (tp_quotient_commitments pf)))).
    apply: goes_all => kc _; rewrite -[(_ < _)%N]andbT /quotient_oracle_v; by apply: goes_bind (goes_idx _ _) _.
  by rewrite /enumerate (all_enum (fun i => i < size (tp_quotient_evals pf))%N) all_below add0n; case: (size (tp_quotient_commitments pf)).
rewrite (_ : domain_new env n = Some d) // rbind_Ok.
apply: goes_register => [||ws uw]; [|by rewrite -(mirrors_labels mr)|].
  by move=> j o Ho r; have [o' [Ho' _ E _]] := register_shape Ho; rewrite E; exact: (rw _ _ Ho').
apply: goes_register => // fx uf; apply: goes_register => // tb ut.
apply: goes_bind (goes_assert _) _ => _ _ /eqP sp.
rewrite /finv (_ : element d 1 = w); last by rewrite /element expr1.
rewrite (negPf (dgen_neq0 dok)) rbind_Ok.
apply: goes_bind (goes_assert _) _ => _ _ /eqP s2; apply: goes_bind (goes_assert _) _ => _ _ /eqP s3.
apply: goes_bind => [|los _ _].
  rewrite -(@all_enum_zip _ _ _ (fun c => 2 <= size c)%N (fun c => 3 <= size c)%N 0 (s_lookups S)) //.
  rewrite /enumerate !size_zip s2 s3 !minnn; apply: goes_all => -[k [[l cs] evs]] /= Hk.
  have Hl : occurs l (s_lookups S).
    by have [_ H] := occurs_zip Hk; have [H' _] := occurs_zip H; have [] := occurs_zip H'.
  exact (@goes_lookup ws fx tb [seq register_eval_at_challenge xi se.2 se.1 | se <- zip (vp_perm pre) (tp_perm_evals pf)] (vp_q_blind pre) k l cs evs Hl uw uf ut).
apply: goes_bind (goes_assert _) _ => _ _ /eqP s4; apply: goes_bind (goes_assert _) _ => _ _ /eqP s5.
apply: goes_bind => [|lzs _ _].
  rewrite -(@all_enum_zip2 _ _ (fun c => 2 <= size c)%N 0 (tp_lookup_z_commitments pf)) ?s5 //.
  rewrite /enumerate size_zip s4 s5 minnn; apply: goes_all => -[k [c evs]] _; exact: goes_lookup_z.
have cE : size [seq o <- ws | vd_permute (o_data o)] = size [seq o <- s_ws S | vd_permute (o_data o)].
  rewrite !size_filter -!sumn_count; congr sumn; apply: map_eq_idx => [|j a b Ha Hb].
    by rewrite -(each2_size uw); have := congr1 size mr; rewrite !size_map.
  have [v Hv] := idx_size2 (esym (each2_size uw)) Ha; have [[_ _ _ _ ep] _] := each2_idx uw Hv Ha.
  by have [v0 [Hv0 _ _ Ep]] := register_shape Hv; move: Hv0; rewrite Hb ep Ep => -[->].
rewrite cE (_ : number_of_z_polys _ _ = Ok (product_count S)); last first.
  rewrite /product_count; case: ifP => [/eqP ->|/eqP K0] //.
  have [m0 _ _] := rd_perm rdy K0; by rewrite -{1}(size_iota 0 (size _)) z_polys_chunks.
rewrite rbind_Ok; apply: goes_bind (goes_assert _) _ => _ _ /eqP sz.
have rE : map (@o_rots _) [seq z_oracle_v u (product_count S) kc | kc <- enumerate (tp_z_commitments pf)] = product_rots S.
  rewrite /product_rots -map_comp sz; apply: map_eq_idx => [|j kc k Hkc Hk]; first by rewrite size_enumerate size_iota.
  have [jk /(_ 0%N)] := idx_ok Hk; rewrite size_iota in jk; rewrite nth_iota // add0n => <-.
  by move: Hkc; rewrite idx_enumerate; case: (idx _ _) => //= c [<-].
rewrite -rE; apply: goes_register => [j v Hv r Hr||zs uz] //.
  have [[k c] _ E] := idx_map_inv Hv; move: Hr; rewrite E /z_oracle_v; cbn [o_rots].
  by case: ifP => _; rewrite ?mem_sinsert !inE => H'; repeat (case/orP: H' => H'); rewrite ?(eqP H') //= ltnW.
rewrite -map_comp.
have -> : [seq o_label (z_oracle_v u (product_count S) kc) | kc <- enumerate (tp_z_commitments pf)]
  = [seq append "agg_permutation_" (show_nat k) | k <- iota 0 (size (tp_z_commitments pf))].
  by rewrite /enumerate; elim: (tp_z_commitments pf) 0%N => //= c cs IH k; rewrite IH.
exact: uniq_numbered.
Qed.
End Total.
