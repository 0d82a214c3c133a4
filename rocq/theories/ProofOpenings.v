(** The q_evals of a proof that prove returns. *)
From mathcomp Require Import all_ssreflect all_algebra.
From mathcomp Require Import zify.
From Verif Require Import Base ModelPoly ModelVO ModelOracle ModelPC ModelPermutation ModelLookup ModelIndexer ModelMultiproof ModelProtocol
  Spec SpecPIOP SpecProtocol SpecMultiopen SpecBlind SpecOpenings ProofBase ProofEach ProofPoly ProofDomain ProofMultiopen ProofMultiopen2 ProofProver ProofRounds ProofBlind ProofExact ProofOracle ProofClaims.

Set Implicit Arguments.
Unset Strict Implicit.
Unset Printing Implicit Defensive.

Import GRing.Theory.
Local Open Scope ring_scope.

Section Comb.
Variable F : fieldType.
Lemma combined_powers (T : Type) (x b : F) n (os : seq T) (f : T -> F) : (size os <= n)%N ->
  \sum_(t <- zip os (powers n b x)) t.2 * f t.1 = b * combined x (map f os).
Proof.
elim: os n b => [|o os IH] [|n] b //= H; rewrite ?big_nil ?mulr0 //.
by rewrite big_cons /= IH // mulrDr mulrA.
Qed.
End Comb.

Section Sets.
Variables (V : Type) (key : V -> seq rotation).
(** In the sorted list of opening sets, the set [k] is at its place. *)
Lemma nth_sorted_place (s : seq (seq rotation)) k : sorted rots_lt s -> k \in s -> nth [::] s (count (fun k' => rots_lt k' k) s) = k.
Proof.
elim: s => //= a s IH Hp; rewrite inE => /orP[/eqP E|Hk].
  rewrite -E in Hp *; rewrite rots_lt_irr add0n.
  have /allP Ha := order_path_min rots_lt_trans Hp.
  have -> // : count (fun k' => rots_lt k' k) s = 0%N.
  apply/eqP; rewrite -leqn0 leqNgt -has_count; apply/hasPn => b /Ha lt; apply/negP => lt'.
  by move: (rots_lt_trans lt lt'); rewrite rots_lt_irr.
have /allP Ha := order_path_min rots_lt_trans Hp.
by rewrite (Ha _ Hk) add1n /= IH // (path_sorted Hp).
Qed.
Lemma count_same (A : eqType) (p : pred A) (s t : seq A) : uniq s -> uniq t -> s =i t -> count p s = count p t.
Proof. by move=> us ut E; apply/permP; apply: uniq_perm. Qed.
Lemma place_sets (s : seq V) k : k \in map key s ->
  (place k (map key s) < size (opening_sets key s))%N /\
  nth (k, [::]) (opening_sets key s) (place k (map key s)) = (k, [seq v <- s | key v == k]).
Proof.
move=> Hk; have [U M] := opening_sets_keys key s; have S := sorted_sets key s.
have E : place k (map key s) = count (fun k' => rots_lt k' k) (map fst (opening_sets key s)).
  by apply: count_same => //; rewrite ?undup_uniq // => x; rewrite mem_undup M.
have Hk' : k \in map fst (opening_sets key s) by rewrite M.
have N := nth_sorted_place S Hk'; rewrite -E in N.
have lt : (place k (map key s) < size (opening_sets key s))%N.
  rewrite E -(size_map fst) -(count_predC (fun k' => rots_lt k' k) (map fst (opening_sets key s))) -addn1 leq_add2l -has_count.
  by apply/hasP; exists k => //=; rewrite rots_lt_irr.
split=> //; rewrite (nth_map (k, [::])) // in N.
have [l H] : exists l, nth (k, [::]) (opening_sets key s) (place k (map key s)) = (k, l).
  by case: (nth _ _ _) N => k' l /= ->; exists l.
rewrite H; congr pair; apply: (opening_setsE (k := k)); rewrite -H.
by elim: (opening_sets key s) (place _ _) lt => // x m IH [|j] /=; [left|move/IH; right].
Qed.
End Sets.

Section Run.
Variables (F : fieldType) (env : fenv F) (PC : pcs F) (FS : fsrng F).

Lemma filter_zip_fst (A B : Type) (p : pred A) (s : seq A) (t : seq B) : size s = size t ->
  map fst [seq x <- zip s t | p x.1] = [seq x <- s | p x].
Proof. by elim: s t => [|a s IH] [|b t] //= [/IH <-]; case: (p a). Qed.

(** What mo_prove puts in q_evals. *)
Lemma q_evals_combined (ck : pc_ck PC) os rs xi ds (fs fs' : fs_state FS) zk zk' pf : size os = size rs ->
  mo_prove env ck os rs xi ds fs zk = Ok (pf, fs', zk') ->
  let rots := map (@o_rots _) os in
  size (mp_q_evals pf) = size (undup rots) /\
  forall k, k \in rots ->
    (mp_q_evals pf)`_(place k rots) = combined (fs_rand fs).1 [seq opened o (x3_of fs pf) | o <- os & o_rots o == k].
Proof.
move=> ss H rots; move: H; rewrite /mo_prove /x3_of; case: (fs_rand fs) => x1 fs1; case: (fs_rand fs1) => x2 fs2 H; cbn [fst snd].
have [d Ed {}H] := rbind_ok H; have [items Hi {}H] := rbind_ok H; have [fp _ {}H] := rbind_ok H.
cbn [commit_all] in H; case Es: (pc_sample _ _) H => [fr zk1] H; have [[[fcs frs] zk2] Hc {}H] := rbind_ok H.
have [fc Ef Hc'] := rbind_ok Hc; case: Hc' => Efcs Efrs _.
have [fr' _ {}H] := rbind_ok H; move: H; rewrite -Efcs /coms_bytes /= cats0.
case Ex3: (fs_rand _) => [x3 fs3]; case: (fs_rand _) => x4 fs4 H.
have [? _ {}H] := rbind_ok H; have [op _ {}H] := rbind_ok H; case: H => <- _ _; cbn [mp_q_evals mp_f_commit]; rewrite Ex3 /=.
set sets := opening_sets _ _ in Hi.
have re := rmapM_each Hi; have sz := each2_size re.
have Erots : rots = [seq o_rots or.1 | or <- zip os rs].
  by rewrite /rots -[in LHS](unzip1_zip (eq_leq ss)) /unzip1 -map_comp.
split; first by rewrite size_map -sz /sets size_opening_sets Erots.
move=> k; rewrite Erots => Hk; have [lt N] := place_sets Hk; rewrite -/sets in lt N.
set j := place _ _ in lt N *.
have [s0 Hs0] := idx_some lt; have [_ Hn] := idx_ok Hs0.
have lt' : (j < size items)%N by rewrite -sz.
have [it Hit] := idx_some lt'; have [_ Hn'] := idx_ok Hit.
have := each2_idx re Hs0 Hit; rewrite (nth_map it) // (Hn' it).
rewrite -(Hn (k, [::])) N /mo_prover_item => Hm; have [evs _ {}Hm] := rbind_ok Hm.
case: Hm => <-; cbn [fst snd]; rewrite (@peval_foldl _ _ (fun t => po_poly t.1.1) (fun t => t.2)).
rewrite (@combined_powers F _ x1 1 _ _ (fun t : poracle F * pc_rand PC => peval (po_poly t.1) x3)); last first.
  rewrite size_filter; apply: leq_trans (count_size _ _) _; rewrite size_zip ss minnn; exact: leqnn.
rewrite mul1r /= add0r.
have -> : [seq o <- os | o_rots o == k] = map fst [seq x <- zip os rs | o_rots x.1 == k] by exact (esym (@filter_zip_fst _ _ (fun o : poracle F => o_rots o == k) os rs ss)).
by rewrite -map_comp.
Qed.

(** The rotations of the columns made by the rounds of the prover. *)
Lemma zs_loop_rots Z (zk_rand : Z -> F * Z) pa beta gamma (d ext : domain F) i pr cs zk zs zk' :
  construct_agg_polys_loop env zk_rand pa beta gamma d ext i pr cs zk = Ok (zs, zk') ->
  map (@o_rots _) zs = [seq if k.+1 == size zs then [:: curr; next] else sinsert rot_lt (pa_usable_rows pa, Plus) [:: curr; next] | k <- iota 0 (size zs)].
Proof.
suff H : construct_agg_polys_loop env zk_rand pa beta gamma d ext i pr cs zk = Ok (zs, zk') -> size zs = size cs /\
  map (@o_rots _) zs = [seq if k.+1 == size zs then [:: curr; next] else sinsert rot_lt (pa_usable_rows pa, Plus) [:: curr; next] | k <- iota 0 (size zs)].
  by move=> /H [].
elim: cs i pr zk zs zk' => [|[[ws ss] ds] cs IH] i pr zk zs zk'; cbn [construct_agg_polys_loop]; first by case=> <-.
case: (match pr with None => _ | Some _ => _ end) => [init|//|//]; cbn [rbind].
case E: (gp_construct_agg_poly _ _ _ _ _ _ _ _ _ _ _ _ _ _) => [[z zk1]|//|//]; cbn [rbind].
case E2: (construct_agg_polys_loop _ _ _ _ _ _ _ _ _ _ _) => [[zs1 zk2]|//|//]; cbn [rbind] => -[<- _].
have [sz Er] := IH _ _ _ _ _ E2; split; first by rewrite /= sz.
cbn [map size iota]; rewrite Er (iotaDl 1 0) -map_comp; congr cons.
move: E; rewrite /gp_construct_agg_poly; case: (gp_rows _ _ _ _ _ _ _ _) => [r|//|//]; cbn [rbind].
case: (usub _ 1) => [t1|//|//]; cbn [rbind]; case: (usub _ _) => [t|//|//]; cbn [rbind].
case: (draw_n _ _ _) => b z'; case: (rassert _) => [[]|//|//]; cbn [rbind] => -[<- _].
by cbn [o_rots]; rewrite eqSS sz; case: (cs).
Qed.
Lemma zs_round_rots (pa : permutation_argument F) (pre : prover_pre PC) tc beta gamma (d ext : domain F) zk zs zk' :
  prover_permutation_round env pa pre tc beta gamma d ext zk = Ok (zs, zk') ->
  map (@o_rots _) zs = [seq if k.+1 == size zs then [:: curr; next] else sinsert rot_lt (pa_usable_rows pa, Plus) [:: curr; next] | k <- iota 0 (size zs)].
Proof.
rewrite /prover_permutation_round; case: ifP => _; first by case=> <-.
rewrite /construct_agg_polys => H; do 5 have [? _ {}H] := rbind_ok H.
have [[zs1 zk1] E {}H] := rbind_ok H; have {}E := zs_loop_rots E; do 3 have [? _ {}H] := rbind_ok H.
by case: H => <- _.
Qed.
Lemma lookup_round_rots (pre : prover_pre PC) ix ws ins theta (d : domain F) kls zk los zk' :
  prover_lookup_round env pre ix ws ins theta d kls zk = Ok (los, zk') ->
  map (@o_rots _) (lookup_primes los) = flatten [seq [:: [:: curr; prev]; [:: curr]] | l <- kls].
Proof.
elim: kls zk los => [|[k l] kls IH] zk los /=; first by case=> <-.
move=> H; have [es _ {}H] := rbind_ok H; have [tqs _ {}H] := rbind_ok H.
have [[lo zk1] Hc {}H] := rbind_ok H; have [[los' zk2] E {}H] := rbind_ok H.
case: H => <- Ez; rewrite Ez in E; have {}E := IH _ _ E; cbn [map flatten foldr]; rewrite /lookup_primes /= -/(lookup_primes los') E.
move: Hc; rewrite /construct_a_and_s_polys_prover => H.
do 9 have [? _ {}H] := rbind_ok H; have [[a1 s1] _ {}H] := rbind_ok H.
move: H; case: (draw_pairs _ _ _) => [[ra rs] zk3] H; do 2 have [? _ {}H] := rbind_ok H.
by case: H => <- _.
Qed.
Lemma subset_round_rots (ix : index_info F) beta gamma (d : domain F) klos (zk : pc_zk PC) zs zk' :
  prover_subset_round env ix beta gamma d klos zk = Ok (zs, zk') ->
  map (@o_rots _) zs = [seq [:: curr; next] | l <- klos].
Proof.
elim: klos zk zs => [|[k lo] kls IH] zk zs /=; first by case=> <-.
move=> H; have [[z zk1] Hc {}H] := rbind_ok H; have [[zs' zk2] E {}H] := rbind_ok H.
case: H => <- Ez; rewrite Ez in E; have {}E := IH _ _ E; rewrite /= E; congr cons.
move: Hc; rewrite /se_construct_agg_poly => H; do 5 have [? _ {}H] := rbind_ok H.
by move: H; case: (draw_n _ _ _) => b z' [<- _].
Qed.
Lemma chunks_rots vk (pre : prover_pre PC) ws ins tc zs los lzs vos beta gamma alpha (d : domain F) cs :
  prover_quotient_round env vk pre ws ins tc zs los lzs vos beta gamma alpha d = Ok cs -> map (@o_rots _) cs = nseq (size cs) [:: curr].
Proof.
rewrite /prover_quotient_round => H; do 5 have [? _ {}H] := rbind_ok H.
have [c _ {}H] := rbind_ok H; case: H => <-; rewrite size_map -map_comp.
by elim: (enumerate c) => //= x s ->.
Qed.
Lemma const_map (A B C : Type) (c : C) (s : seq A) (t : seq B) : size s = size t -> [seq c | _ <- s] = [seq c | _ <- t].
Proof. by elim: s t => [|x s IH] [|y t] //= [/IH ->]. Qed.

Variables (ck : pc_ck PC) (vk : verifier_key F) (pre : prover_pre PC) (ws ins : seq (poracle F)) (vos : seq (generic_vo F)) (ds : nat) (zk zk' : pc_zk PC).
Lemma published_ok pf T : let ch := derive_challenges FS pf in
  prover_trace env ck vk pre ws ins vos ds zk (ch_theta ch) (ch_beta ch) (ch_gamma ch) (ch_alpha ch) (ch_xi ch) pf T ->
  map (@o_rots _) (t_oracles pre (ws_ext env vk ws) T) = published_rots vk pre ws (size (tp_z_commitments pf)) (size (tp_quotient_commitments pf)).
Proof.
move=> ch tr; rewrite /t_oracles /published_rots !map_cat.
have [sz _] := each3_size (commit_each (pt_z tr)); have [sq _] := each3_size (commit_each (pt_q tr)).
rewrite sz sq (lookup_round_rots (pt_los tr)) (subset_round_rots (pt_lzs tr)) (chunks_rots (pt_chunks tr)) (zs_round_rots (pt_zs tr)).
have [_ sl _] := lookup_round_drawn (pt_los tr).
rewrite -map_comp (const_map _ (t := ix_lookups (vk_index vk))); last by rewrite size_enumerate.
by rewrite (@const_map _ _ _ [:: curr; next] _ (ix_lookups (vk_index vk))) // size_enumerate sl size_enumerate.
Qed.
End Run.

(** Every declared rotation is in the query set. *)
Section QuerySets.
Variables (F : fieldType) (d : domain F).
Hypothesis dok : domain_ok d.
Lemma oracle_query_set_has P (o : oracle P) pl x acc qs : oracle_query_set o pl x (elements d) acc = Ok qs ->
  {subset acc <= qs} /\ forall r, r \in o_rots o -> exists2 e, e \in qs & e.1 = o_label o /\ e.2.2 = rot_point (dgen d) r x.
Proof.
rewrite /oracle_query_set; elim: (o_rots o) acc => [|r rs IH] acc /=; first by case=> ->; split.
move=> H; have [acc' E {}H] := rbind_ok H; have [pi Epi {}E] := rbind_ok E; have [S M] := IH _ H.
have E' : sinsert (@qentry_lt F) (o_label o, pi) acc = acc' by case: E.
split=> [e He|r']; first by apply: S; rewrite -E' mem_sinsert He orbT.
rewrite inE => /orP[/eqP ->|/M //]; exists (o_label o, pi); first by apply: S; rewrite -E' mem_sinsert eqxx.
by split=> //=; exact: (point_info_inv dok Epi).
Qed.
Lemma query_set_has P (os : seq (oracle P)) pl x qs : get_query_set os pl x (elements d) = Ok qs ->
  forall o r, occurs o os -> r \in o_rots o -> exists2 e, e \in qs & e.1 = o_label o /\ e.2.2 = rot_point (dgen d) r x.
Proof.
rewrite /get_query_set => H.
suff [_ M] : {subset ([::] : seq (qentry F)) <= qs} /\ forall o r, occurs o os -> r \in o_rots o ->
   exists2 e, e \in qs & e.1 = o_label o /\ e.2.2 = rot_point (dgen d) r x by [].
move: H; elim: os [::] => [|o os IH] acc /=; first by case=> ->; split.
move=> H; have [acc' E {}H] := rbind_ok H; have [S1 M1] := oracle_query_set_has E; have [S2 M2] := IH _ H.
split=> [e /S1/S2 //|o' r [->|Ho] Hr]; last exact: M2 Ho Hr.
by have [e /S2 He E'] := M1 _ Hr; exists e.
Qed.
Lemma rot_point_exp r (x : F) : (rot_point (dgen d) r x) ^+ dsize d = x ^+ dsize d.
Proof.
have w1 : dgen d ^+ dsize d = 1 by exact: dgen_exp.
by rewrite /rot_point; case: ifP => _; rewrite exprMn ?exprVn -exprM mulnC exprM w1 expr1n ?invr1 mulr1.
Qed.
End QuerySets.
