(** The multi-opening's check as a function of the claimed evaluations. *)
From mathcomp Require Import all_ssreflect all_algebra zify.
From Verif Require Import Base ModelPoly ModelVO ModelOracle ModelPC ModelPermutation ModelLookup ModelIndexer ModelMultiproof ModelProtocol
  Spec SpecProtocol SpecPIOP SpecMultiopen SpecSingle SpecOpenings SpecLinear ProofBase ProofPoly ProofDomain ProofOracle ProofLookup ProofVO ProofEach
  ProofProver ProofFront ProofMultiopen ProofMultiopen2 ProofMultiopen3 ProofSingle ProofOpenings.

Set Implicit Arguments.
Unset Strict Implicit.
Unset Printing Implicit Defensive.

Import GRing.Theory.
Local Open Scope ring_scope.
Local Arguments mo_verifier_item : simpl never.
Local Arguments mo_f_eval : simpl never.

Lemma occurs_at (A : Type) (x : A) (s : seq A) i : (i < size s)%N -> occurs (nth x s i) s.
Proof. by elim: s i => // y s IH [|i] /=; [left|move/IH; right]. Qed.

Section Linear.
Variables (F : fieldType) (env : fenv F) (PC : pcs F) (FS : fsrng F).
Notation vorc := (voracle F (pc_com PC)).

Section Fixed.
Variables (d : domain F) (xi x1 x3 : F) (m : nat).
Hypothesis dok : domain_ok d.
Notation pows := (powers m 1 x1).
Notation w := (dgen d).
Notation pts k := [seq rot_point w r xi | r <- k].

(** What a group of claims contributes. *)
Definition part_claim (k : seq rotation) (os : seq vorc) : F :=
  (\sum_(p <- pts k) combined x1 [seq claim o p | o <- os] * basis_at (pts k) p x3) / \prod_(p <- pts k) (x3 - p).

Lemma lag_at_any (s : seq F) p x : (lag s p).[x] = basis_at s p x.
Proof. by rewrite /lag horner_prod; apply: eq_bigr => e _; rewrite hornerZ hornerXsubC. Qed.

Lemma evs_claims k (os : seq vorc) c evs : (size os <= m)%N -> mo_verifier_item pows (elements d) xi (k, os) = Ok (c, evs) ->
  evs = [seq (p, combined x1 [seq claim o p | o <- os]) | p <- pts k].
Proof.
move=> sz H; have [E _ B] := item_points dok H.
rewrite -E -map_comp -[LHS]map_id; apply: (@eq_in_map _ _ _ _ evs).1 => t /(nthP (0, 0)) [i Hi Et].
have /batch_inv := B i Hi; rewrite size_powers => /(_ sz) [_]; rewrite Et.
rewrite (@combined_powers F _ x1 1 m os (fun o => ok_or 0 (vo_query o t.1))) // mul1r => E2.
by rewrite [LHS]surjective_pairing E2.
Qed.

Lemma f_eval_claims k (os : seq vorc) c evs qe : (size os <= m)%N -> mo_verifier_item pows (elements d) xi (k, os) = Ok (c, evs) ->
  mo_f_eval x3 evs qe = if x3 \in pts k then Panic PUnwrap else Ok (qe / (\prod_(p <- pts k) (x3 - p)) - part_claim k os).
Proof.
move=> sz H; have [E U _] := item_points dok H; rewrite (f_eval_ok _ _ U) E; case: ifP => // _.
rewrite mulrBl zpoly_at; congr (Ok (_ - _ / _)).
rewrite /interp E (evs_claims sz H) big_map horner_sum; apply: eq_bigr => p _ /=.
by rewrite hornerZ lag_at_any.
Qed.

(** If the old claims of a set are read, so are the new ones. *)
Lemma item_again k (l : seq (vorc * vorc)) c evs : (size l <= m)%N -> aligned l ->
  (forall z r, occurs z l -> r \in k -> exists e, vo_query z.2 (rot_point w r xi) = Ok e) ->
  mo_verifier_item pows (elements d) xi (k, map fst l) = Ok (c, evs) ->
  exists evs', mo_verifier_item pows (elements d) xi (k, map snd l) = Ok (c, evs').
Proof.
move=> sz al rd H; have := H; rewrite /mo_verifier_item.
set f := fun q (ox : vorc * F) => a <- get_commitment ox.1 ;; Ok (pc_add q (pc_scale a ox.2)).
have -> : rfoldM f (pc_zero PC) (zip (map snd l) pows) = rfoldM f (pc_zero PC) (zip (map fst l) pows).
  by rewrite !zip_mapl !rfoldM_map; apply: eq_rfoldM_occurs => q t /occurs_zip_fst /al E; rewrite /f /= E.
case: (rfoldM f _ _) => //= q {}H; have [e He {}H] := rbind_ok H; case: H => <- _.
have [|pvs [_ Hp [up _] _]] := batched_inv _ He; first by move=> ? ?.
pose g p := \sum_(t <- zip (map snd l) pows) t.2 * ok_or 0 (vo_query t.1 p).
have Ep : map fst pvs = pts k.
  elim: (k) (map fst pvs) Hp {He up rd} => [|r k' IH] [|p ps] //=.
    by case: (compute_evaluation_point r xi _) => //= ?; case: (rmapM _ _).
  case E: (compute_evaluation_point r xi _) => [p'| |] //=; case E2: (rmapM _ _) => [ps'| |] //= [<- E3].
  by have [_ ->] := compute_point_inv dok E; rewrite -(IH ps) // E2 E3.
have E1 : map fst [seq (p, g p) | p <- map fst pvs] = map fst pvs by rewrite -map_comp map_id_in.
rewrite (@batched_intro F _ (@vo_query F _) _ _ _ _ _ _ [::] [seq (p, g p) | p <- map fst pvs]) ?E1 //; first by eexists.
move=> i; rewrite size_map => Hi; rewrite (nth_map 0) //=.
have Q o : occurs o (map snd l) -> vo_query o (map fst pvs)`_i = Ok (ok_or 0 (vo_query o (map fst pvs)`_i)).
  move=> Ho; have [z Hz ->] := ProofEach.occurs_map Ho.
  have : (map fst pvs)`_i \in pts k by rewrite -Ep mem_nth.
  by case/mapP=> r Hr ->; have [e' ->] := rd z r Hz Hr.
exact: (batch_ok _ Q).
Qed.

Lemma zip_again (T : seq (seq rotation * seq (vorc * vorc))) qs I :
  mo_zip pows (elements d) xi x3 [seq (kl.1, map fst kl.2) | kl <- T] qs = Ok I ->
  (size T <= size qs)%N ->
  (forall k l, occurs (k, l) T -> [/\ (size l <= m)%N, aligned l &
     forall z r, occurs z l -> r \in k -> exists e, vo_query z.2 (rot_point w r xi) = Ok e]) ->
  exists I', [/\ mo_zip pows (elements d) xi x3 [seq (kl.1, map snd kl.2) | kl <- T] qs = Ok I',
    [seq (t.1.1, t.2) | t <- I'] = [seq (t.1.1, t.2) | t <- I], size I = size T, forall k l, occurs (k, l) T -> uniq (pts k) /\ x3 \notin pts k &
    forall j x, (j < size T)%N -> let kl := nth ([::], [::]) T j in
      (nth x I' j).1.2 = (nth x I j).1.2 - (part_claim kl.1 (map snd kl.2) - part_claim kl.1 (map fst kl.2))].
Proof.
elim: T qs I => [|[k l] T IH] [|qe qs] I //=.
- by case=> <- *; exists [::].
- by case=> <- *; exists [::].
move=> H; rewrite ltnS => sz Ha.
have [[c evs] V {}H] := rbind_ok H; have [f Hf {}H] := rbind_ok H; have [R HR {}H] := rbind_ok H; case: H => <-.
have [|R' [HR' ER sR UR N]] := IH qs R HR sz; first by move=> k1 l1 Ho; apply: Ha; right.
have [sl al rd] := Ha k l (or_introl erefl); have [evs' V'] := item_again sl al rd V.
have s1 : (size (map fst l) <= m)%N by rewrite size_map.
have s2 : (size (map snd l) <= m)%N by rewrite size_map.
move: Hf; rewrite (f_eval_claims _ s1 V); case: ifP => // nx [Ef].
have Hf' : mo_f_eval x3 evs' qe = Ok (qe / (\prod_(p <- pts k) (x3 - p)) - part_claim k (map snd l)) by rewrite (f_eval_claims _ s2 V') nx.
eexists; rewrite V' rbind_Ok Hf' rbind_Ok HR' rbind_Ok; split=> //=; rewrite ?ER ?sR //.
  move=> k1 l1 [[-> _]|/UR //]; have [<- U _] := item_points dok V; rewrite U; split=> //.
  by have [-> _ _] := item_points dok V; rewrite nx.
case=> [|j] x /=; last by move=> Hj; exact: N.
by move=> _; rewrite -Ef opprB addrA subrK.
Qed.
End Fixed.

Lemma claims_again (pvk : pc_vk PC) ds d (zs : seq (vorc * vorc)) xi (fs : fs_state FS) pf :
  let x1 := (fs_rand fs).1 in let x2 := (fs_rand (fs_rand fs).2).1 in let x3 := x3_of fs pf in
  let total := total_claim (dgen d) xi x1 x2 x3 in
  fenv_ok env -> domain_new env ds = Some d ->
  (forall o o', occurs (o, o') zs -> [/\ o_rots o' = o_rots o, get_commitment o' = get_commitment o &
     forall r, r \in o_rots o -> exists e, vo_query o' (rot_point (dgen d) r xi) = Ok e]) ->
  (size (undup (map (@o_rots _) (map fst zs))) <= size (mp_q_evals pf))%N ->
  mo_verify env pvk pf (map fst zs) xi ds fs = Ok tt ->
  (forall k, k \in map (@o_rots _) (map fst zs) -> uniq [seq rot_point (dgen d) r xi | r <- k] /\ x3 \notin [seq rot_point (dgen d) r xi | r <- k]) /\
  exists c v, pc_check pvk c x3 v (mp_opening pf) = Ok true /\
    mo_verify env pvk pf (map snd zs) xi ds fs =
      (b <- pc_check pvk c x3 (v - (total (map snd zs) - total (map fst zs))) (mp_opening pf) ;; if b then Ok tt else Err OpeningCheckFailed).
Proof.
move=> x1 x2 x3 total eok Ed al sq; have [_ _ dok _] := domain_new_spec eok Ed; subst total x1 x2 x3.
rewrite /mo_verify /x3_of Ed !rbind_Ok !size_map.
case: (fs_rand fs) => [x1 fs1]; case: (fs_rand fs1) => [x2 fs2]; cbn [fst snd].
case: (fs_rand (fs_absorb fs2 _)) => [x3 fs3]; case: (fs_rand (fs_absorb fs3 _)) => [x4 fs4]; cbn [fst snd].
have al1 z : occurs z zs -> o_rots z.2 = o_rots z.1 by case: z => o o' /al [].
set T := opening_sets (fun z : vorc * vorc => o_rots z.1) zs.
have E1 : opening_sets (fun o : vorc => o_rots o) (map fst zs) = [seq (kl.1, map fst kl.2) | kl <- T] by rewrite opening_sets_map.
have E3 : opening_sets (fun o : vorc => o_rots o) (map snd zs) = [seq (kl.1, map snd kl.2) | kl <- T].
  by rewrite opening_sets_map; congr map; apply: opening_sets_eq => z /al1 ->.
rewrite E1 E3 => H.
have [I HI {}H] := rbind_ok H; have [b Hb {}H] := rbind_ok H; case: b Hb H => // Hb _.
have mapK : map (fun z : vorc * vorc => o_rots z.1) zs = map (@o_rots _) (map fst zs) by rewrite -map_comp.
have sT : size T = size (undup (map (@o_rots _) (map fst zs))) by rewrite /T size_opening_sets mapK.
have P1 k l : occurs (k, l) T -> [/\ (size l <= size zs)%N, aligned l &
     forall z r, occurs z l -> r \in k -> exists e, vo_query z.2 (rot_point (dgen d) r xi) = Ok e].
  move=> Ho; split; first exact: (opening_set_size Ho).
    by move=> [o o'] Hz; have [_ /al [_ ->]] := opening_sets_mem Ho Hz.
  by move=> [o o'] r Hz; have [<- /al [_ _ rd]] := opening_sets_mem Ho Hz => /rd.
have [I' [HI' EI sI UI N]] := zip_again dok HI (leq_trans (eq_leq sT) sq) P1.
split=> [k|].
  rewrite -mapK => Hk; have [lt Np] := place_sets Hk; apply: (UI k [seq z <- zs | o_rots z.1 == k]); rewrite -Np.
  exact: occurs_at.
rewrite HI' rbind_Ok.
pose V (J : seq (pc_com PC * F * F)) e := foldl (fun e (t : pc_com PC * F * F * F) => e + t.2 * t.1.2) e (zip J (powers (size (mp_q_evals pf)) x4 x4)).
pose W (J : seq (pc_com PC * F * F)) := foldl (fun e (t : pc_com PC * F * F * F) => e + t.2 * t.1.1.2) 0 (zip J (powers (size zs) 1 x2)).
pose C (J : seq (pc_com PC * F * F)) := foldl (fun c (t : pc_com PC * F * F * F) => pc_add c (pc_scale t.1.1.1 t.2)) (mp_f_commit pf) (zip J (powers (size (mp_q_evals pf)) x4 x4)).
have fin J e c : foldl (fun ce (ix : pc_com PC * F * F * F) => (pc_add ce.1 (pc_scale ix.1.1.1 ix.2), ce.2 + ix.2 * ix.1.2)) (c, e) (zip J (powers (size (mp_q_evals pf)) x4 x4)) =
   (foldl (fun c (t : pc_com PC * F * F * F) => pc_add c (pc_scale t.1.1.1 t.2)) c (zip J (powers (size (mp_q_evals pf)) x4 x4)), V J e).
  exact: (@foldl_pair _ _ _ (fun c (t : pc_com PC * F * F * F) => pc_add c (pc_scale t.1.1.1 t.2)) (fun e (t : pc_com PC * F * F * F) => e + t.2 * t.1.2)).
rewrite !fin /= in Hb *.
have EC : C I' = C I.
  have G J : C J = foldl (fun c (t : pc_com PC * F * F) => pc_add c (pc_scale t.1.1 t.2)) (mp_f_commit pf)
      (zip [seq (t.1.1, t.2) | t <- J] (powers (size (mp_q_evals pf)) x4 x4)) by rewrite zip_mapl foldl_mapl.
  by rewrite !G EI.
have EV e : V I' e = V I e.
  have G J : V J e = foldl (fun c (t : pc_com PC * F * F) => c + t.2 * t.1.2) e
      (zip [seq (t.1.1, t.2) | t <- J] (powers (size (mp_q_evals pf)) x4 x4)) by rewrite zip_mapl foldl_mapl.
  by rewrite !G EI.
have VA J e : V J e = e + V J 0.
  rewrite /V; elim: (zip _ _) e => [|t l IH] e /=; first by rewrite addr0.
  by rewrite IH [in RHS]IH add0r addrA.
rewrite -/(C I) -/(C I') -/(W I) -/(W I') EC EV in Hb *.
exists (C I), (V I (W I)); split=> //; rewrite VA [V I (W I)]VA.
suff -> : W I' = W I - (total_claim (dgen d) xi x1 x2 x3 (map snd zs) - total_claim (dgen d) xi x1 x2 x3 (map fst zs)).
  by rewrite addrAC.
have x0 : pc_com PC * F * F := (mp_f_commit pf, 0, 0).
have sI' : size I' = size T by rewrite -sI -(size_map (fun t => (t.1.1, t.2)) I) -EI size_map.
have WE J : size J = size T -> W J = \sum_(i < size T) (1 * x2 ^+ i) * (nth x0 J i).1.2.
  move=> sJ; rewrite /W.
  have -> : forall a, foldl (fun e (t : pc_com PC * F * F * F) => e + t.2 * t.1.1.2) a (zip J (powers (size zs) 1 x2)) =
     a + \sum_(t <- zip J (powers (size zs) 1 x2)) t.2 * t.1.1.2.
    by elim: (zip _ _) => [|t l IH] a /=; rewrite ?big_nil ?addr0 // big_cons IH addrA.
  rewrite add0r (@big_zip_powers F F _ (fun (t : pc_com PC * F * F) p => p * t.1.2) _ _ _ _ x0) ?sJ //.
  by rewrite sT (leq_trans (size_undup _)) // !size_map.
have TE (h : vorc * vorc -> vorc) : (forall z, occurs z zs -> o_rots (h z) = o_rots z.1) ->
    total_claim (dgen d) xi x1 x2 x3 (map h zs) =
    \sum_(i < size T) x2 ^+ i * part_claim d xi x1 x3 (nth ([::], [::]) T i).1 (map h (nth ([::], [::]) T i).2).
  move=> Hh; rewrite /total_claim.
  have -> : map (@o_rots _) (map h zs) = map (fun z : vorc * vorc => o_rots z.1) zs.
    by elim: (zs) Hh => //= z s IH Hz; rewrite (Hz z (or_introl erefl)) IH // => y Hy; apply: Hz; right.
  set ks := map _ zs; have [U K] := opening_sets_keys (fun z : vorc * vorc => o_rots z.1) zs.
  have Pk : perm_eq (undup ks) (map fst T) by apply: uniq_perm; rewrite ?undup_uniq // => x; rewrite mem_undup K.
  rewrite (perm_big _ Pk) /= big_map (big_nth ([::], [::])) big_mkord; apply: eq_bigr => i _.
  set kl := nth _ T i; have e1 : kl.1 = nth [::] (map fst T) i by rewrite (nth_map ([::], [::])).
  have Hk : kl.1 \in ks by rewrite -K e1 mem_nth // size_map.
  have [lt Np] := place_sets Hk; rewrite -/T -/ks in lt Np.
  have Ei : place kl.1 ks = i.
    by apply/eqP; rewrite -(@nth_uniq _ [::] (map fst T)) ?size_map // (nth_map (kl.1, [::])) // Np -e1.
  have e2 : kl.2 = [seq z <- zs | o_rots z.1 == kl.1] by rewrite {1}/kl -Ei (set_nth_default (kl.1, [::])) // Np.
  rewrite Ei; congr (_ * _); rewrite /set_claim /part_claim e2.
  suff -> : [seq o <- map h zs | o_rots o == kl.1] = map h [seq z <- zs | o_rots z.1 == kl.1] by [].
  elim: (zs) Hh => //= z s IH Hz; rewrite (Hz z (or_introl erefl)) (IH (fun y Hy => Hz y (or_intror Hy))).
  by case: (_ == _).
rewrite !WE // (TE snd al1) (TE fst) // -!sumrB; apply: eq_bigr => i _.
by rewrite N // !mul1r !mulrBr.
Qed.

(** ** The weight of one claim *)
Section Weight.
Variables (w xi x1 x2 x3 : F) (os1 os2 : seq vorc) (o' : F -> vorc) (k0 : seq rotation) (s : rotation).
Hypothesis rots : forall v, o_rots (o' v) = k0.
Hypothesis sk : s \in k0.
Hypothesis here : forall v, vo_query (o' v) (rot_point w s xi) = Ok v.
Hypothesis other : forall v r, r \in k0 -> r != s -> vo_query (o' v) (rot_point w r xi) = vo_query (o' 0) (rot_point w r xi).
Let os v := os1 ++ o' v :: os2.
Let pts k := [seq rot_point w r xi | r <- k].
Hypothesis up : uniq (pts k0).
Hypothesis nx3 : x3 \notin pts k0.

Lemma combined_cat x (l1 l2 : seq F) : combined x (l1 ++ l2) = combined x l1 + x ^+ size l1 * combined x l2.
Proof. by elim: l1 => [|a l IH] /=; rewrite ?add0r ?mul1r // IH mulrDr !mulrA -exprS addrA. Qed.

Lemma total_affine : x1 != 0 -> x2 != 0 -> exists2 a, a != 0 &
  forall v, total_claim w xi x1 x2 x3 (os v) = total_claim w xi x1 x2 x3 (os 0) + v * a.
Proof.
move=> n1 n2; pose ks := map (@o_rots _) (os 0).
have ksE v : map (@o_rots _) (os v) = ks by rewrite /ks /os !map_cat /= !rots.
pose b := x1 ^+ size [seq o <- os1 | o_rots o == k0].
pose a := x2 ^+ place k0 ks * (b * basis_at (pts k0) (rot_point w s xi) x3 / \prod_(p <- pts k0) (x3 - p)).
have k0in : k0 \in ks by rewrite /ks /os map_cat mem_cat /= rots inE eqxx orbT.
have sp : rot_point w s xi \in pts k0 by exact: map_f.
exists a.
  rewrite /a !mulf_neq0 ?expf_neq0 // ?invr_eq0 -?zpoly_at ?zpoly_eq0 // -lag_at_any lag_neq0 //.
move=> v; rewrite /total_claim !ksE.
rewrite (bigD1_seq k0) ?mem_undup ?undup_uniq //= [in RHS](bigD1_seq k0) ?mem_undup ?undup_uniq //= [RHS]addrAC; congr (_ + _); last first.
  apply: eq_bigr => k nk; congr (_ * _); rewrite /set_claim.
  suff -> : [seq o <- os v | o_rots o == k] = [seq o <- os 0 | o_rots o == k] by [].
  by rewrite /os !filter_cat /= !rots eq_sym (negbTE nk).
rewrite /a [v * (x2 ^+ _ * _)]mulrCA -mulrDr; congr (_ * _); rewrite /set_claim -/(pts k0) [v * (_ / _)]mulrA -mulrDl; congr (_ / _).
rewrite (bigD1_seq _ sp up) /= [in RHS](bigD1_seq _ sp up) /= [RHS]addrAC; congr (_ + _); last first.
  rewrite big_seq_cond [RHS]big_seq_cond; apply: eq_bigr => p /andP[/mapP [r Hr ->] np]; congr (_ * _).
  have nr : r != s by apply: contraNneq np => ->.
  by rewrite /os !filter_cat /= !rots eqxx !map_cat /= /claim (other v Hr nr).
rewrite [v * (b * _)]mulrA -mulrDl; congr (_ * _).
rewrite /os !filter_cat /= !rots eqxx !map_cat !combined_cat /= /claim !here /= add0r -/b size_map -/b.
by rewrite mulrDr addrA addrAC [v * b]mulrC addrAC.
Qed.
End Weight.
End Linear.
