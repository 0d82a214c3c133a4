(** The multi-opening: two claims that differ in one evaluation are not both accepted. *)
From mathcomp Require Import all_ssreflect all_algebra zify.
From Verif Require Import Base ModelPoly ModelVO ModelOracle ModelPC ModelPermutation ModelLookup ModelIndexer ModelMultiproof ModelProtocol
  Spec SpecProtocol SpecPIOP SpecMultiopen SpecSingle ProofBase ProofPoly ProofDomain ProofOracle ProofLookup ProofVO ProofEach ProofProver ProofFront
  ProofMultiopen ProofMultiopen2 ProofMultiopen3.

Set Implicit Arguments.
Unset Strict Implicit.
Unset Printing Implicit Defensive.

Import GRing.Theory.
Local Open Scope ring_scope.
Local Arguments mo_verifier_item : simpl never.
Local Arguments mo_f_eval : simpl never.

Section Single.
Variables (F : fieldType) (env : fenv F) (PC : pcs F) (FS : fsrng F).
Notation vorc := (voracle F (pc_com PC)).

(** A basis polynomial has no roots outside of the points. *)
Lemma lag_neq0 (s : seq F) x y : y \notin s -> x \in s -> (lag s x).[y] != 0.
Proof.
move=> ys xs; rewrite /lag horner_prod prodf_seq_neq0; apply/allP => e es; apply/implyP => ex.
rewrite hornerZ hornerXsubC mulf_neq0 // ?invr_eq0 subr_eq0; first by rewrite eq_sym.
by apply: contraNneq ys => ->.
Qed.

Lemma interp_change (pts vs vs' : seq F) i x : size vs = size pts -> size vs' = size pts -> uniq pts -> (i < size pts)%N ->
  x \notin pts -> vs`_i != vs'`_i -> (forall j, (j < size pts)%N -> j != i -> vs`_j = vs'`_j) ->
  (interp (zip pts vs)).[x] != (interp (zip pts vs')).[x].
Proof.
move=> s1 s2 up Hi xp ne same; rewrite -subr_eq0 /interp.
have -> : map fst (zip pts vs) = pts by rewrite -/unzip1 unzip1_zip // s1.
have -> : map fst (zip pts vs') = pts by rewrite -/unzip1 unzip1_zip // s2.
rewrite (big_nth (0, 0)) [X in _ - X.[_]](big_nth (0, 0)) !size_zip s1 s2 minnn !big_mkord !horner_sum -sumrB.
rewrite (bigD1 (Ordinal Hi)) //= big1 ?addr0 => [|j /eqP nj].
  by rewrite !nth_zip //= !hornerZ -mulrBl mulf_neq0 ?subr_eq0 // lag_neq0 // mem_nth.
rewrite !nth_zip //= same ?subrr //; by apply/eqP => E; apply: nj; apply: val_inj.
Qed.

Lemma batch_change (l1 l2 : seq vorc) o o' pt (x1 : F) m v v' : (size (l1 ++ o :: l2) <= m)%N -> x1 != 0 ->
  vo_query o' pt <> vo_query o pt ->
  batch (@vo_query F _) (powers m 1 x1) (l1 ++ o :: l2) pt = Ok v ->
  batch (@vo_query F _) (powers m 1 x1) (l1 ++ o' :: l2) pt = Ok v' -> v != v'.
Proof.
move=> sz nx ne.
have sp : size (powers m 1 x1) = m by rewrite size_powers.
have sz' : (size (l1 ++ o' :: l2) <= m)%N by move: sz; rewrite !size_cat.
move=> /batch_inv; rewrite sp => /(_ sz) [Q ->] /batch_inv; rewrite sp => /(_ sz') [Q' ->].
have mid (a : vorc) : occurs a (l1 ++ a :: l2) by elim: (l1) => [|b l IH] /=; [left|right].
have [y Ey] := Q o (mid o).
have [y' Ey'] := Q' o' (mid o').
have ny : y != y' by apply/eqP => E; apply: ne; rewrite Ey Ey' E.
rewrite !(@big_zip_powers F F vorc (fun t p => p * ok_or 0 (vo_query t pt)) _ m 1 x1 o) //.
rewrite -subr_eq0; have Ez : size (l1 ++ o' :: l2) = size (l1 ++ o :: l2) by rewrite !size_cat.
rewrite Ez -sumrB; have Hi : (size l1 < size (l1 ++ o :: l2))%N by rewrite size_cat /=; lia.
rewrite (bigD1 (Ordinal Hi)) //= big1 ?addr0 => [|j /eqP nj].
  by rewrite !nth_cat ltnn subnn /= Ey Ey' /= -mulrBr mul1r mulf_neq0 ?expf_neq0 // subr_eq0.
apply/eqP; rewrite subr_eq0; apply/eqP; congr (_ * ok_or 0 (vo_query _ pt)); rewrite !nth_cat; case: ltnP => // H.
have : (j - size l1 != 0)%N by apply/eqP => E; apply: nj; apply: val_inj => /=; lia.
by case: (j - size l1)%N.
Qed.

Section Fixed.
Variables (d : domain F) (xi x1 x3 : F) (m : nat) (k0 : seq rotation).
Hypothesis dok : domain_ok d.
Notation pows := (powers m 1 x1).

(** Two aligned lists of claims for one set of rotations. *)
Definition aligned (l : seq (vorc * vorc)) : Prop := forall z, occurs z l -> get_commitment z.1 = get_commitment z.2.

Lemma item_points k (os : seq vorc) c evs : mo_verifier_item pows (elements d) xi (k, os) = Ok (c, evs) ->
  [/\ map fst evs = [seq rot_point (dgen d) r xi | r <- k], uniq (map fst evs) &
      forall i, (i < size evs)%N -> batch (@vo_query F _) pows os (nth (0, 0) evs i).1 = Ok (nth (0, 0) evs i).2].
Proof.
rewrite /mo_verifier_item => H; have [q _ {}H] := rbind_ok H; have [e He {}H] := rbind_ok H; case: H => _ <-.
have [|pvs [-> Hp [up _] Hb]] := batched_inv _ He; first by move=> ? ?.
split=> //; elim: k (map fst pvs) Hp {He up Hb} => [|r k IH] [|p ps] //=.
  by case: (compute_evaluation_point r xi _) => //= ?; case: (rmapM _ _).
case E: (compute_evaluation_point r xi _) => [p'| |] //=; case E2: (rmapM _ _) => [ps'| |] //= [<- E3].
by have [_ ->] := compute_point_inv dok E; rewrite -(IH ps) // E2 E3.
Qed.

Lemma same_com k (l : seq (vorc * vorc)) c c' evs evs' : aligned l ->
  mo_verifier_item pows (elements d) xi (k, map fst l) = Ok (c, evs) ->
  mo_verifier_item pows (elements d) xi (k, map snd l) = Ok (c', evs') -> c = c'.
Proof.
move=> al; rewrite /mo_verifier_item.
set f := fun q (ox : vorc * F) => a <- get_commitment ox.1 ;; Ok (pc_add q (pc_scale a ox.2)).
have -> : rfoldM f (pc_zero PC) (zip (map snd l) pows) = rfoldM f (pc_zero PC) (zip (map fst l) pows).
  by rewrite !zip_mapl !rfoldM_map; apply: eq_rfoldM_occurs => q t /occurs_zip_fst /al E; rewrite /f /= E.
case: (rfoldM f _ _) => //= q H H'; have [e _ {}H] := rbind_ok H; have [e' _ {}H'] := rbind_ok H'.
by case: H H' => <- _ [<- _].
Qed.

(** The quotient value of a set: equal if all batched claims are equal, different if one is. *)
Lemma f_eval_same k (l : seq (vorc * vorc)) c c' evs evs' :
  mo_verifier_item pows (elements d) xi (k, map fst l) = Ok (c, evs) ->
  mo_verifier_item pows (elements d) xi (k, map snd l) = Ok (c', evs') ->
  (forall z, occurs z l -> z.1 = z.2) -> evs = evs'.
Proof.
move=> H1 H2 E; have El : map snd l = map fst l.
  by elim: (l) E => //= z s IH Hz; rewrite (Hz z (or_introl erefl)) IH // => y Hy; apply: Hz; right.
by move: H2; rewrite El H1 => -[].
Qed.

Lemma f_eval_changed k (l1 l2 : seq vorc) o o' r c c' evs evs' qe f f' :
  (size (l1 ++ o :: l2) <= m)%N -> x1 != 0 -> o_rots o = k -> one_claim_changed (dgen d) xi r o o' ->
  mo_verifier_item pows (elements d) xi (k, l1 ++ o :: l2) = Ok (c, evs) ->
  mo_verifier_item pows (elements d) xi (k, l1 ++ o' :: l2) = Ok (c', evs') ->
  mo_f_eval x3 evs qe = Ok f -> mo_f_eval x3 evs' qe = Ok f' -> f != f'.
Proof.
move=> sz nx Ek [_ _ Hr ne same] H1 H2.
have [p1 u1 b1] := item_points H1; have [p2 u2 b2] := item_points H2.
rewrite (f_eval_ok _ _ u1) (f_eval_ok _ _ u2) p2 -p1; case: ifP => // x3n [<-] [<-].
rewrite -subr_eq0 -mulrBl mulf_neq0 ?invr_eq0 ?zpoly_eq0 ?x3n // opprB addrC addrA subrK subr_eq0 eq_sym.
set pts := map fst evs; have E1 : evs = zip pts (map snd evs) by rewrite /pts -[LHS]zip_unzip.
have E2 : evs' = zip pts (map snd evs') by rewrite /pts p1 -p2 -[LHS]zip_unzip.
have s1 : size evs = size k by rewrite -(size_map fst) p1 size_map.
have s2 : size evs' = size k by rewrite -(size_map fst) p2 size_map.
have sp : size pts = size k by rewrite /pts size_map.
have Hi : (seq.index r k < size k)%N by rewrite index_mem -Ek.
have pt j : (j < size k)%N -> pts`_j = rot_point (dgen d) (nth curr k j) xi by move=> Hj; rewrite /pts p1 (nth_map curr).
have B1 j : (j < size k)%N -> batch (@vo_query F _) pows (l1 ++ o :: l2) pts`_j = Ok (map snd evs)`_j.
  by move=> Hj; rewrite /pts !(nth_map (0, 0)) ?s1 //; apply: b1; rewrite s1.
have B2 j : (j < size k)%N -> batch (@vo_query F _) pows (l1 ++ o' :: l2) pts`_j = Ok (map snd evs')`_j.
  by move=> Hj; rewrite /pts p1 -p2 !(nth_map (0, 0)) ?s2 //; apply: b2; rewrite s2.
rewrite E1 E2; apply: (@interp_change _ _ _ (seq.index r k)); rewrite ?size_map ?s1 ?s2 ?sp //.
- by rewrite -/pts x3n.
- apply: (batch_change sz nx _ (B1 _ Hi) (B2 _ Hi)); rewrite pt // nth_index -?Ek //.
move=> j Hj nj; have := B2 _ Hj; have := B1 _ Hj; rewrite pt //.
have nr : nth curr k j != r.
  apply: contraNneq nj => <-; rewrite index_uniq //.
  by have := u1; rewrite p1; exact: map_uniq.
have Es := same _ _ nr; rewrite Ek in Es; have {}Es := Es (mem_nth _ Hj).
suff G a : rfoldM (fun e (ox : vorc * F) => v <- vo_query ox.1 (rot_point (dgen d) (nth curr k j) xi) ;; Ok (e + ox.2 * v)) a
    (zip (l1 ++ o' :: l2) pows) = rfoldM (fun e (ox : vorc * F) => v <- vo_query ox.1 (rot_point (dgen d) (nth curr k j) xi) ;; Ok (e + ox.2 * v)) a
    (zip (l1 ++ o :: l2) pows) by rewrite /batch G => -> [].
elim: (l1) (pows) a => [|b l IH] [|q qs] a //=; first by rewrite Es.
by case: (vo_query b _) => //= v; exact: IH.
Qed.

(** All sets, each a list of pairs of claims. *)
Definition one_changed (r : rotation) (k : seq rotation) (l : seq (vorc * vorc)) : Prop :=
  exists l1 l2 o o', [/\ map fst l = l1 ++ o :: l2, map snd l = l1 ++ o' :: l2, o_rots o = k & one_claim_changed (dgen d) xi r o o'].

Lemma zip_pair r (T : seq (seq rotation * seq (vorc * vorc))) qs I I' : x1 != 0 ->
  mo_zip pows (elements d) xi x3 [seq (kl.1, map fst kl.2) | kl <- T] qs = Ok I ->
  mo_zip pows (elements d) xi x3 [seq (kl.1, map snd kl.2) | kl <- T] qs = Ok I' ->
  (size T <= size qs)%N ->
  (forall k l, occurs (k, l) T -> (size l <= m)%N /\ aligned l) ->
  (forall k l, occurs (k, l) T -> if k == k0 then one_changed r k l else forall z, occurs z l -> z.1 = z.2) ->
  [/\ [seq (t.1.1, t.2) | t <- I] = [seq (t.1.1, t.2) | t <- I'], size I = size T, size I' = size T &
   forall j x, (j < size T)%N -> ((nth x I j).1.2 == (nth x I' j).1.2) = (nth [::] (map fst T) j != k0)].
Proof.
move=> nx; elim: T qs I I' => [|[k l] T IH] [|qe qs] I I' /=.
- by move=> H H' *; case: H => <-; case: H' => <-; split.
- by move=> H H' *; case: H => <-; case: H' => <-; split.
- by [].
move=> H H'; rewrite ltnS => sz Ha Hc.
have [[c evs] V {}H] := rbind_ok H; have [[c' evs'] V' {}H'] := rbind_ok H'.
have [f Hf {}H] := rbind_ok H; have [f' Hf' {}H'] := rbind_ok H'.
have [R HR {}H] := rbind_ok H; have [R' HR' {}H'] := rbind_ok H'; case: H H' => <- [<-].
have [|k1 l1 Ho|E s1 s2 N] := IH qs R R' HR HR' sz; [by move=> k1 l1 Ho; apply: (Ha k1); right|by apply: Hc; right|].
have [sl al] := Ha k l (or_introl erefl); have Ec := same_com al V V'.
split; rewrite /= ?s1 ?s2 ?E ?Ec // => -[|j] x /=; last by move=> Hj; exact: N.
move=> _; have := Hc k l (or_introl erefl); case: eqP => [E0 [l1 [l2 [o [o' [e1 e2 ek cc]]]]]|_ Es].
  rewrite e1 in V; rewrite e2 in V'.
  apply/negbTE; apply: (f_eval_changed _ nx ek cc V V' Hf Hf'); by rewrite -e1 size_map.
by move: Hf Hf'; rewrite (f_eval_same V V' Es) => -> [->]; rewrite eqxx.
Qed.
End Fixed.

Lemma filter_dup (p : pred (seq rotation)) (os : seq vorc) :
  map fst [seq z <- [seq (o, o) | o <- os] | p (o_rots z.1)] = [seq o <- os | p (o_rots o)] /\
  map snd [seq z <- [seq (o, o) | o <- os] | p (o_rots z.1)] = [seq o <- os | p (o_rots o)].
Proof. by elim: os => //= o os [IH1 IH2]; case: (p _) => /=; rewrite IH1 IH2. Qed.

(** Two lists of claims that differ in one evaluation are not both accepted with the same proof. *)
Lemma single_claim (pvk : pc_vk PC) ds d (os1 os2 : seq vorc) o o' r xi (fs : fs_state FS) pf :
  let os := os1 ++ o :: os2 in
  fenv_ok env -> one_value pvk -> domain_new env ds = Some d -> one_claim_changed (dgen d) xi r o o' ->
  (fs_rand fs).1 != 0 -> (fs_rand (fs_rand fs).2).1 != 0 ->
  (size (undup (map (@o_rots _) os)) <= size (mp_q_evals pf))%N ->
  mo_verify env pvk pf os xi ds fs = Ok tt -> mo_verify env pvk pf (os1 ++ o' :: os2) xi ds fs = Ok tt -> False.
Proof.
move=> os eok ov Ed cc; have [Er Ec _ _ _] := cc; have [_ _ dok _] := domain_new_spec eok Ed.
pose dup (l : seq vorc) := [seq (a, a) | a <- l].
pose zs := dup os1 ++ (o, o') :: dup os2.
have f1 : map fst zs = os by rewrite /zs map_cat /= /dup -!map_comp !map_id.
have f2 : map snd zs = os1 ++ o' :: os2 by rewrite /zs map_cat /= /dup -!map_comp !map_id.
have zE : size zs = size os by rewrite -f1 size_map.
rewrite -f2 -f1 /mo_verify Ed !rbind_Ok !size_map.
case: (fs_rand fs) => [x1 fs1]; case E2: (fs_rand fs1) => [x2 fs2]; rewrite [(x1, fs1).1]/= [(x2, fs2).1]/= => n1 n2 sq.
case: (fs_rand (fs_absorb fs2 _)) => [x3 fs3]; case: (fs_rand (fs_absorb fs3 _)) => [x4 fs4].
have dupP z (l : seq vorc) : occurs z (dup l) -> z.1 = z.2 by elim: l => //= a l IH [->|/IH].
have zsP z : occurs z zs -> z = (o, o') \/ z.1 = z.2.
  by rewrite /zs => /ProofEach.occurs_cat [/dupP|[|/dupP]]; [right|left|right].
set T := opening_sets (fun z : vorc * vorc => o_rots z.1) zs.
have E1 : opening_sets (fun o : vorc => o_rots o) (map fst zs) = [seq (kl.1, map fst kl.2) | kl <- T] by rewrite opening_sets_map.
have E3 : opening_sets (fun o : vorc => o_rots o) (map snd zs) = [seq (kl.1, map snd kl.2) | kl <- T].
  by rewrite opening_sets_map; congr map; apply: opening_sets_eq => z /zsP [->|->].
rewrite E1 E3 => H H'.
have [I HI {}H] := rbind_ok H; have [I' HI' {}H'] := rbind_ok H'.
have [b Hb {}H] := rbind_ok H; have [b' Hb' {}H'] := rbind_ok H'.
case: b Hb H => // Hb _; case: b' Hb' H' => // Hb' _.
have mapK : map (fun z : vorc * vorc => o_rots z.1) zs = map (@o_rots _) os by rewrite -f1 -map_comp.
have sT : size T = size (undup (map (@o_rots _) os)) by rewrite /T size_opening_sets mapK.
have P1 k l : occurs (k, l) T -> (size l <= size zs)%N /\ aligned l.
  move=> Ho; split; first exact: (opening_set_size Ho).
  by move=> z Hz; have [_ /zsP[->|->]] := opening_sets_mem Ho Hz; rewrite ?Ec.
have P2 k l : occurs (k, l) T -> if k == o_rots o then one_changed d xi r k l else forall z, occurs z l -> z.1 = z.2.
  move=> Ho; have El := opening_setsE Ho; case: eqP => [Ek|nk z Hz].
    have [g1 g2] := filter_dup (pred1 k) os1; have [h1 h2] := filter_dup (pred1 k) os2.
    exists [seq a <- os1 | o_rots a == k], [seq a <- os2 | o_rots a == k], o, o'; rewrite Ek; split=> //; rewrite El /zs filter_cat map_cat /= Ek eqxx /=.
      by rewrite -Ek /dup g1 h1.
    by rewrite -Ek /dup g2 h2.
  by have [E' /zsP[Ez|//]] := opening_sets_mem Ho Hz; case: nk; rewrite -E' Ez.
have sq' := sq; rewrite f1 in sq'.
have [EI s1 s2 N] := zip_pair dok n1 HI HI' (leq_trans (eq_leq sT) sq') P1 P2.
pose C (J : seq (pc_com PC * F * F)) := foldl (fun c (t : pc_com PC * F * F * F) => pc_add c (pc_scale t.1.1.1 t.2)) (mp_f_commit pf) (zip J (powers (size (mp_q_evals pf)) x4 x4)).
pose V (J : seq (pc_com PC * F * F)) e := foldl (fun e (t : pc_com PC * F * F * F) => e + t.2 * t.1.2) e (zip J (powers (size (mp_q_evals pf)) x4 x4)).
pose W (J : seq (pc_com PC * F * F)) := foldl (fun e (t : pc_com PC * F * F * F) => e + t.2 * t.1.1.2) 0 (zip J (powers (size zs) 1 x2)).
have fin J e c : foldl (fun ce (ix : pc_com PC * F * F * F) => (pc_add ce.1 (pc_scale ix.1.1.1 ix.2), ce.2 + ix.2 * ix.1.2)) (c, e) (zip J (powers (size (mp_q_evals pf)) x4 x4)) =
   (foldl (fun c (t : pc_com PC * F * F * F) => pc_add c (pc_scale t.1.1.1 t.2)) c (zip J (powers (size (mp_q_evals pf)) x4 x4)), V J e).
  exact: (@foldl_pair _ _ _ (fun c (t : pc_com PC * F * F * F) => pc_add c (pc_scale t.1.1.1 t.2)) (fun e (t : pc_com PC * F * F * F) => e + t.2 * t.1.2)).
rewrite !fin /= in Hb Hb'.
have EC : C I = C I'.
  have G J : C J = foldl (fun c (t : pc_com PC * F * F) => pc_add c (pc_scale t.1.1 t.2)) (mp_f_commit pf)
      (zip [seq (t.1.1, t.2) | t <- J] (powers (size (mp_q_evals pf)) x4 x4)) by rewrite zip_mapl foldl_mapl.
  by rewrite !G EI.
have EV e : V I e = V I' e.
  have G J : V J e = foldl (fun c (t : pc_com PC * F * F) => c + t.2 * t.1.2) e
      (zip [seq (t.1.1, t.2) | t <- J] (powers (size (mp_q_evals pf)) x4 x4)) by rewrite zip_mapl foldl_mapl.
  by rewrite !G EI.
have VA J e : V J e = e + V J 0.
  rewrite /V; elim: (zip _ _) e => [|t l IH] e /=; first by rewrite addr0.
  by rewrite IH [in RHS]IH add0r addrA.
rewrite -/(C I) -/(C I') -/(W I) -/(W I') -EC in Hb Hb'.
have /eqP := ov _ _ _ _ _ Hb Hb'.
rewrite -EV VA [V I (W I')]VA (inj_eq (addIr _)) => /eqP EW.
have x0 : pc_com PC * F * F := (mp_f_commit pf, 0, 0).
have WE J : size J = size T -> W J = \sum_(i < size T) (1 * x2 ^+ i) * (nth x0 J i).1.2.
  move=> sJ; rewrite /W.
  have -> : forall a, foldl (fun e (t : pc_com PC * F * F * F) => e + t.2 * t.1.1.2) a (zip J (powers (size zs) 1 x2)) =
     a + \sum_(t <- zip J (powers (size zs) 1 x2)) t.2 * t.1.1.2.
    by elim: (zip _ _) => [|t l IH] a /=; rewrite ?big_nil ?addr0 // big_cons IH addrA.
  rewrite add0r (@big_zip_powers F F _ (fun (t : pc_com PC * F * F) p => p * t.1.2) _ _ _ _ x0) ?sJ //.
  by rewrite sT (leq_trans (size_undup _)) // size_map zE.
have [j Hj Ej] : exists2 j, (j < size T)%N & nth [::] (map fst T) j = o_rots o.
  have [_ K] := opening_sets_keys (fun z : vorc * vorc => o_rots z.1) zs.
  have M : o_rots o \in map fst T by rewrite K mapK /os map_cat mem_cat inE eqxx orbT.
  by exists (seq.index (o_rots o) (map fst T)); rewrite ?nth_index // -(size_map fst) index_mem.
have [U _] := opening_sets_keys (fun z : vorc * vorc => o_rots z.1) zs.
move/eqP: EW; rewrite !WE // -subr_eq0 -sumrB (bigD1 (Ordinal Hj)) //= big1 ?addr0 => [|i /eqP ni].
  by rewrite -mulrBr mul1r mulf_eq0 expf_eq0 (negbTE n2) andbF /= subr_eq0 N // Ej eqxx.
apply/eqP; rewrite subr_eq0; apply/eqP; congr (_ * _); apply/eqP; rewrite N // -Ej nth_uniq ?size_map //.
by apply/eqP => E; apply: ni; apply: val_inj.
Qed.
End Single.
