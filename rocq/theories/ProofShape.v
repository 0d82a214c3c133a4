(** Lemmas on the number of entries of query sets. *)
From mathcomp Require Import all_ssreflect all_algebra.
From mathcomp Require Import zify.
From Coq Require Import String Ascii NArith.
From Verif Require Import Base ModelPoly ModelVO ModelOracle ModelPC ModelPermutation ModelLookup ModelIndexer
  ModelMultiproof ModelProtocol Spec SpecSound SpecShape ProofBase ProofOracle ProofEach.

Set Implicit Arguments.
Unset Strict Implicit.
Unset Printing Implicit Defensive.

Import GRing.Theory.

(** ** Strings *)
Lemma str_lt_irr : irreflexive str_lt.
Proof.
move=> a; rewrite /str_lt /String.ltb; elim: a => [|c a IH] //=.
by rewrite /Ascii.compare N.compare_refl.
Qed.
Lemma str_lt_trans : transitive str_lt.
Proof.
rewrite /str_lt /String.ltb => b a c; elim: a b c => [|x a IH] [|y b] [|z c] //=.
rewrite /Ascii.compare.
case: (N.compare_spec (N_of_ascii x) (N_of_ascii y)) => [->|xy|//]; first by case: (N.compare _ _) => //; exact: IH.
case: (N.compare_spec (N_of_ascii y) (N_of_ascii z)) => [<-|yz|//] _ _; first by move: xy => /N.compare_lt_iff ->.
by rewrite (proj2 (N.compare_lt_iff _ _)) //; apply: N.lt_trans yz.
Qed.
Lemma str_lt_total a b : a != b -> ~~ str_lt a b -> str_lt b a.
Proof.
rewrite /str_lt /String.ltb => ne; rewrite (String.compare_antisym b a).
case E: (String.compare a b) => //= _.
by move/String.compare_eq_iff: E ne => ->; rewrite eqxx.
Qed.

Lemma append_suffix (s a b : string) : append a s = append b s -> a = b.
Proof.
move=> E; have : String.length a = String.length b.
  have := congr1 String.length E.
  have L x y : String.length (append x y) = (String.length x + String.length y)%nat by elim: x => //= _ x ->.
  by rewrite !L; lia.
elim: a b E => [|c a IH] [|c' b] //= [-> E] [H]; by rewrite (IH _ E H).
Qed.
Lemma show_nat_head n s : show_nat n <> String "-"%char s.
Proof. by rewrite /show_nat; case: (Nat.to_uint n). Qed.

(** ** Sorted insertion *)
Section Sinsert.
Variables (A : eqType) (lt : rel A).
Hypothesis lt_irr : irreflexive lt.
Hypothesis lt_trans : transitive lt.
Hypothesis lt_total : forall a b, a != b -> ~~ lt a b -> lt b a.
Lemma sinsert_path x s a : path lt a s -> lt a x -> path lt a (sinsert lt x s).
Proof.
elim: s a => [|y s IH] a /=; first by move=> _ ->.
move=> /andP[ay p] ax; case: eqP => [_|/eqP ne]; first by rewrite /= ay.
case E: (lt x y); first by rewrite /= ax E.
by rewrite /= ay IH // lt_total // E.
Qed.
Lemma sinsert_sorted x s : sorted lt s -> sorted lt (sinsert lt x s).
Proof.
case: s => [|y s] //= p; case: eqP => [_|/eqP ne] //.
by case E: (lt x y); [rewrite /= E|rewrite /= sinsert_path // lt_total // E].
Qed.
Lemma inserted_all (xs s : seq A) : sorted lt s ->
  sorted lt (foldl (fun s x => sinsert lt x s) s xs) /\ foldl (fun s x => sinsert lt x s) s xs =i s ++ xs.
Proof.
elim: xs s => [|x xs IH] s Hs /=; first by rewrite cats0.
have [H1 H2] := IH _ (sinsert_sorted x Hs); split=> // y.
by rewrite H2 !mem_cat inE mem_sinsert; case: (y == x); case: (y \in s); case: (y \in xs).
Qed.
Lemma size_inserted (xs : seq A) : size (foldl (fun s x => sinsert lt x s) [::] xs) = size (undup xs).
Proof.
have [Hs Hm] := @inserted_all xs [::] isT; apply/eqP; rewrite -uniq_size_uniq ?undup_uniq //.
  exact: sorted_uniq lt_trans lt_irr _ Hs.
by move=> y; rewrite mem_undup Hm.
Qed.
End Sinsert.

Definition key_lt : rel (label * label) := fun a b => str_lt a.1 b.1 || ((a.1 == b.1) && str_lt a.2 b.2).
Lemma key_lt_irr : irreflexive key_lt.
Proof. by move=> a; rewrite /key_lt !str_lt_irr andbF. Qed.
Lemma key_lt_trans : transitive key_lt.
Proof.
move=> b a c /orP[ab|/andP[/eqP ab ab']] /orP[bc|/andP[/eqP bc bc']]; rewrite /key_lt.
- by rewrite (str_lt_trans ab bc).
- by rewrite -bc ab.
- by rewrite ab bc.
- by rewrite ab bc eqxx (str_lt_trans ab' bc') orbT.
Qed.
Lemma key_lt_total a b : a != b -> ~~ key_lt a b -> key_lt b a.
Proof.
case: a b => a a' [b b']; rewrite /key_lt /= xpair_eqE; case: (eqVneq a b) => [->|ne] /=.
  by rewrite str_lt_irr; exact: str_lt_total.
by move=> _; rewrite !orbF => /(str_lt_total ne) ->.
Qed.

Section QS.
Variable F : fieldType.
Implicit Types (d : domain F) (x : F).
Definition qkey (e : qentry F) : label * label := (e.1, e.2.1).
Lemma qentry_ltE (a b : qentry F) : qentry_lt a b = key_lt (qkey a) (qkey b).
Proof. by []. Qed.
Definition keyed (s : seq (qentry F)) : Prop := forall a b, a \in s -> b \in s -> qkey a = qkey b -> a = b.
Lemma sinsert_keys (e : qentry F) s : keyed (e :: s) ->
  map qkey (sinsert (@qentry_lt F) e s) = sinsert key_lt (qkey e) (map qkey s).
Proof.
elim: s => [|a s IH] //= k; have -> : (qkey e == qkey a) = (e == a).
  by apply/eqP/eqP => [H|->] //; apply: k => //; rewrite ?mem_head // !inE eqxx orbT.
case: eqP => // _; rewrite qentry_ltE; case: (key_lt _ _) => //=; congr (_ :: _); apply: IH.
by move=> x y Hx Hy; apply: k; rewrite !inE in Hx Hy *; [case/orP: Hx|case/orP: Hy] => ->; rewrite ?orbT.
Qed.
Lemma fold_keys es s : keyed (s ++ es) ->
  map qkey (foldl (fun s e => sinsert (@qentry_lt F) e s) s es) = foldl (fun s e => sinsert key_lt e s) (map qkey s) (map qkey es).
Proof.
elim: es s => [|e es IH] s k //=; rewrite IH ?sinsert_keys //.
  by move=> a b Ha Hb; apply: k; rewrite !(inE, mem_cat) in Ha Hb *; [case/orP: Ha|case/orP: Hb] => ->; rewrite ?orbT.
by move=> a b; rewrite !mem_cat !mem_sinsert => Ha Hb; apply: k; rewrite !(inE, mem_cat);
  [case/orP: Ha => [/orP[]|]|case/orP: Hb => [/orP[]|]] => ->; rewrite ?orbT.
Qed.

Definition rlabel (r : rotation) (l : label) : label := (pinfo (0%R : F) r l 0%R).1.
Lemma rlabelE w r l x : (pinfo w r l x : label * F).1 = rlabel r l. Proof. by []. Qed.
Lemma rlabel_inj r r' : rlabel r xi_label = rlabel r' xi_label -> unsigned_zero r = unsigned_zero r'.
Proof.
rewrite /rlabel /pinfo /unsigned_zero /=; case: r r' => [a s] [b t] /=.
case: eqP => [_|a0]; case: eqP => [_|b0] //; try by case: t. 
  by case: s.
case: s; case: t; case.
- by move=> /append_suffix /show_nat_inj ->.
- by have := @show_nat_head b; case: (show_nat b) => [|c s] H //= [E _]; case: (H s); rewrite -E.
- by have := @show_nat_head a; case: (show_nat a) => [|c s] H //= [E _]; case: (H s); rewrite E.
- by move=> /append_suffix /show_nat_inj ->.
Qed.
Lemma pinfo_unsigned w r l x : pinfo w (unsigned_zero r) l x = pinfo w r l x :> label * F.
Proof.
rewrite /pinfo /unsigned_zero /rot_point; case: r => [[|a] s] //=; by rewrite !expr0 invr1 !mulr1; case: s.
Qed.
Lemma oracle_query_setE P (o : oracle P) x d acc : domain_ok d -> (forall r, r \in o_rots o -> (r.1 < dsize d)%nat) ->
  oracle_query_set o xi_label x (elements d) acc =
  Ok (foldl (fun s e => sinsert (@qentry_lt F) e s) acc [seq (o_label o, pinfo (dgen d) r xi_label x) | r <- o_rots o]).
Proof.
move=> dok; rewrite /oracle_query_set; elim: (o_rots o) acc => [|r rs IH] acc H //=.
rewrite point_info_ok ?H ?mem_head //=; apply: IH => r' Hr'; apply: H; by rewrite inE Hr' orbT.
Qed.
Lemma get_query_setE P (os : seq (oracle P)) x d : domain_ok d -> rots_below os (dsize d) ->
  get_query_set os xi_label x (elements d) = Ok (foldl (fun s e => sinsert (@qentry_lt F) e s) [::] (query_entries os xi_label x d)).
Proof.
move=> dok; rewrite /get_query_set; move: [::]; elim: os => [|o os IH] acc H //=.
rewrite oracle_query_setE //=; last exact: (H 0%nat o).
rewrite IH ?/query_entries /= ?foldl_cat //; by move=> j o' Ho'; apply: (H j.+1).
Qed.
Lemma entries_keyed P (os : seq (oracle P)) x d : keyed (query_entries os xi_label x d).
Proof.
move=> a b /query_entries_inv[j [o [r [_ _ ->]]]] /query_entries_inv[j' [o' [r' [_ _ ->]]]].
rewrite /qkey /=; case=> -> /rlabel_inj E; by rewrite -(pinfo_unsigned _ r) E pinfo_unsigned.
Qed.
Lemma entry_keys P (os : seq (oracle P)) x d : uniq (map (@o_label _) os) ->
  size (undup (map qkey (query_entries os xi_label x d))) = openings (map (@o_rots _) os).
Proof.
rewrite /openings /query_entries; elim: os => [|o os IH] //= /andP[no u].
rewrite map_cat undup_cat size_cat {}IH //; congr (_ + _)%nat.
have -> : [seq y <- undup (map qkey [seq (o_label o, pinfo (dgen d) r xi_label x) | r <- o_rots o])
  | y \notin map qkey (flatten [seq [seq (o_label o0, pinfo (dgen d) r xi_label x) | r <- o_rots o0] | o0 <- os])]
  = undup (map qkey [seq (o_label o, pinfo (dgen d) r xi_label x) | r <- o_rots o]).
  apply/all_filterP/allP => y; rewrite mem_undup -map_comp => /mapP[r _ ->].
  apply/negP => /mapP[e /query_entries_label He [E _]].
  by move/negP: no; apply; rewrite E.
rewrite -map_comp (eq_map (f2 := fun r => (o_label o, rlabel (unsigned_zero r) xi_label))); last first.
  by move=> r; rewrite /= /qkey /= -[in RHS](rlabelE (dgen d) _ _ x) pinfo_unsigned.
rewrite (map_comp (fun r => (o_label o, rlabel r xi_label)) unsigned_zero).
rewrite -[RHS](size_map (fun r => (o_label o, rlabel r xi_label))).
have inj : {in map unsigned_zero (o_rots o) &, injective (fun r => (o_label o, rlabel r xi_label))}.
  have idem r : unsigned_zero (unsigned_zero r) = unsigned_zero r by rewrite /unsigned_zero; case E: (r.1 == 0%nat); rewrite //= E.
  by move=> r r' /mapP[r1 _ ->] /mapP[r2 _ ->] [/rlabel_inj]; rewrite !idem.
congr size; elim: (map _ _) inj => [|r rs IHr] //= inj.
have {}IHr : undup [seq (o_label o, rlabel i xi_label) | i <- rs] = [seq (o_label o, rlabel i xi_label) | i <- undup rs].
  by apply: IHr => a b Ha Hb; apply: inj; rewrite inE (Ha, Hb) orbT.
case E: (r \in rs); first by rewrite (map_f (fun r => (o_label o, rlabel r xi_label)) E).
case E': (_ \in _); last by rewrite /= IHr.
move/mapP: E' => [r' Hr' H].
have : r = r' by apply: inj => //; rewrite inE ?eqxx // Hr' orbT.
by move=> H'; rewrite H' Hr' in E.
Qed.
Lemma query_set_size P (os : seq (oracle P)) x d : domain_ok d -> rots_below os (dsize d) -> uniq (map (@o_label _) os) ->
  exists2 qs, get_query_set os xi_label x (elements d) = Ok qs & size qs = openings (map (@o_rots _) os).
Proof.
move=> dok rb u; rewrite get_query_setE //; eexists; first by [].
rewrite -(size_map qkey) fold_keys; last by rewrite cat0s; exact: entries_keyed.
by rewrite (size_inserted key_lt_irr key_lt_trans key_lt_total) entry_keys.
Qed.
End QS.
