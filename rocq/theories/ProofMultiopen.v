(** The multi-opening argument: helpers, completeness. *)
From mathcomp Require Import all_ssreflect all_algebra zify.
From Coq Require Import String Lia.
From Verif Require Import Base ModelPoly ModelVO ModelOracle ModelPC ModelMultiproof Spec SpecProtocol SpecMultiopen
  ProofBase ProofPoly ProofDomain ProofVO ProofOracle ProofLookup.

Set Implicit Arguments.
Unset Strict Implicit.
Unset Printing Implicit Defensive.

Import GRing.Theory.
Local Open Scope ring_scope.

Section Lagrange.
Variable F : fieldType.
Implicit Types (x : F) (s pts : seq F).

(** The basis polynomial of [x] among [s]. *)
Definition lag s x : {poly F} := \prod_(e <- s | e != x) ((x - e)^-1 *: ('X - e%:P)).
Lemma lag_at s x y : y \in s -> (lag s x).[y] = (x == y)%:R.
Proof.
move=> ys; rewrite /lag horner_prod; case: eqP => [->|/eqP ne].
  apply: big1_seq => e /andP[ne _]; rewrite hornerZ hornerXsubC mulVf // subr_eq0 eq_sym //.
apply/eqP; rewrite prodf_seq_eq0; apply/hasP; exists y => //.
by rewrite eq_sym ne hornerZ hornerXsubC subrr mulr0 eqxx.
Qed.
Lemma size_lag s x : (size (lag s x) <= (count (fun e => e != x) s).+1)%N.
Proof.
rewrite /lag; elim: s => [|e s IH]; first by rewrite big_nil size_poly1.
rewrite big_cons /=; case: eqP => //= _; apply: leq_trans (size_mul_leq _ _) _.
have : (size ((x - e)^-1 *: ('X - e%:P))%R <= 2)%N by apply: leq_trans (size_scale_leq _ _) _; rewrite size_XsubC.
by move=> H; rewrite -subn1 leq_subLR; apply: leq_trans (leq_add H IH) _.
Qed.

Lemma lagrange_one_ok x s acc : x \notin s -> exists2 l,
  rfoldM (fun l_i elem => let nom := ptrim [:: - elem; 1] in inv <- finv (x - elem) ;; Ok (pmul l_i (pscale inv nom))) acc s = Ok l
  & Poly l = Poly acc * \prod_(e <- s) ((x - e)^-1 *: ('X - e%:P)).
Proof.
elim: s acc => [|e s IH] acc; first by move=> _; exists acc; rewrite ?big_nil ?mulr1.
rewrite inE negb_or => /andP[ne Hs] /=; rewrite /finv subr_eq0 (negbTE ne) /=.
have [l -> El] := IH (pmul acc (pscale (x - e)^-1 (ptrim [:: - e; 1]))) Hs; exists l => //.
by rewrite El big_cons Poly_mul Poly_scale Poly_trim Poly_XsubC mulrA.
Qed.
Lemma lagrange_one_panic x s acc : x \in s ->
  rfoldM (fun l_i elem => let nom := ptrim [:: - elem; 1] in inv <- finv (x - elem) ;; Ok (pmul l_i (pscale inv nom))) acc s = Panic PUnwrap.
Proof.
elim: s acc => //= e s IH acc; rewrite inE /finv subr_eq0; case: eqP => //= _; exact: IH.
Qed.

Lemma lagrange_from_ok before pts : uniq (before ++ pts) -> exists2 ls,
  lagrange_basis_from before pts = Ok ls & map (@Poly F) ls = [seq lag (before ++ pts) x | x <- pts].
Proof.
elim: pts before => [|x pts IH] before U; first by exists [::].
have nx : x \notin before ++ pts.
  by move: U; rewrite uniq_catC /= uniq_catC mem_cat orbC -mem_cat => /andP[].
rewrite /= /lagrange_basis_one; have [l -> El] := lagrange_one_ok (ptrim [:: 1]) nx.
have := IH (rcons before x); rewrite cat_rcons => /(_ U) [ls -> Els] /=.
exists (l :: ls) => //=; rewrite Els El Poly_trim Poly_seq1 polyC1 mul1r; congr (_ :: _).
have other t : x \notin t -> \prod_(e <- t | e != x) ((x - e)^-1 *: ('X - e%:P)) = \prod_(e <- t) ((x - e)^-1 *: ('X - e%:P)).
  move=> nt; rewrite big_seq_cond [RHS]big_seq_cond; apply: eq_bigl => e; case He: (e \in t) => //=.
  by apply: contraTneq He => ->.
move: nx; rewrite mem_cat negb_or /lag => /andP[nb np].
by rewrite !big_cat big_cons eqxx /= !other.
Qed.
Lemma lagrange_from_panic (before pts : seq F) : ~~ (uniq pts && ~~ has (mem before) pts) ->
  lagrange_basis_from before pts = Panic PUnwrap.
Proof.
elim: pts before => [|x pts IH] before //= U; rewrite /lagrange_basis_one.
case nx : (x \in before ++ pts); first by rewrite lagrange_one_panic.
have [l -> _] := lagrange_one_ok (ptrim [:: 1]) (negbT nx); rewrite /= IH //.
move: nx U; rewrite mem_cat => /negbT; rewrite negb_or => /andP[nb np]; rewrite np /= (negbTE nb) /=.
apply: contra => /andP[-> /=]; apply: contra => /hasP [y yp yb]; apply/hasP; exists y => //=.
by rewrite mem_rcons inE; apply/orP; right.
Qed.

Lemma Poly_vanish pts : Poly (construct_vanishing pts) = \prod_(e <- pts) ('X - e%:P).
Proof.
have H (p : lpoly F) : Poly (foldl (fun v e => pmul v (ptrim [:: - e; 1])) p pts) = Poly p * \prod_(e <- pts) ('X - e%:P).
  elim: pts p => [|e pts IH] p /=; first by rewrite big_nil mulr1.
  by rewrite IH big_cons Poly_mul Poly_trim Poly_XsubC mulrA.
by rewrite /construct_vanishing H Poly_trim Poly_seq1 polyC1 mul1r.
Qed.
Lemma vanish_at pts x : peval (construct_vanishing pts) x = \prod_(e <- pts) (x - e).
Proof. by rewrite pevalE Poly_vanish horner_prod; apply: eq_bigr => e _; rewrite hornerXsubC. Qed.
Lemma vanish_eq0 pts x : (peval (construct_vanishing pts) x == 0) = (x \in pts).
Proof.
rewrite vanish_at prodf_seq_eq0; apply/hasP/idP => [[e He]|Hx]; first by rewrite subr_eq0 => /eqP ->.
by exists x; rewrite ?subrr ?eqxx.
Qed.
End Lagrange.

(** ** Opening sets *)
Section Sets.
Variables (V W : Type).
Lemma oset_add_map (g : V -> W) (k : seq rotation) (v : V) m :
  oset_add k (g v) [seq (kl.1, map g kl.2) | kl <- m] = [seq (kl.1, map g kl.2) | kl <- oset_add k v m].
Proof.
elim: m => //= -[k' vs] m IH /=; case: ifP => _; first by rewrite /= map_rcons.
by case: ifP => _ //=; rewrite IH.
Qed.
Lemma opening_sets_map (g : V -> W) (key : W -> seq rotation) s :
  opening_sets key (map g s) = [seq (kl.1, map g kl.2) | kl <- opening_sets (fun v => key (g v)) s].
Proof.
rewrite /opening_sets -[X in foldl _ X _]/[seq (kl.1, map g kl.2) | kl <- [::]].
elim: s [::] => //= v s IH m; by rewrite oset_add_map IH.
Qed.
Variable key : V -> seq rotation.
Lemma oset_add_mem k (v : V) m k' l : occurs (k', l) (oset_add k v m) ->
  (exists2 l0, (k' = k /\ l = rcons l0 v) & l0 = [::] \/ occurs (k, l0) m) \/ occurs (k', l) m.
Proof.
elim: m => [|[k1 l1] m IH] /=; first by case=> // -[-> ->]; left; exists [::] => //; left.
case: eqP => [->|_] /=.
  case=> [[-> ->]|H]; [left; exists l1 => //; right; by left|by right; right].
case: ifP => _ /=.
  by case=> [[-> ->]|H]; [left; exists [::] => //; left|right].
case=> [->|/IH]; first by right; left.
case=> [[l0 E [H|H]]|H]; [left; exists l0 => //; by left|left; exists l0 => //; by right; right|by right; right].
Qed.
Lemma occurs_rcons (A : Type) (x y : A) s : occurs x (rcons s y) <-> occurs x s \/ x = y.
Proof. elim: s => [|z s IH] /=; first tauto. rewrite IH; tauto. Qed.
Lemma opening_sets_mem s k l v : occurs (k, l) (opening_sets key s) -> occurs v l -> key v = k /\ occurs v s.
Proof.
rewrite /opening_sets; elim/last_ind: s l v => // s x IH l v.
rewrite foldl_rcons => /oset_add_mem [[l0 [Ek El] Hl0]|H] Hv; last first.
  by have [E H'] := IH _ _ H Hv; split=> //; apply/occurs_rcons; left.
move: Hv; rewrite El => /occurs_rcons [Hv|->]; last by split=> //; apply/occurs_rcons; right.
case: Hl0 => [E|H]; first by rewrite E in Hv.
rewrite -Ek in H; have [E H'] := IH _ _ H Hv; split=> //; apply/occurs_rcons; by left.
Qed.
Lemma oset_add_size k (v : V) m : sumn [seq size kl.2 | kl <- oset_add k v m] = (sumn [seq size kl.2 | kl <- m]).+1.
Proof.
elim: m => //= -[k1 l1] m IH /=; case: ifP => _ /=; first by rewrite size_rcons.
by case: ifP => _ //=; rewrite IH addnS.
Qed.
Lemma opening_sets_total s : sumn [seq size kl.2 | kl <- opening_sets key s] = size s.
Proof.
rewrite /opening_sets; elim/last_ind: s => // s x IH.
by rewrite foldl_rcons oset_add_size IH size_rcons.
Qed.
Lemma occurs_sumn (A : Type) (f : A -> nat) x s : occurs x s -> (f x <= sumn (map f s))%N.
Proof. by elim: s => //= y s IH [<-|/IH H]; rewrite ?leq_addr // (leq_trans H) // leq_addl. Qed.
Lemma opening_set_size s k l : occurs (k, l) (opening_sets key s) -> (size l <= size s)%N.
Proof. by move/(occurs_sumn (fun kl : seq rotation * seq V => size kl.2)); rewrite opening_sets_total. Qed.
Lemma opening_sets_nonempty s k l : occurs (k, l) (opening_sets key s) -> (0 < size l)%N.
Proof.
rewrite /opening_sets; elim/last_ind: s l => // s x IH l.
by rewrite foldl_rcons => /oset_add_mem [[l0 [_ ->] _]|/IH //]; rewrite size_rcons.
Qed.
(** The sets are those of the distinct keys. *)
Lemma rot_lt_irr : irreflexive rot_lt.
Proof. by move=> [a b]; rewrite /rot_lt /= ltnn eqxx /=; case: b. Qed.
Lemma rot_lt_trans : transitive rot_lt.
Proof.
move=> [b1 b2] [a1 a2] [c1 c2]; rewrite /rot_lt /= => /orP[H1|/andP[/eqP -> H1]] /orP[H2|/andP[/eqP <- H2]].
- by rewrite (ltn_trans H1 H2).
- by rewrite H1.
- by rewrite H2.
- by move: H1 H2; rewrite eqxx; case: (a2); case: (b2); case: (c2); rewrite ?andbF ?orbT.
Qed.
Lemma rot_lt_total a b : a != b -> ~~ rot_lt a b -> rot_lt b a.
Proof.
case: a b => [a1 a2] [b1 b2]; rewrite /rot_lt xpair_eqE /= negb_or -leqNgt leq_eqVlt eq_sym => ne /andP[/orP[/eqP E|-> //]].
by move: ne; rewrite E eqxx; case: (a2); case: (b2); rewrite ?orbT.
Qed.
Lemma rots_lt_irr : irreflexive rots_lt.
Proof. by elim=> //= a s IH; rewrite rot_lt_irr eqxx. Qed.
Lemma rots_lt_trans : transitive rots_lt.
Proof.
elim=> [|b t IH] [|a s] [|c r] //= /orP[H1|/andP[/eqP -> H1]] /orP[H2|/andP[/eqP <- H2]].
- by rewrite (rot_lt_trans H1 H2).
- by rewrite H1.
- by rewrite H2.
- by rewrite eqxx (IH _ _ H1 H2) orbT.
Qed.
Lemma rots_lt_total s t : s != t -> ~~ rots_lt s t -> rots_lt t s.
Proof.
elim: s t => [|a s IH] [|b t] //= ne; rewrite negb_or => /andP[Hab]; case: eqP => [E|/eqP nab] /=.
  move=> Hst; rewrite E eqxx rot_lt_irr /=; apply: IH Hst; by apply: contraNneq ne => ->; rewrite E.
by move=> _; rewrite rot_lt_total.
Qed.
Lemma oset_add_path k (v : V) m k1 : path rots_lt k1 (map fst m) -> rots_lt k1 k ->
  path rots_lt k1 (map fst (oset_add k v m)) /\ map fst (oset_add k v m) =i k :: map fst m.
Proof.
elim: m k1 => [|[k2 l2] m IH] k1 /=; first by move=> _ ->; split.
move=> /andP[H12 Hp] H1; case: eqP => [->|/eqP ne] /=; first by rewrite H12 Hp; split=> // y; rewrite !inE; case: eqP.
case: ifP => [Hlt|/negbT Hlt] /=; first by rewrite H1 Hlt Hp.
have [-> E] := IH k2 Hp (rots_lt_total ne Hlt); rewrite H12; split=> // y; by rewrite !inE E inE orbCA.
Qed.
Lemma oset_add_keys k (v : V) m : sorted rots_lt (map fst m) ->
  sorted rots_lt (map fst (oset_add k v m)) /\ map fst (oset_add k v m) =i k :: map fst m.
Proof.
case: m => [|[k1 l1] m] //=; case: eqP => [->|/eqP ne] /=; first by move=> ->; split=> // y; rewrite !inE; case: eqP.
move=> Hp; case: ifP => [Hlt|/negbT Hlt] /=; first by rewrite Hlt Hp.
have [-> E] := oset_add_path v Hp (rots_lt_total ne Hlt); split=> // y; by rewrite !inE E inE orbCA.
Qed.
Lemma opening_sets_keys s : uniq (map fst (opening_sets key s)) /\ map fst (opening_sets key s) =i map key s.
Proof.
suff [S E] : sorted rots_lt (map fst (opening_sets key s)) /\ map fst (opening_sets key s) =i map key s.
  by split=> //; apply: sorted_uniq S; [exact: rots_lt_trans|exact: rots_lt_irr].
rewrite /opening_sets; elim/last_ind: s => // s x [S E]; rewrite foldl_rcons.
have [S' E'] := oset_add_keys (key x) x S; split=> // y; by rewrite E' inE E map_rcons mem_rcons inE.
Qed.
Lemma size_opening_sets s : size (opening_sets key s) = size (undup (map key s)).
Proof.
have [U E] := opening_sets_keys s; rewrite -(size_map fst); apply: perm_size; apply: uniq_perm => //.
  exact: undup_uniq. by move=> y; rewrite mem_undup E.
Qed.
Lemma oset_add_cover k (v : V) m k' l x : occurs (k', l) m -> occurs x l -> exists2 l', occurs (k', l') (oset_add k v m) & occurs x l'.
Proof.
elim: m => //= -[k1 l1] m IH /=; case: eqP => _ /=.
  case=> [[-> ->]|H] Hx; [exists (rcons l1 v); [by left|by apply/occurs_rcons; left]|by exists l => //; right].
case: ifP => _ /=; first by move=> H Hx; exists l => //; right.
case=> [[-> ->]|H] Hx; first by exists l1 => //; left.
by have [l' H1 H2] := IH H Hx; exists l' => //; right.
Qed.
Lemma oset_add_new k (v : V) m : exists2 l, occurs (k, l) (oset_add k v m) & occurs v l.
Proof.
elim: m => [|[k1 l1] m [l H1 H2]] /=; first by exists [:: v]; left.
case: eqP => [->|_] /=; first by exists (rcons l1 v); [left|apply/occurs_rcons; right].
by case: ifP => _ /=; [exists [:: v]; left|exists l => //; right].
Qed.
Lemma opening_sets_cover s v : occurs v s -> exists2 l, occurs (key v, l) (opening_sets key s) & occurs v l.
Proof.
rewrite /opening_sets; elim/last_ind: s => // s x IH; rewrite foldl_rcons => /occurs_rcons [/IH [l H1 H2]|->].
  exact: oset_add_cover H1 H2.
exact: oset_add_new.
Qed.
End Sets.

(** ** Sums along powers *)
Section Powers.
Variables (F : fieldType) (V : zmodType) (T : Type).
Lemma big_zip_powers (f : T -> F -> V) (s : seq T) n (b a : F) t0 : (size s <= n)%N ->
  \sum_(t <- zip s (powers n b a)) f t.1 t.2 = \sum_(i < size s) f (nth t0 s i) (b * a ^+ i).
Proof.
elim: s n b => [|x s IH] [|n] b //= Hn; rewrite ?big_nil ?big_ord0 //.
rewrite big_cons big_ord_recl /= expr0 mulr1 IH //; congr (_ + _); apply: eq_bigr => i _.
by rewrite /bump leq0n add1n exprS mulrA.
Qed.
End Powers.

(** ** Batched evaluations *)
Section Batched.
Variables (F : fieldType) (O : Type).
Definition batch (query : O -> F -> res F) (pows : seq F) (os : seq O) (pt : F) : res F :=
  rfoldM (fun e ox => v <- query ox.1 pt ;; Ok (e + ox.2 * v)) 0 (zip os pows).
Lemma batch_ok_acc (query : O -> F -> res F) pows os pt (g : O -> F) a :
  (forall o, occurs o os -> query o pt = Ok (g o)) ->
  rfoldM (fun e ox => v <- query ox.1 pt ;; Ok (e + ox.2 * v)) a (zip os pows) = Ok (a + \sum_(t <- zip os pows) t.2 * g t.1).
Proof.
elim: os pows a => [|o os IH] [|x pows] a //= H; rewrite ?big_nil ?addr0 //.
rewrite H ?rbind_Ok /=; last by left.
by rewrite big_cons addrA IH // => o' Ho'; apply: H; right.
Qed.
Lemma batch_ok (query : O -> F -> res F) pows os pt (g : O -> F) :
  (forall o, occurs o os -> query o pt = Ok (g o)) ->
  batch query pows os pt = Ok (\sum_(t <- zip os pows) t.2 * g t.1).
Proof. by move=> H; rewrite /batch (batch_ok_acc _ _ H) add0r. Qed.
Lemma batch_inv_acc (query : O -> F -> res F) pows os pt v a : (size os <= size pows)%N ->
  rfoldM (fun e ox => v <- query ox.1 pt ;; Ok (e + ox.2 * v)) a (zip os pows) = Ok v ->
  (forall o, occurs o os -> exists y, query o pt = Ok y) /\
  v = a + \sum_(t <- zip os pows) t.2 * ok_or 0 (query t.1 pt).
Proof.
elim: os pows a => [|o os IH] [|x pows] a //= Hs; try by case=> <-; rewrite big_nil addr0.
case E: (query o pt) => [y| |] //= /IH; case=> // H1 H2; split; last by rewrite big_cons E /= addrA H2.
by move=> o' [->|/H1 //]; exists y.
Qed.
Lemma batch_inv (query : O -> F -> res F) pows os pt v : (size os <= size pows)%N -> batch query pows os pt = Ok v ->
  (forall o, occurs o os -> exists y, query o pt = Ok y) /\
  v = \sum_(t <- zip os pows) t.2 * ok_or 0 (query t.1 pt).
Proof. by move=> Hs /(batch_inv_acc Hs); rewrite add0r. Qed.

(** A successful run: one distinct point per rotation, with the batched value. *)
Lemma batched_inv (query : O -> F -> res F) dup omegas xi pows os rots acc evs :
  (forall r v, dup r <> Ok v) ->
  batched_evals query dup omegas xi pows os rots acc = Ok evs ->
  exists pvs, [/\ evs = acc ++ pvs, rmapM (fun r => compute_evaluation_point r xi omegas) rots = Ok (map fst pvs),
    uniq (map fst pvs) /\ (forall p, p \in map fst pvs -> p \notin map fst acc) &
    forall i, (i < size pvs)%N -> batch query pows os (nth (0, 0) pvs i).1 = Ok (nth (0, 0) pvs i).2].
Proof.
move=> Hd; elim: rots acc => [|r rots IH] acc /=; first by case=> <-; exists [::]; rewrite cats0.
case E: (compute_evaluation_point _ _ _) => [pt| |] //=; rewrite -/(batch query pows os pt).
case B: (batch _ _ _ _) => [v| |] //=; case: ifP => [_ /Hd //|/negbT npt /IH [pvs [-> -> [U N] Hv]]].
exists ((pt, v) :: pvs); rewrite /= cat_rcons; split=> //.
- split.
    by rewrite U andbT; apply/negP => /N; rewrite map_rcons mem_rcons inE eqxx.
  move=> p; rewrite inE => /orP[/eqP -> //|/N]; by rewrite map_rcons mem_rcons inE negb_or => /andP[].
- by case=> [|i] // /Hv.
Qed.
Lemma batched_intro (query : O -> F -> res F) dup omegas xi pows os rots acc pvs :
  rmapM (fun r => compute_evaluation_point r xi omegas) rots = Ok (map fst pvs) ->
  uniq (map fst pvs) -> (forall p, p \in map fst pvs -> p \notin map fst acc) ->
  (forall i, (i < size pvs)%N -> batch query pows os (nth (0, 0) pvs i).1 = Ok (nth (0, 0) pvs i).2) ->
  batched_evals query dup omegas xi pows os rots acc = Ok (acc ++ pvs).
Proof.
elim: rots pvs acc => [|r rots IH] [|[p v] pvs] acc //=; rewrite ?cats0 //.
  by case: compute_evaluation_point => //= ?; case: rmapM.
case E: (compute_evaluation_point _ _ _) => [pt| |] //=.
case R: (rmapM _ _) => [ps| |] //= -[<- Eps] /andP[npt U] N Hv; rewrite -/(batch query pows os pt).
have := Hv 0%N isT => /= ->; rewrite /= (negbTE (N pt _)) ?inE ?eqxx //.
rewrite -cat_rcons; apply: IH => //; [by rewrite -Eps| |by move=> i Hi; exact: (Hv i.+1)].
move=> q Hq; rewrite map_rcons mem_rcons inE negb_or N ?inE ?Hq ?orbT // andbT.
by rewrite /=; apply: contraNneq npt => <-.
Qed.
End Batched.

(** ** Interpolation *)
Section Interp.
Variable F : fieldType.
Implicit Types (evs : seq (F * F)).
(** The polynomial through some points. *)
Definition interp evs : {poly F} := \sum_(t <- evs) t.2 *: lag (map fst evs) t.1.
Definition zpoly (pts : seq F) : {poly F} := \prod_(e <- pts) ('X - e%:P).
Lemma uniq_fst_fun evs p v v' : uniq (map fst evs) -> (p, v) \in evs -> (p, v') \in evs -> v = v'.
Proof.
have aux (q w : F) (s : seq (F * F)) : (q, w) \in s -> q \in map fst s by move=> H; apply/mapP; exists (q, w).
elim: evs => //= -[q w] evs IH /andP[nq U]; rewrite !inE !xpair_eqE => /orP[/andP[/eqP -> /eqP ->]|H1] /orP[/andP[/eqP E /eqP ->]|H2] //.
- by move: nq; rewrite /= (aux _ _ _ H2).
- by move: nq; rewrite /= -E (aux _ _ _ H1).
- exact: IH.
Qed.
Lemma interp_at evs p v : uniq (map fst evs) -> (p, v) \in evs -> (interp evs).[p] = v.
Proof.
move=> U Hp; rewrite /interp horner_sum (bigD1_seq (p, v)) //=; last exact: map_uniq U.
have pin : p \in map fst evs by apply/mapP; exists (p, v).
rewrite hornerZ lag_at // eqxx mulr1 big1_seq ?addr0 // => -[p' v'] /andP[ne H'] /=.
rewrite hornerZ lag_at //; case: eqP => [E|]; last by rewrite mulr0.
by move: ne; rewrite E in H' *; rewrite (uniq_fst_fun U Hp H') eqxx.
Qed.
Lemma size_interp evs : uniq (map fst evs) -> (size (interp evs) <= size evs)%N.
Proof.
move=> U; rewrite /interp; apply: leq_trans (size_sum _ _ _) _; apply/bigmax_leqP_seq => -[p v] Hp _ /=.
apply: leq_trans (size_scale_leq _ _) _; apply: leq_trans (size_lag _ _) _.
have pin : p \in map fst evs by apply/mapP; exists (p, v).
have := count_predC (pred1 p) (map fst evs); rewrite count_uniq_mem // pin size_map add1n => <-.
by rewrite ltnS; apply: eq_leq; apply: eq_count.
Qed.
Lemma size_zpoly pts : size (zpoly pts) = (size pts).+1.
Proof. by rewrite /zpoly size_prod_XsubC. Qed.
Lemma zpoly_at pts x : (zpoly pts).[x] = \prod_(e <- pts) (x - e).
Proof. by rewrite /zpoly -Poly_vanish -pevalE vanish_at. Qed.
Lemma zpoly_eq0 pts x : ((zpoly pts).[x] == 0) = (x \in pts).
Proof. by rewrite /zpoly -Poly_vanish -pevalE vanish_eq0. Qed.

Lemma foldl_zip_lag (ls : seq (lpoly F)) (vs xs : seq F) (pts : seq F) r :
  map (@Poly F) ls = [seq lag pts x | x <- xs] -> size vs = size xs ->
  Poly (foldl (fun r lv => padd r (pscale lv.2 lv.1)) r (zip ls vs)) = Poly r + \sum_(t <- zip xs vs) t.2 *: lag pts t.1.
Proof.
elim: ls xs vs r => [|l ls IH] [|x xs] [|v vs] r //=; rewrite ?big_nil ?addr0 //.
move=> [El Els] [Es]; rewrite (IH xs) // big_cons Poly_add Poly_scale El addrA //.
Qed.
Lemma f_eval_ok x3 evs qe : uniq (map fst evs) ->
  mo_f_eval x3 evs qe = if x3 \in map fst evs then Panic PUnwrap
    else Ok ((qe - (interp evs).[x3]) / (zpoly (map fst evs)).[x3]).
Proof.
move=> U; rewrite /mo_f_eval /construct_lagrange_basis; have [ls -> Els] := @lagrange_from_ok _ [::] _ U.
rewrite rbind_Ok /finv vanish_eq0; case: ifP => // _; rewrite rbind_Ok; congr (Ok (_ / _)).
  rewrite pevalE (foldl_zip_lag _ Els) ?size_map //; congr (_ - _); rewrite Poly_nil add0r.
  by rewrite /interp zip_unzip.
by rewrite pevalE Poly_vanish.
Qed.
Lemma quotient_value (q : {poly F}) evs x3 : uniq (map fst evs) -> (forall p v, (p, v) \in evs -> v = q.[p]) ->
  x3 \notin map fst evs -> (q.[x3] - (interp evs).[x3]) / (zpoly (map fst evs)).[x3] = (q %/ zpoly (map fst evs)).[x3].
Proof.
move=> U Hv nx; set z := zpoly _; have zn0 : z.[x3] != 0 by rewrite zpoly_eq0.
have zp0 : z != 0 by apply: contraNneq zn0 => ->; rewrite horner0.
have -> : interp evs = q %% z.
  apply: (@poly_eq_on _ _ _ (map fst evs)) => //; first by rewrite size_map size_interp.
    by rewrite -ltnS -(size_zpoly (map fst evs)) ltn_modp.
  move=> p /mapP [[p' v] Hpv ->] /=; rewrite (interp_at U Hpv) (Hv _ _ Hpv) [in LHS](divp_eq q z) hornerD hornerM.
  have -> : z.[p'] = 0 by apply/eqP; rewrite zpoly_eq0; apply/mapP; exists (p', v).
  by rewrite mulr0 add0r.
by rewrite [in X in X - _](divp_eq q z) hornerD hornerM addrK mulfK.
Qed.
End Interp.

(** ** Completeness *)
Section Complete.
Variables (F : fieldType) (env : fenv F) (PC : pcs F) (FS : fsrng F).
Hypothesis eok : fenv_ok env.
Variables (ck : pc_ck PC) (pvk : pc_vk PC).
Hypothesis law : pcs_correct ck pvk.
Variables (d : domain F) (xi : F).
Notation trip := (poracle F * pc_rand PC * voracle F (pc_com PC))%type.
Let stands (t : trip) := stands_for ck (dgen d) xi t.2 t.1.1 t.1.2.

Lemma commit_fold (T : Type) (pf : T -> lpoly F) (rf : T -> pc_rand PC) (cf : T -> pc_com PC) (xs : seq (T * F)) p r c :
  (forall t, occurs t xs -> pc_commit1 ck (pf t.1) (rf t.1) = Ok (cf t.1)) -> pc_commit1 ck p r = Ok c ->
  pc_commit1 ck (foldl (fun q t => padd q (pscale t.2 (pf t.1))) p xs)
    (foldl (fun r t => pc_add_rand r (pc_scale_rand (rf t.1) t.2)) r xs)
  = Ok (foldl (fun c t => pc_add c (pc_scale (cf t.1) t.2)) c xs).
Proof.
elim: xs p r c => //= t xs IH p r c H Hc; apply: IH; first by move=> t' Ht'; apply: H; right.
apply: (pl_add law) => //; apply: (pl_scale law); apply: H; by left.
Qed.
Lemma occurs_zip_fst (A B : Type) (s : seq A) (u : seq B) t : occurs t (zip s u) -> occurs t.1 s.
Proof. by elim: s u => [|a s IH] [|b u] //= [->|/IH]; [left|right]. Qed.

Lemma zip_mapl (A B D : Type) (f : A -> B) (s : seq A) (u : seq D) : zip (map f s) u = [seq (f t.1, t.2) | t <- zip s u].
Proof. by elim: s u => [|a s IH] [|b u] //=; rewrite IH. Qed.
Lemma foldl_mapl (A B S : Type) (f : S -> B -> S) (g : A -> B) st s : foldl f st (map g s) = foldl (fun st a => f st (g a)) st s.
Proof. by elim: s st => //= a s IH st; rewrite IH. Qed.
Lemma rfoldM_occurs (A S : Type) (f : S -> A -> res S) (g : S -> A -> S) st s :
  (forall st a, occurs a s -> f st a = Ok (g st a)) -> rfoldM f st s = Ok (foldl g st s).
Proof. by elim: s st => //= a s IH st H; rewrite H ?rbind_Ok; [apply: IH => st' a' Ha'; apply: H; right|left]. Qed.
Definition com_of (v : voracle F (pc_com PC)) : pc_com PC := ok_or (pc_zero PC) (get_commitment v).
Lemma rmapM_mem (A B : eqType) (f : A -> res B) s t y : rmapM f s = Ok t -> y \in t -> exists2 x, x \in s & f x = Ok y.
Proof.
elim: s t => [|a s IH] t /=; first by case=> <-.
case E: (f a) => [b| |] //=; case R: (rmapM f s) => [bs| |] //= -[<-]; rewrite inE => /orP[/eqP ->|Hy].
  by exists a => //; rewrite inE eqxx.
by have [x Hx Ex] := IH _ R Hy; exists x => //; rewrite inE Hx orbT.
Qed.
Lemma compute_point_inv r p : domain_ok d -> compute_evaluation_point r xi (elements d) = Ok p ->
  (r.1 < dsize d)%N /\ p = rot_point (dgen d) r xi.
Proof.
move=> dok; case: (ltnP r.1 (dsize d)) => Hr; first by rewrite compute_point_ok // => -[<-].
have r0 : (0 < r.1)%N by apply: leq_trans (dsize_gt0 dok) Hr.
by rewrite compute_point_oob.
Qed.

Lemma eq_rfoldM_occurs (A S : Type) (f g : S -> A -> res S) st s :
  (forall st a, occurs a s -> f st a = g st a) -> rfoldM f st s = rfoldM g st s.
Proof.
elim: s st => //= a s IH st H; rewrite H; last by left.
by case: (g st a) => //= st'; apply: IH => st'' a' Ha'; apply: H; right.
Qed.
Lemma peval_foldl (T : Type) (f : T -> lpoly F) (c : T -> F) (s : seq T) p x :
  peval (foldl (fun q t => padd q (pscale (c t) (f t))) p s) x = peval p x + \sum_(t <- s) c t * peval (f t) x.
Proof.
elim: s p => [|t s IH] p /=; first by rewrite big_nil addr0.
by rewrite IH big_cons peval_add peval_scale addrA.
Qed.

(** One opening set. *)
Lemma item_complete pows k (os : seq trip) q r evs : domain_ok d -> (size os <= size pows)%N ->
  (forall t, occurs t os -> stands t /\ o_rots t.1.1 = k) ->
  mo_prover_item pows (elements d) xi (k, map fst os) = Ok (q, r, evs) ->
  exists c, [/\ mo_verifier_item pows (elements d) xi (k, map snd os) = Ok (c, evs),
    pc_commit1 ck q r = Ok c, uniq (map fst evs),
    forall p, p \in map fst evs -> exists2 rot, rot \in k & p = rot_point (dgen d) rot xi &
    forall p v, (p, v) \in evs -> v = peval q p].
Proof.
move=> dok Hs Hos; rewrite /mo_prover_item => H; have [evs' Hb [Eq Er Ee]] := rbind_ok H; rewrite {evs'}Ee in Hb.
have [|pvs [Ep Hr [U _] Hv]] := batched_inv _ Hb; first by [].
rewrite {}Ep cat0s {Hb H} in Hr U Hv *.
have Hpt p : p \in map fst pvs -> exists2 rot, rot \in k & p = rot_point (dgen d) rot xi.
  by move=> Hp; have [rot Hrot /(compute_point_inv dok) [_ E]] := rmapM_mem Hr Hp; exists rot.
have Hptn i : (i < size pvs)%N -> exists2 rot, rot \in k & (nth (0, 0) pvs i).1 = rot_point (dgen d) rot xi.
  by move=> Hi; apply: Hpt; apply/mapP; exists (nth (0, 0) pvs i) => //; exact: mem_nth.
rewrite !zip_mapl !foldl_mapl /= in Eq Er.
exists (foldl (fun c t => pc_add c (pc_scale (com_of t.1.2) t.2)) (pc_zero PC) (zip os pows)); split=> //.
- rewrite /mo_verifier_item zip_mapl rfoldM_map (rfoldM_occurs (g := fun c t => pc_add c (pc_scale (com_of t.1.2) t.2))); last first.
    move=> c t /occurs_zip_fst /Hos [[_ [cm E _] _] _] /=; by rewrite /com_of E.
  rewrite rbind_Ok (@batched_intro _ _ _ _ _ _ _ _ _ [::] pvs) // => i Hi; rewrite -Hv //.
  have [rot Hrot ->] := Hptn i Hi.
  rewrite /batch !zip_mapl !rfoldM_map; apply: eq_rfoldM_occurs => st t /occurs_zip_fst Ht /=.
  have [[_ _ Ha] Ek] := Hos _ Ht; by rewrite Ha ?Ek //.
- rewrite -Eq -Er; apply: (@commit_fold trip (fun t => po_poly t.1.1) (fun t => t.1.2) (fun t => com_of t.2)); last exact: pl_zero law.
  move=> t /occurs_zip_fst Ht; have [[_ [cm E Hc] _] _] := Hos _ Ht; by rewrite /com_of E Hc.
- move=> p v Hpv; have Hi := Hpv; rewrite -index_mem in Hi; have := Hv _ Hi; rewrite nth_index //= => Hb.
  move: Hb; rewrite (batch_ok _ (g := fun o => peval (po_poly o) p)) // => -[<-].
  rewrite -Eq (peval_foldl (fun a : trip * F => po_poly a.1.1.1) (fun a => a.2)) /= add0r.
  by rewrite !zip_mapl !big_map.
Qed.

(** All opening sets. *)
Local Arguments mo_prover_item : simpl never.
Local Arguments mo_verifier_item : simpl never.
Lemma sets_complete pows (S : seq (seq rotation * seq trip)) items fs x3 : domain_ok d ->
  (forall k os, occurs (k, os) S -> [/\ (size os <= size pows)%N, forall t, occurs t os -> stands t /\ o_rots t.1.1 = k
     & forall rot, rot \in k -> rot_point (dgen d) rot xi != x3]) ->
  rmapM (mo_prover_item pows (elements d) xi) [seq (kl.1, map fst kl.2) | kl <- S] = Ok items ->
  rmapM (@mo_f_poly F PC) items = Ok fs ->
  exists cs, [/\ size cs = size items,
    mo_zip pows (elements d) xi x3 [seq (kl.1, map snd kl.2) | kl <- S] [seq peval it.1.1 x3 | it <- items]
      = Ok (zip (zip cs [seq peval f x3 | f <- fs]) [seq peval it.1.1 x3 | it <- items]) &
    forall t, occurs t (zip items cs) -> pc_commit1 ck t.1.1.1 t.1.1.2 = Ok t.2].
Proof.
move=> dok; elim: S items fs => [|[k os] S IH] items fs HS /=.
  by move=> [<-] /= [<-]; exists [::].
move=> H; have [[[q r] evs] Hi H1] := rbind_ok H; have {H H1} [its Hits [<-]] := rbind_ok H1.
rewrite /= {1}/mo_f_poly /= => H; have [f Hf H1] := rbind_ok H; have {H H1} [fs' Hfs [<-]] := rbind_ok H1.
have [Hs Hos Hx] := HS k os (or_introl erefl).
have [c [Ev Hc U Hpt Hval]] := item_complete dok Hs Hos Hi.
have [|cs [Esz Hz Hcs]] := IH its fs' _ Hits Hfs; first by move=> k' os' Hk'; apply: HS; right.
have nx : x3 \notin map fst evs.
  by apply/negP => /Hpt [rot /Hx H E]; move: H; rewrite -E eqxx.
exists (c :: cs); split; first by rewrite /= Esz.
  rewrite Ev rbind_Ok f_eval_ok // (negbTE nx) rbind_Ok Hz rbind_Ok /=; congr (Ok ((_, _, _) :: _)).
  rewrite pevalE quotient_value // => [|p v /Hval ->]; last by rewrite pevalE.
  have zn0 : Poly (construct_vanishing (map fst evs)) != 0.
    by rewrite Poly_vanish -/(zpoly _); apply: contraNneq nx; rewrite -zpoly_eq0 => ->; rewrite horner0.
  have [f' Ef' Ef''] := pdivE q zn0; by move: Hf; rewrite Ef' => -[<-]; rewrite pevalE Ef'' Poly_vanish.
by move=> t /= [->|/Hcs].
Qed.

Lemma opening_sets_eq (V : Type) (key key' : V -> seq rotation) s : (forall v, occurs v s -> key v = key' v) ->
  opening_sets key s = opening_sets key' s.
Proof.
rewrite /opening_sets; elim/last_ind: s => // s x IH H; rewrite !foldl_rcons IH ?H //.
  by apply/occurs_rcons; right.
by move=> v Hv; apply: H; apply/occurs_rcons; left.
Qed.
Lemma foldl_pair (A S T : Type) (f : S -> A -> S) (g : T -> A -> T) st tt' s :
  foldl (fun ce a => (f ce.1 a, g ce.2 a)) (st, tt') s = (foldl f st s, foldl g tt' s).
Proof. by elim: s st tt' => //= a s IH st tt'; rewrite IH. Qed.
Lemma occurs_mem_nonempty (A : Type) (s : seq A) : (0 < size s)%N -> exists a, occurs a s.
Proof. by case: s => // a s _; exists a; left. Qed.

Lemma foldl_zip3 (A B D S : Type) (f : S -> A -> D -> S) st (s : seq A) (t : seq B) (u : seq D) : size t = size s ->
  foldl (fun st x => f st x.1.1 x.2) st (zip (zip s t) u) = foldl (fun st x => f st x.1 x.2) st (zip s u).
Proof. elim: s t u st => [|a s IH] [|b t] [|x u] st //= [E]; exact: IH. Qed.
Theorem multiopen_complete ds (ts : seq trip) (fs : fs_state FS) zk pf fs' zk' : domain_new env ds = Some d ->
  (forall t, occurs t ts -> stands t) ->
  mo_prove env ck [seq t.1.1 | t <- ts] [seq t.1.2 | t <- ts] xi ds fs zk = Ok (pf, fs', zk') ->
  (forall t rot, occurs t ts -> rot \in o_rots t.1.1 -> rot_point (dgen d) rot xi != x3_of fs pf) ->
  mo_verify env pvk pf [seq t.2 | t <- ts] xi ds fs = Ok tt.
Proof.
move=> Ed Hst; have [_ _ dok _] := domain_new_spec eok Ed; rewrite /mo_prove /mo_verify /x3_of.
case: (fs_rand fs) => [x1 fs1] /=; case: (fs_rand fs1) => [x2 fs2] /=; rewrite Ed !rbind_Ok !size_map.
set pows := powers (size ts) 1 x1; move=> H; have [items Hi H1] := rbind_ok H.
have {H H1} [fps Hf H] := rbind_ok H1; set f_agg := foldl _ [::] _ in H.
move: H; rewrite /=; case: pc_sample => [r zk1]; case Hc: (pc_commit1 ck f_agg r) => [c| |] //; rewrite !rbind_Ok /=.
have -> : coms_bytes [:: c] = pc_bytes c by rewrite /coms_bytes /= cats0.
case E3: (fs_rand (fs_absorb fs2 _)) => [x3 fs3].
case E4: (fs_rand (fs_absorb fs3 _)) => [x4 fs4].
set fpoly := foldl _ f_agg _; set frand := foldl _ r _ => H.
have [c0 _ H1] := rbind_ok H; have {H H1} [op Hop [Epf _ _]] := rbind_ok H1.
rewrite -{}Epf /= E3 /= E4 => Hx.
pose S := opening_sets (fun t : trip => o_rots t.1.1) ts.
have ES : opening_sets (fun or : poracle F * pc_rand PC => o_rots or.1) (zip [seq t.1.1 | t <- ts] [seq t.1.2 | t <- ts])
    = [seq (kl.1, map fst kl.2) | kl <- S].
  by rewrite /S -(opening_sets_map (fun t : trip => t.1) (fun or : poracle F * pc_rand PC => o_rots or.1)); congr opening_sets; elim: (ts) => //= -[[? ?] ?] l ->.
have ES' : opening_sets (fun o : voracle F (pc_com PC) => o_rots o) [seq t.2 | t <- ts] = [seq (kl.1, map snd kl.2) | kl <- S].
  by rewrite opening_sets_map; congr map; apply: opening_sets_eq => t /Hst [-> _ _].
have HS k os : occurs (k, os) S -> [/\ (size os <= size pows)%N, forall t, occurs t os -> stands t /\ o_rots t.1.1 = k
     & forall rot, rot \in k -> rot_point (dgen d) rot xi != x3].
  move=> Hk; rewrite size_powers (opening_set_size Hk); split=> // [t Ht|rot Hrot].
    by have [<- H] := opening_sets_mem Hk Ht; split=> //; apply: Hst.
  have [t Ht] := occurs_mem_nonempty (opening_sets_nonempty Hk).
  have [Ek H] := opening_sets_mem Hk Ht; by apply: (Hx t) => //; rewrite Ek.
rewrite ES in Hi; have [cs [Esz Hz Hcs]] := sets_complete dok HS Hi Hf.
rewrite ES' Hz rbind_Ok.
have sf : size fps = size items := rmapM_ok Hf.
have si : size items = size S by rewrite (rmapM_ok Hi) size_map.
have sS : (size S <= size ts)%N by rewrite /S size_opening_sets (leq_trans (size_undup _)) // size_map.
set its := zip (zip cs _) _; have sits : size its = size items by rewrite /its !size_zip !size_map Esz sf !minnn.
rewrite size_map (foldl_pair (fun c0 (ix : pc_com PC * F * F * F) => pc_add c0 (pc_scale ix.1.1.1 ix.2)) (fun e ix => e + ix.2 * ix.1.2)) /=.
have -> : foldl (fun c0 (ix : pc_com PC * F * F * F) => pc_add c0 (pc_scale ix.1.1.1 ix.2)) c (zip its (powers (size items) x4 x4))
    = foldl (fun c0 t => pc_add c0 (pc_scale t.1.2 t.2)) c (zip (zip items cs) (powers (size items) x4 x4)).
  rewrite /its; move: (powers _ _ _) => pw; move: Esz sf; clear; elim: items cs fps pw c => [|it items IH] [|c1 cs] [|f fps] [|x pw] c //= [E1] [E2].
  by rewrite IH.
have Hfc : pc_commit1 ck fpoly frand = Ok (foldl (fun c0 t => pc_add c0 (pc_scale t.1.2 t.2)) c (zip (zip items cs) (powers (size items) x4 x4))).
  have := @commit_fold _ (fun t : _ * pc_com PC => t.1.1.1) (fun t => t.1.1.2) (fun t => t.2) (zip (zip items cs) (powers (size items) x4 x4)) f_agg r c _ Hc.
  move=> <-; last by move=> t /occurs_zip_fst; exact: Hcs.
  rewrite /fpoly /frand (foldl_zip3 (fun q (it : lpoly F * pc_rand PC * seq (F * F)) x => padd q (pscale x it.1.1)) _ _ Esz).
  by rewrite (foldl_zip3 (fun q (it : lpoly F * pc_rand PC * seq (F * F)) x => pc_add_rand q (pc_scale_rand it.1.2 x)) _ _ Esz).
have Ev : peval fpoly x3 = foldl (fun e (ix : pc_com PC * F * F * F) => e + ix.2 * ix.1.2)
    (foldl (fun e (ix : pc_com PC * F * F * F) => e + ix.2 * ix.1.1.2) 0 (zip its (powers (size ts) 1 x2))) (zip its (powers (size items) x4 x4)).
  rewrite !foldl_sum add0r /fpoly (peval_foldl (fun ix : lpoly F * pc_rand PC * seq (F * F) * F => ix.1.1.1) (fun ix => ix.2)).
  rewrite /f_agg (peval_foldl (fun ix : lpoly F * F => ix.1) (fun ix => ix.2)) /= add0r; congr (_ + _).
    rewrite (big_zip_powers (fun f x => x * peval f x3) _ _ [::]) //.
    rewrite (big_zip_powers (fun (it : pc_com PC * F * F) x => x * it.1.2) _ _ (c, 0, 0)) ?sits ?si //.
    rewrite sf si; apply: eq_bigr => i _; rewrite /its; rewrite !nth_zip ?size_zip ?size_map ?Esz ?sf ?minnn //=.
    by rewrite (nth_map [::]) // sf si.
  rewrite (big_zip_powers (fun (it : lpoly F * pc_rand PC * seq (F * F)) x => x * peval it.1.1 x3) _ _ ([::], r, [::])) //.
  rewrite (big_zip_powers (fun (it : pc_com PC * F * F) x => x * it.2) _ _ (c, 0, 0)) ?sits //.
  apply: eq_bigr => i _; rewrite /its nth_zip ?size_zip ?size_map ?Esz ?sf ?minnn //=.
  by rewrite (nth_map ([::], r, [::])).
by rewrite -Ev (pl_open law Hfc Hop).
Qed.
End Complete.
