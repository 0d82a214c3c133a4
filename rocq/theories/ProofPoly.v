(** Bridge from the coefficient lists of ModelPoly.v to mathcomp polynomials. *)
From mathcomp Require Import all_ssreflect all_algebra.
From Verif Require Import Base ModelPoly ProofBase.

Set Implicit Arguments.
Unset Strict Implicit.
Unset Printing Implicit Defensive.

Import GRing.Theory.
Local Open Scope ring_scope.

Section Ids.
Variable R : comRingType.
Add Ring Rring : (R_ring_theory R).
Lemma divmod_id (q b r x a c : R) :
  (q * b + r) * x + a = (q * x + c) * b + (r * x + a - c * b).
Proof. by r_conv R; ring. Qed.
End Ids.

Section Bridge.
Variable F : fieldType.
Implicit Types (p q : lpoly F) (x c : F).
Add Field Ffield : (F_field_theory F).

Lemma Poly_cons c p : Poly (c :: p) = Poly p * 'X + c%:P.
Proof. by rewrite /= cons_poly_def. Qed.

Lemma polyseq_ptrim p : polyseq (Poly p) = ptrim p.
Proof.
elim: p => [|c p IH]; first by rewrite polyseq0.
rewrite /= polyseq_cons -IH.
case: (polyseq (Poly p)) => [|a s] //=.
by rewrite polyseqC; case: (c == 0).
Qed.

#[global] Arguments ptrim : simpl never.

Lemma size_ptrim p : size (ptrim p) = size (Poly p).
Proof. by rewrite -polyseq_ptrim. Qed.

Lemma Poly_trim p : Poly (ptrim p) = Poly p.
Proof. by rewrite -polyseq_ptrim polyseqK. Qed.

Lemma ptrim_inj p q : (ptrim p == ptrim q) = (Poly p == Poly q).
Proof. by rewrite -!polyseq_ptrim. Qed.

Lemma ptrim_id p : ptrim (ptrim p) = ptrim p.
Proof. by rewrite -[LHS]polyseq_ptrim Poly_trim polyseq_ptrim. Qed.

Lemma size_ptrim_le p : (size (ptrim p) <= size p)%N.
Proof. by rewrite size_ptrim size_Poly. Qed.

Lemma nth_ptrim p i : (ptrim p)`_i = p`_i.
Proof. by rewrite -polyseq_ptrim coef_Poly. Qed.

Lemma pevalE p x : peval p x = (Poly p).[x].
Proof. by elim: p => [|c p IH]; rewrite ?Poly_cons ?hornerE //= ?horner0 // IH. Qed.

Lemma peval_trim p x : peval (ptrim p) x = peval p x.
Proof. by rewrite !pevalE Poly_trim. Qed.

Lemma peval_sum p x : peval p x = \sum_(i < size p) p`_i * x ^+ i.
Proof.
elim: p => [|c p IH] /=; first by rewrite big_ord0.
rewrite big_ord_recl /= expr0 mulr1 addrC IH; congr (_ + _).
by rewrite mulr_suml; apply: eq_bigr => i _; rewrite exprSr mulrA.
Qed.

Lemma Poly_add_raw p q : Poly (padd_raw p q) = Poly p + Poly q.
Proof.
elim: p q => [|a p IH] [|b q]; rewrite ?add0r ?addr0 //.
rewrite !Poly_cons IH polyCD mulrDl.
by rewrite -!addrA; congr (_ + _); rewrite addrCA.
Qed.

Lemma Poly_add p q : Poly (padd p q) = Poly p + Poly q.
Proof. by rewrite Poly_trim Poly_add_raw. Qed.

Lemma Poly_map_scale c p : Poly [seq a * c | a <- p] = c *: Poly p.
Proof. by apply/polyP => i; rewrite coefZ !coef_Poly; elim: p i => [|a p IH] [|i] //=; rewrite ?mulr0 // mulrC. Qed.

Lemma Poly_map_scalel c p : Poly [seq c * a | a <- p] = c *: Poly p.
Proof. by rewrite -Poly_map_scale; congr (Poly _); apply: eq_map => a; rewrite mulrC. Qed.

Lemma Poly_scale c p : Poly (pscale c p) = c *: Poly p.
Proof. by rewrite Poly_trim Poly_map_scale. Qed.

Lemma Poly_neg p : Poly (pneg p) = - Poly p.
Proof.
rewrite Poly_trim; apply/polyP => i; rewrite coefN !coef_Poly.
by elim: p i => [|a p IH] [|i] //=; rewrite ?oppr0.
Qed.

Lemma Poly_sub p q : Poly (psub p q) = Poly p - Poly q.
Proof. by rewrite Poly_add Poly_neg. Qed.

Lemma Poly_mul_raw p q : Poly (pmul_raw p q) = Poly p * Poly q.
Proof.
elim: p => [|a p IH]; first by rewrite mul0r.
rewrite [pmul_raw _ _]/= Poly_add_raw Poly_map_scalel !Poly_cons IH addr0.
by rewrite mulrDl mul_polyC addrC -!mulrA (mulrC 'X).
Qed.

Lemma Poly_mul p q : Poly (pmul p q) = Poly p * Poly q.
Proof. by rewrite Poly_trim Poly_mul_raw. Qed.

Lemma pdegE p : pdeg p = (size (Poly p)).-1.
Proof. by rewrite /pdeg size_ptrim. Qed.

Lemma peqE p q : peq p q = (Poly p == Poly q).
Proof. exact: ptrim_inj. Qed.

Lemma Poly_nil : Poly [::] = 0 :> {poly F}. Proof. by []. Qed.
Lemma Poly_seq1 c : Poly [:: c] = c%:P :> {poly F}.
Proof. by rewrite Poly_cons Poly_nil mul0r add0r. Qed.
Lemma Poly_lin a c : Poly [:: a; c] = c *: 'X + a%:P :> {poly F}.
Proof. by rewrite Poly_cons Poly_seq1 mul_polyC. Qed.
Lemma Poly_XsubC a : Poly [:: - a; 1] = 'X - a%:P :> {poly F}.
Proof. by rewrite Poly_lin scale1r polyCN. Qed.

(** Evaluations *)
Lemma peval_add p q x : peval (padd p q) x = peval p x + peval q x.
Proof. by rewrite !pevalE Poly_add hornerE. Qed.
Lemma peval_scale c p x : peval (pscale c p) x = c * peval p x.
Proof. by rewrite !pevalE Poly_scale hornerE. Qed.
Lemma peval_neg p x : peval (pneg p) x = - peval p x.
Proof. by rewrite !pevalE Poly_neg hornerE. Qed.
Lemma peval_sub p q x : peval (psub p q) x = peval p x - peval q x.
Proof. by rewrite !pevalE Poly_sub !hornerE. Qed.
Lemma peval_mul p q x : peval (pmul p q) x = peval p x * peval q x.
Proof. by rewrite !pevalE Poly_mul hornerE. Qed.

(** Division *)
Lemma pdivmod_rec_correct b db lc a q r :
  size (Poly b) = db.+1 -> lead_coef (Poly b) = lc -> lc != 0 ->
  pdivmod_rec b db lc a = (q, r) ->
  Poly a = Poly q * Poly b + Poly r /\ (size (Poly r) <= db)%N.
Proof.
move=> sb lb lc0; elim: a q r => [|a0 a IH] q r /=.
  by case=> <- <-; rewrite mul0r addr0 size_poly0.
case E: (pdivmod_rec b db lc a) => [q' r'] [<- <-].
case: (IH _ _ E) => {IH} IH1 IH2.
set c := nth 0 _ _ / lc.
split.
  rewrite Poly_sub Poly_scale !Poly_cons cons_poly_def IH1 -mul_polyC.
  exact: divmod_id.
rewrite Poly_sub Poly_scale.
apply/leq_sizeP => j; rewrite leq_eqVlt => /orP[/eqP <-|ltj].
  rewrite coefB coefZ coef_Poly /c.
  have -> : (Poly b)`_db = lc by rewrite -lb lead_coefE sb.
  by rewrite divfK // subrr.
rewrite coefB coefZ.
have -> : (Poly b)`_j = 0 by rewrite nth_default // sb.
rewrite mulr0 subr0 Poly_cons coefD coefMX coefC.
case: j ltj => // j; rewrite ltnS /= addr0 => lej.
by apply/(leq_sizeP _ _ IH2).
Qed.

Lemma last_ptrim p : last 0 (ptrim p) = lead_coef (Poly p).
Proof. by rewrite -polyseq_ptrim lead_coefE -nth_last. Qed.

Lemma pdivE p q : Poly q != 0 ->
  exists2 r, pdiv p q = Ok r & Poly r = Poly p %/ Poly q.
Proof.
move=> q0; rewrite /pdiv.
case Eq: (ptrim q) => [|c s].
  by move: q0; rewrite -Poly_trim Eq eqxx.
rewrite -Eq.
eexists; first by reflexivity.
rewrite Poly_trim.
case E: (pdivmod_rec _ _ _ _) => [u v] /=.
have sq : size (Poly (ptrim q)) = (size (ptrim q)).-1.+1.
  by rewrite Poly_trim -size_ptrim Eq.
have lq : lead_coef (Poly (ptrim q)) = last 0 (ptrim q) by rewrite last_ptrim Poly_trim.
have l0 : last 0 (ptrim q) != 0 by rewrite last_ptrim lead_coef_eq0.
have [Ea Er] := pdivmod_rec_correct sq lq l0 E.
rewrite Ea Poly_trim divp_addl_mul // divp_small ?addr0 //.
by rewrite (leq_ltn_trans Er) // -[Poly q]Poly_trim sq.
Qed.

Lemma pdiv_panic p q : Poly q = 0 -> pdiv p q = Panic PExplicit.
Proof. by rewrite /pdiv -polyseq_ptrim => ->; rewrite polyseq0. Qed.

(** Folds that build linear combinations. *)
Lemma Poly_foldl_comb (T : Type) (f : T -> lpoly F) (c : T -> F) (s : seq T) p :
  Poly (foldl (fun q t => padd q (pscale (c t) (f t))) p s)
  = Poly p + \sum_(t <- s) c t *: Poly (f t).
Proof.
elim: s p => [|t s IH] p /=; first by rewrite big_nil addr0.
by rewrite IH Poly_add Poly_scale big_cons addrA.
Qed.

Lemma foldl_sum (V : zmodType) (T : Type) (f : T -> V) (s : seq T) v :
  foldl (fun a t => a + f t) v s = v + \sum_(t <- s) f t.
Proof.
elim: s v => [|t s IH] v /=; first by rewrite big_nil addr0.
by rewrite IH big_cons addrA.
Qed.

(** [distribute_powers] *)
Lemma size_distr_from b g (s : seq F) : size (distr_from b g s) = size s.
Proof. by elim: s b => //= a s IH b; rewrite IH. Qed.

Lemma nth_distr_from b g (s : seq F) i : (distr_from b g s)`_i = s`_i * (b * g ^+ i).
Proof.
elim: s b i => [|a s IH] b [|i] /=; rewrite ?mul0r ?expr0 ?mulr1 //.
by rewrite IH exprS; congr (_ * _); rewrite mulrA.
Qed.

Lemma peval_distr g s x : peval (distribute_powers g s) x = peval s (g * x).
Proof.
rewrite !peval_sum /distribute_powers size_distr_from; apply: eq_bigr => i _.
by rewrite nth_distr_from mul1r exprMn mulrA.
Qed.

Lemma take_distr g n (s : seq F) :
  take n (distribute_powers g s) = distribute_powers g (take n s).
Proof.
rewrite /distribute_powers; move: 1 => b; elim: s b n => [|a s IH] b [|n] //=.
by rewrite IH.
Qed.

Lemma distrK (g : F) s : g != 0 -> distribute_powers g (distribute_powers g^-1 s) = s.
Proof.
move=> g0; apply: (@eq_from_nth _ 0); rewrite /distribute_powers ?size_distr_from //.
move=> i Hi; rewrite !nth_distr_from !mul1r -mulrA exprVn mulVf ?mulr1 //.
by rewrite expf_eq0 (negPf g0) andbF.
Qed.

Lemma distrVK (g : F) s : g != 0 -> distribute_powers g^-1 (distribute_powers g s) = s.
Proof. by move=> g0; rewrite -{2}(invrK g) distrK // invr_eq0. Qed.

Let test (a b : F) : a != 0 -> (a + b) ^+ 2 / a - b * (1 - 0) = a^-1 * (a ^+ 2 + a * b + b * b).
Proof. by move=> /eqP nz; f_conv F; field. Qed.
End Bridge.

#[global] Arguments ptrim : simpl never.

(** A polynomial with at least as many roots as its size is zero; seq forms used often. *)
Section Roots.
Variable F : fieldType.
Implicit Types p q : {poly F}.

Lemma poly_eq_on p q (rs : seq F) :
  uniq rs -> (size p <= size rs)%N -> (size q <= size rs)%N ->
  {in rs, forall x, p.[x] = q.[x]} -> p = q.
Proof.
move=> urs sp sq H; apply/eqP; rewrite -subr_eq0; apply/eqP.
apply: (@roots_geq_poly_eq0 _ _ rs) => //.
  by apply/allP => x xr; rewrite /root !hornerE H // subrr.
by rewrite (leq_trans (size_add _ _)) // size_opp geq_max sp sq.
Qed.

(** The finitely many roots of a non-zero polynomial, as an explicit set. *)
Lemma poly_roots_bound p : p != 0 ->
  forall rs : seq F, uniq rs -> all (root p) rs -> (size rs < size p)%N.
Proof. by move=> p0 rs u a; apply: max_poly_roots. Qed.
End Roots.
