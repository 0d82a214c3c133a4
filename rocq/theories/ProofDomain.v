(** Facts about evaluation domains: roots of unity, (coset) FFTs, vanishing polynomials. *)
From mathcomp Require Import all_ssreflect all_algebra.
From Verif Require Import Base ModelPoly Spec ProofBase ProofPoly.

Set Implicit Arguments.
Unset Strict Implicit.
Unset Printing Implicit Defensive.

Import GRing.Theory.
Local Open Scope ring_scope.

Section Domain.
Variable F : fieldType.
Implicit Types (d : domain F) (x : F).

Lemma dsize_gt0 d : domain_ok d -> (0 < dsize d)%N.
Proof. exact: prim_order_gt0. Qed.

Lemma dgen_exp d : domain_ok d -> dgen d ^+ dsize d = 1.
Proof. exact: prim_expr_order. Qed.

Lemma dgen_neq0 d : domain_ok d -> dgen d != 0.
Proof.
move=> dok; apply/eqP => g0; move: (dgen_exp dok); rewrite g0 expr0n.
by rewrite gtn_eqF ?dsize_gt0 //= => /esym/eqP; rewrite oner_eq0.
Qed.

Lemma element_neq0 d i : domain_ok d -> element d i != 0.
Proof. by move=> dok; rewrite expf_neq0 // dgen_neq0. Qed.

Lemma element_exp d i : domain_ok d -> element d i ^+ dsize d = 1.
Proof. by move=> dok; rewrite /element exprAC dgen_exp // expr1n. Qed.

Lemma elementD d i j : element d (i + j) = element d i * element d j.
Proof. by rewrite /element exprD. Qed.

Lemma element_mod d i : domain_ok d -> element d (i %% dsize d) = element d i.
Proof. by move=> dok; rewrite /element prim_expr_mod. Qed.

Lemma element_eq d i j : domain_ok d -> (element d i == element d j) = (i == j %[mod dsize d]).
Proof. by move=> dok; rewrite /element (eq_prim_root_expr dok). Qed.

Lemma element0 d : element d 0 = 1. Proof. by []. Qed.

Lemma element_size d : domain_ok d -> element d (dsize d) = 1.
Proof. exact: dgen_exp. Qed.

Lemma size_elements d : size (elements d) = dsize d.
Proof. by rewrite size_map size_iota. Qed.

Lemma nth_elements d i x : (i < dsize d)%N -> nth x (elements d) i = element d i.
Proof. by move=> Hi; rewrite (nth_map 0%N) ?size_iota // nth_iota. Qed.

Lemma idx_elements d i : (i < dsize d)%N -> idx (elements d) i = Ok (element d i).
Proof. by move=> Hi; rewrite (idx_nth 0) ?size_elements // nth_elements. Qed.

Lemma elements_uniq d : domain_ok d -> uniq (elements d).
Proof.
move=> dok; rewrite map_inj_in_uniq ?iota_uniq // => i j.
rewrite !mem_iota !add0n /= => Hi Hj /eqP; rewrite element_eq //.
by rewrite !modn_small // => /eqP.
Qed.

Lemma mem_elements d x : domain_ok d -> (x \in elements d) = (x ^+ dsize d == 1).
Proof.
move=> dok; apply/mapP/eqP => [[i _ ->]|xn]; first exact: element_exp.
have /(prim_rootP dok)[i ->] := xn; exists (nat_of_ord i) => //.
by rewrite mem_iota add0n ltn_ord.
Qed.

Lemma vanishing_prod d : domain_ok d ->
  'X^(dsize d) - 1 = \prod_(x <- elements d) ('X - x%:P).
Proof.
move=> dok; rewrite -(factor_Xn_sub_1 dok) big_map /index_iota subn0.
by [].
Qed.

Lemma Xn1_neq0 n : (0 < n)%N -> 'X^n - 1 != 0 :> {poly F}.
Proof. by move=> n0; rewrite -size_poly_eq0 size_Xn_sub_1. Qed.

(** X^n - 1 divides p iff p vanishes on the domain. *)
Lemma dvd_vanishing d (p : {poly F}) : domain_ok d ->
  ('X^(dsize d) - 1 %| p) = all (root p) (elements d).
Proof.
move=> dok; rewrite vanishing_prod //; apply/idP/idP => H.
  apply/allP => x xd; rewrite -dvdp_XsubCl; apply: dvdp_trans H.
  by rewrite (big_rem _ xd) dvdp_mulr.
by apply: uniq_roots_dvdp; rewrite ?uniq_rootsE ?elements_uniq.
Qed.

Lemma geom_sum d k : domain_ok d ->
  \sum_(i < dsize d) (dgen d ^+ k) ^+ i = (if (dsize d %| k)%N then (dsize d)%:R else 0).
Proof.
move=> dok; case: ifP => [dv|ndv].
  have -> : dgen d ^+ k = 1 by apply/eqP; rewrite -(prim_order_dvd dok).
  by rewrite (eq_bigr (fun=> 1)) ?sumr_const ?card_ord // => i _; rewrite expr1n.
have nz : dgen d ^+ k - 1 != 0.
  by rewrite subr_eq0 -(prim_order_dvd dok) ndv.
by apply: (mulfI nz); rewrite mulr0 -subrX1 exprAC dgen_exp // expr1n subrr.
Qed.
End Domain.

(** 2 is invertible as soon as there is a primitive root of even order. *)
Lemma prim2_neq0 (F : fieldType) (z : F) s : (2 ^ s)%N.-primitive_root z -> (2 ^ s)%N%:R != 0 :> F.
Proof.
case: s => [|s] pz; first by rewrite expn0 oner_eq0.
have two0 : 2%N%:R != 0 :> F.
  set y := z ^+ (2 ^ s).
  have y2 : (y - 1) * (y + 1) = 0.
    have e2 : z ^+ (2 ^ s.+1) = 1 := prim_expr_order pz.
    rewrite mulrDr mulr1 mulrBl mul1r addrA addrNK -exprD addnn -mul2n -expnS e2.
    by rewrite subrr.
  have y1 : y - 1 != 0.
    rewrite subr_eq0 /y -(prim_order_dvd pz) dvdn_Pexp2l //.
    by rewrite ltnn.
  move/eqP: y2; rewrite mulf_eq0 (negPf y1) /= addr_eq0 => /eqP Ey.
  by apply: contra y1 => /eqP t; rewrite Ey -opprD -mulr2n t oppr0.
by rewrite natrX expf_neq0.
Qed.

Section NewDomain.
Variables (F : fieldType) (env : fenv F).
Hypothesis eok : fenv_ok env.
Implicit Types d ext : domain F.

Lemma domain_new_spec k d : domain_new env k = Some d ->
  [/\ dsize d = (2 ^ up_log 2 k)%N, (up_log 2 k <= two_adicity env)%N, domain_ok d
    & std_domain env d].
Proof.
rewrite /domain_new /std_domain; case: leqP => // le [<-] /=; split=> //=.
  rewrite /domain_ok /=.
  have dv : (2 ^ up_log 2 k %| 2 ^ two_adicity env)%N by rewrite dvdn_exp2l.
  by rewrite expnB //; apply: dvdn_prim_root (fe_root eok) _ dv.
by rewrite /domain_new up_expnK // le.
Qed.

Lemma domain_new_ge k d : domain_new env k = Some d -> (k <= dsize d)%N.
Proof. by case/domain_new_spec => -> *; apply: up_logP. Qed.

Lemma std_domain_ok d : std_domain env d -> domain_ok d.
Proof. by case/domain_new_spec. Qed.

Lemma std_domain_pow d : std_domain env d ->
  exists2 l, dsize d = (2 ^ l)%N & (l <= two_adicity env)%N.
Proof. by case/domain_new_spec => e le _ _; exists (up_log 2 (dsize d)). Qed.

Lemma std_size_neq0 d : std_domain env d -> (dsize d)%:R != 0 :> F.
Proof.
move=> sd; have [l e le] := std_domain_pow sd; have := std_domain_ok sd.
by rewrite /domain_ok e; apply: prim2_neq0.
Qed.

Lemma std_domain_eq d d' : std_domain env d -> std_domain env d' -> dsize d = dsize d' -> d = d'.
Proof. by move=> s1 s2 e; move: s1 s2; rewrite /std_domain e => -> [->]. Qed.

(** Of two standard domains the larger contains the smaller; its generator's power of index
    ratio is the smaller one's generator. *)
Lemma std_domain_ratio d ext : std_domain env d -> std_domain env ext ->
  (dsize d <= dsize ext)%N ->
  (dsize ext = (dsize ext %/ dsize d) * dsize d)%N /\
  dgen ext ^+ (dsize ext %/ dsize d) = dgen d.
Proof.
move=> sd se le.
have [l el ll] := std_domain_pow sd; have [m em lm] := std_domain_pow se.
have lem : (l <= m)%N by move: le; rewrite el em leq_exp2l.
have dv : (dsize d %| dsize ext)%N by rewrite el em dvdn_exp2l.
split; first by rewrite divnK.
move: sd se; rewrite /std_domain /domain_new el em !up_expnK // ll lm.
case: d el le dv => n g /= -> le dv; case: ext em le dv => n' g' /= -> le dv.
case=> <- [<-]; rewrite -exprM; congr (_ ^+ _).
by rewrite -expnB // -expnD; congr (_ ^ _)%N; rewrite addnBA // subnK.
Qed.

Lemma gen_exp_neq1 d : std_domain env d -> mult_gen env ^+ dsize d != 1.
Proof.
move=> sd; have [l el ll] := std_domain_pow sd.
apply: contra (fe_gen eok) => /eqP e; rewrite -(subnKC ll) expnD exprM -el e.
by rewrite expr1n.
Qed.

(** Point i of the coset. *)
Definition coset_point (ext : domain F) (i : nat) : F := mult_gen env * element ext i.

Lemma coset_point_neq0 ext i : std_domain env ext -> coset_point ext i != 0.
Proof. by move=> se; rewrite mulf_neq0 ?(fe_gen0 eok) // element_neq0 // std_domain_ok. Qed.

Lemma coset_not_in d ext i : std_domain env d -> std_domain env ext ->
  (dsize d <= dsize ext)%N -> coset_point ext i ^+ dsize d != 1.
Proof.
move=> sd se le; have [e1 e2] := std_domain_ratio sd se le.
apply: contra (gen_exp_neq1 se) => /eqP H.
have : (coset_point ext i ^+ dsize d) ^+ (dsize ext %/ dsize d) = 1 by rewrite H expr1n.
by rewrite -exprM mulnC -e1 exprMn element_exp ?mulr1 ?std_domain_ok // => ->.
Qed.

Definition coset_points (ext : domain F) : seq F := [seq coset_point ext i | i <- iota 0 (dsize ext)].

Lemma size_coset_points ext : size (coset_points ext) = dsize ext.
Proof. by rewrite size_map size_iota. Qed.

Lemma nth_coset_points ext i : (i < dsize ext)%N -> (coset_points ext)`_i = coset_point ext i.
Proof. by move=> Hi; rewrite (nth_map 0%N) ?size_iota // nth_iota. Qed.

Lemma coset_points_uniq ext : std_domain env ext -> uniq (coset_points ext).
Proof.
move=> se; rewrite /coset_points; have -> : [seq coset_point ext i | i <- iota 0 (dsize ext)] =
  [seq mult_gen env * x | x <- elements ext] by rewrite /elements -map_comp.
rewrite map_inj_uniq ?elements_uniq ?std_domain_ok //.
by apply: mulfI; apply: (fe_gen0 eok).
Qed.

(** FFT *)
Lemma size_fft d c : size (fft d c) = dsize d.
Proof. by rewrite size_map size_elements. Qed.
Lemma size_ifft d c : size (ifft d c) = dsize d.
Proof. by rewrite size_map size_elements. Qed.
Lemma size_coset_fft d c : size (coset_fft env d c) = dsize d.
Proof. by rewrite size_fft. Qed.
Lemma size_coset_ifft d c : size (coset_ifft env d c) = dsize d.
Proof. by rewrite size_distr_from size_ifft. Qed.

Lemma nth_fft d c i : (i < dsize d)%N -> (fft d c)`_i = peval (take (dsize d) c) (element d i).
Proof. by move=> Hi; rewrite (nth_map 0) ?size_elements // nth_elements. Qed.

Lemma nth_coset_fft ext c i : (i < dsize ext)%N ->
  (coset_fft env ext c)`_i = peval (take (dsize ext) c) (coset_point ext i).
Proof. by move=> Hi; rewrite nth_fft // take_distr peval_distr. Qed.

Lemma ifft_eval d e j : std_domain env d -> (j < dsize d)%N ->
  peval (ifft d e) (element d j) = e`_j.
Proof.
move=> sd Hj; have dok := std_domain_ok sd; have n0 := std_size_neq0 sd.
rewrite peval_sum size_ifft.
under eq_bigr => i _.
  rewrite (nth_map 0) ?size_elements // nth_elements //.
  rewrite -mulrA peval_sum mulr_suml mulr_sumr.
  over.
rewrite exchange_big /=.
have sz : (size (take (dsize d) e) <= dsize d)%N.
  by rewrite size_take; case: ltnP => // /ltnW.
have step k : (k < dsize d)%N ->
  \sum_(i < dsize d) ((dsize d)%:R^-1 * ((take (dsize d) e)`_k * (element d i)^-1 ^+ k * element d j ^+ i))
  = if k == j then e`_k else 0.
  move=> Hk.
  under eq_bigr => i _.
    rewrite (_ : _ * _ = ((dsize d)%:R^-1 * (take (dsize d) e)`_k) * ((dgen d ^+ (j + (dsize d - k))) ^+ i)).
      over.
    rewrite -!mulrA; congr (_ * (_ * _)).
    rewrite exprVn /element -!exprM mulnDl exprD mulrC (mulnC i k).
    congr (_ * _); apply: (mulfI (x := dgen d ^+ (k * i))); first by rewrite expf_neq0 // dgen_neq0.
    rewrite mulfV ?expf_neq0 ?dgen_neq0 // mulrC.
    by rewrite -exprD -mulnDl subnK 1?ltnW // exprM dgen_exp // expr1n.
  rewrite -mulr_sumr geom_sum //.
  case: (eqVneq k j) => [->|ne].
    by rewrite subnKC 1?ltnW // dvdnn mulrAC mulVf // mul1r nth_take.
  case: ifP => [dv|]; last by rewrite mulr0.
  have : (j == k %[mod dsize d]).
    rewrite -(eqn_modDr (dsize d - k)) subnKC 1?ltnW // modnn -/(dvdn _ _).
    exact: dv.
  by rewrite !modn_small // eq_sym (negPf ne).
transitivity (\sum_(k < size (take (dsize d) e)) if (k == j :> nat) then e`_k else 0).
  apply: eq_bigr => k _; apply: step.
  exact: leq_trans (ltn_ord k) sz.
case: (ltnP j (size e)) => Hje.
  have Hjt : (j < size (take (dsize d) e))%N by rewrite size_take; case: ifP.
  rewrite (bigD1 (Ordinal Hjt)) //= eqxx big1 ?addr0 // => k.
  by rewrite -val_eqE /= => /negPf ->.
rewrite nth_default // big1 // => k _; case: eqP => // ek.
by have := ltn_ord k; rewrite ek size_take ltnNge; case: ifP => [Hd|_]; rewrite ?Hje //;
  move=> /negP []; apply: ltnW; apply: leq_trans Hje.
Qed.

Lemma fft_ifft d e : std_domain env d -> size e = dsize d -> fft d (ptrim (ifft d e)) = e.
Proof.
move=> sd se; apply: (@eq_from_nth _ 0); rewrite size_fft ?se // => i Hi.
rewrite nth_fft // take_oversize ?peval_trim ?ifft_eval //.
by rewrite (leq_trans (size_ptrim_le _)) // size_ifft.
Qed.

Lemma size_Poly_ifft d e : (size (Poly (ifft d e)) <= dsize d)%N.
Proof. by rewrite (leq_trans (size_Poly _)) // size_ifft. Qed.

(** The interpolating polynomial is the only one of size <= n with these values. *)
Lemma ifft_unique d e (p : {poly F}) : std_domain env d -> (size p <= dsize d)%N ->
  (forall i, (i < dsize d)%N -> p.[element d i] = e`_i) -> Poly (ifft d e) = p.
Proof.
move=> sd sp H; apply: (@poly_eq_on _ _ _ (elements d)).
- by apply: elements_uniq; apply: std_domain_ok.
- by rewrite size_elements size_Poly_ifft.
- by rewrite size_elements.
move=> x /(nthP 0) [i]; rewrite size_elements => Hi <-.
by rewrite nth_elements // -pevalE ifft_eval // H.
Qed.

Lemma coset_ifft_eval ext e j : std_domain env ext -> (j < dsize ext)%N ->
  peval (coset_ifft env ext e) (coset_point ext j) = e`_j.
Proof.
move=> se Hj; rewrite peval_distr mulrA mulVf ?(fe_gen0 eok) // mul1r.
exact: ifft_eval.
Qed.

Lemma size_Poly_coset_ifft ext e : (size (Poly (coset_ifft env ext e)) <= dsize ext)%N.
Proof. by rewrite (leq_trans (size_Poly _)) // size_coset_ifft. Qed.

Lemma coset_ifft_unique ext e (p : {poly F}) : std_domain env ext -> (size p <= dsize ext)%N ->
  (forall i, (i < dsize ext)%N -> p.[coset_point ext i] = e`_i) -> Poly (coset_ifft env ext e) = p.
Proof.
move=> sd sp H; apply: (@poly_eq_on _ _ _ (coset_points ext)).
- exact: coset_points_uniq.
- by rewrite size_coset_points size_Poly_coset_ifft.
- by rewrite size_coset_points.
move=> x /(nthP 0) [i]; rewrite size_coset_points => Hi <-.
by rewrite nth_coset_points // -pevalE coset_ifft_eval // H.
Qed.

Lemma Poly_vanishing d : (0 < dsize d)%N -> Poly (vanishing_dense d) = 'X^(dsize d) - 1 :> {poly F}.
Proof.
move=> n0; rewrite Poly_trim; apply/polyP => i; rewrite coef_Poly coefB coefXn coef1.
case: (dsize d) n0 => // n _; case: i => [|i] /=; first by rewrite sub0r.
rewrite eqSS subr0 nth_cat size_nseq nth_nseq; case: ltngtP => Hi //.
  by rewrite nth_default //= subn_gt0.
by rewrite Hi subnn.
Qed.

Lemma peval_vanishing d x : (0 < dsize d)%N -> peval (vanishing_dense d) x = x ^+ dsize d - 1.
Proof. by move=> n0; rewrite pevalE Poly_vanishing // !hornerE hornerXn. Qed.
End NewDomain.
