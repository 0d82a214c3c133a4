(** The combined constraint polynomial: alpha schedule, selectors, prover side, verifier side. *)
From mathcomp Require Import all_ssreflect all_algebra zify.
From Coq Require Import String Lia.
From Verif Require Import Base ModelPoly ModelVO ModelOracle ModelPC ModelPermutation ModelLookup
  ModelIndexer ModelMultiproof ModelProtocol Spec SpecProtocol SpecPIOP
  ProofBase ProofPoly ProofDomain ProofVO ProofOracle ProofIndexer ProofPermutation ProofLookup ProofColumns ProofOpen
  ProofVerifierCols.

Set Implicit Arguments.
Unset Strict Implicit.
Unset Printing Implicit Defensive.

Import GRing.Theory.
Local Open Scope ring_scope.

Section Schedule.
Variable F : fieldType.
Lemma last_powers (n : nat) (b a : F) x : last x (powers n.+1 b a) = b * a ^+ n.
Proof.
have -> : last x (powers n.+1 b a) = last 0 (powers n.+1 b a) by [].
by rewrite -nth_last size_powers nth_powers.
Qed.
Lemma last_unwrap_powers (n : nat) (b a : F) : (0 < n)%N -> last_unwrap (powers n b a) = Ok (b * a ^+ n.-1).
Proof. by case: n => // n _; have := last_powers n b a 0; rewrite /last_unwrap /= => ->. Qed.
Lemma alpha_scheduleE (alpha : F) k nz nl : (0 < k)%N ->
  alpha_schedule alpha k nz nl = Ok (AlphaPowers (powers k 1 alpha) (powers (2 * nz + 1) (alpha ^+ k) alpha)
    (chunks 5 (powers (5 * nl) (alpha ^+ (k + 2 * nz)) alpha))).
Proof.
move=> k0; rewrite /alpha_schedule last_unwrap_powers // rbind_Ok mul1r.
rewrite -exprSr prednK // /number_of_alphas.
have -> : (2 * nz + 1 + 1 - 1 = (2 * nz).+1)%N by lia.
have -> : (2 * nz + 1 = (2 * nz).+1)%N by lia.
set p := powers _.+1 _ _.
have -> : match p with [::] => alpha ^+ k.-1 | a :: s => last a s end = last (alpha ^+ k.-1) p by case: (p).
by rewrite last_powers exprD.
Qed.
End Schedule.

Section Agg.
Variables (R S : comRingType) (f : {rmorphism R -> S}).
Lemma map_powers n (b a : R) : map f (powers n b a) = powers n (f b) (f a).
Proof. by elim: n b => //= n IH b; rewrite IH rmorphM. Qed.
Lemma compressed_cat (a : R) s t : compressed a (s ++ t) = compressed a s + a ^+ size s * compressed a t.
Proof.
rewrite /compressed size_cat big_split_ord /= big_distrr /=; congr (_ + _); apply: eq_bigr => j _.
  by rewrite nth_cat ltn_ord.
by rewrite nth_cat ltnNge leq_addr /= addKn exprD mulrA.
Qed.
Lemma compressed_nil (a : R) : compressed a [::] = 0.
Proof. by rewrite /compressed big_ord0. Qed.
Lemma combination_powers n (b a : R) cs : size cs = n -> combination (powers n b a) cs = b * compressed a cs.
Proof.
move=> <-; rewrite /combination size_powers /compressed big_distrr /=; apply: eq_bigr => j _.
by rewrite nth_powers ?ltn_ord // mulrA.
Qed.
Lemma chunks5_powers nl (b a : R) : chunks 5 (powers (5 * nl.+1) b a) = powers 5 b a :: chunks 5 (powers (5 * nl) (b * a ^+ 5) a).
Proof.
have -> : (5 * nl.+1 = 5 + 5 * nl)%N by lia.
by rewrite powers_cat chunks_cons ?size_cat ?size_powers // take_size_cat ?size_powers // drop_size_cat ?size_powers.
Qed.
Lemma chunks5_sizes nl (b a : R) : all (fun l => size l == 5%N) (chunks 5 (powers (5 * nl) b a)).
Proof. by elim: nl b => [|nl IH] b; rewrite ?muln0 // chunks5_powers [all _ _]/= IH. Qed.
Lemma lookup_sum nl (b a : R) (ls : seq (seq R)) : size ls = nl -> all (fun l => size l == 5%N) ls ->
  \sum_(t <- zip (chunks 5 (powers (5 * nl) b a)) ls) combination t.1 t.2 = b * compressed a (flatten ls).
Proof.
move=> <-; elim: ls b => [|l ls IH] b; first by rewrite muln0 big_nil compressed_nil mulr0.
rewrite [all _ _]/= => /andP[/eqP s5 H].
rewrite [size _]/= chunks5_powers [zip _ _]/= big_cons IH //.
rewrite -[X in combination X.1]/(powers 5 b a, l) -[X in combination _ X.2]/(powers 5 b a, l) /=.
rewrite -[[:: b; _; _; _; _]]/(powers 5 b a) combination_powers //.
by rewrite [flatten _]/= compressed_cat s5 mulrDr mulrA.
Qed.
Lemma map_compressed (a : R) s : f (compressed a s) = compressed (f a) (map f s).
Proof.
rewrite /compressed rmorph_sum /= size_map; apply: eq_bigr => j _.
by rewrite rmorphM rmorphX /= (nth_map 0) ?ltn_ord.
Qed.
Lemma map_aggregate (a : R) nz vs ps ls :
  f (aggregate a nz vs ps ls) = aggregate (f a) nz (map f vs) (map f ps) (map (map f) ls).
Proof.
rewrite /aggregate rmorphD rmorphM rmorphX /= !map_compressed map_cat size_map; congr (_ + _ * compressed _ _).
by rewrite map_flatten.
Qed.
End Agg.

(** Separation of the constraints by powers of alpha. *)
Section Separation.
Variable F : fieldType.
Lemma compressed_Poly (alpha : F) cs : compressed alpha cs = (Poly cs).[alpha].
Proof. by rewrite -pevalE peval_sum; apply: eq_bigr => j _; rewrite mulrC. Qed.
Definition agg_coefs (nz : nat) (vs ps : seq F) (ls : seq (seq F)) : {poly F} :=
  Poly (vs ++ ps) + Poly (nseq (size vs + 2 * nz) 0 ++ flatten ls).
Lemma aggregateE (alpha : F) nz vs ps ls : aggregate alpha nz vs ps ls = (agg_coefs nz vs ps ls).[alpha].
Proof.
rewrite /aggregate hornerD -!compressed_Poly; congr (_ + _); rewrite [in RHS]compressed_cat size_nseq.
have -> : compressed alpha (nseq (size vs + 2 * nz) 0) = 0.
  by rewrite /compressed big1 // => j _; rewrite nth_nseq if_same mulr0.
by rewrite add0r.
Qed.
Lemma size_agg_coefs nz (vs ps : seq F) ls : (size ps <= 2 * nz + 1)%N ->
  (size (agg_coefs nz vs ps ls) <= (size vs + 2 * nz + size (flatten ls)).+1)%N.
Proof.
move=> sp; apply: leq_trans (size_add _ _) _; rewrite geq_max; apply/andP; split.
  apply: leq_trans (size_Poly _) _; rewrite size_cat -addnS -addnA leq_add2l; apply: leq_trans sp _.
  by rewrite leq_add2l.
by apply: leq_trans (size_Poly _) _; rewrite size_cat size_nseq.
Qed.
Lemma agg_coefs_neq0 nz (vs ps : seq F) ls c :
  ps = [::] /\ nz = 0%N \/ size ps = (2 * nz + 1)%N ->
  last 0 ps = 0 \/ (flatten ls)`_0 = 0 -> c \in vs ++ ps ++ flatten ls -> c != 0 -> agg_coefs nz vs ps ls != 0.
Proof.
move=> sp sh Hc c0; apply/eqP => P0.
have co j : (vs ++ ps)`_j + (nseq (size vs + 2 * nz) 0 ++ flatten ls)`_j = 0 :> F.
  by have := congr1 (fun p : {poly F} => p`_j) P0; rewrite coefD !coef_Poly coef0.
have lo j : (j < size vs + 2 * nz)%N -> (vs ++ ps)`_j = 0.
  by move=> Hj; move: (co j); rewrite [X in _ + X]nth_cat size_nseq Hj nth_nseq if_same addr0.
have hi j : (flatten ls)`_j = - (vs ++ ps)`_(size vs + 2 * nz + j).
  move: (co (size vs + 2 * nz + j)%N); rewrite [X in _ + X]nth_cat size_nseq ltnNge leq_addr /= addKn.
  by move/eqP; rewrite addrC addr_eq0 => /eqP.
have top : (vs ++ ps)`_(size vs + 2 * nz) = last 0 ps.
  case: sp => [[-> ->]|sp]; first by rewrite cats0 muln0 addn0 nth_default.
  by rewrite nth_cat ltnNge leq_addr /= addKn -nth_last sp addn1.
have top0 : last 0 ps = 0 /\ (flatten ls)`_0 = 0.
  by have := hi 0%N; rewrite addn0 top; case: sh => ->; rewrite ?oppr0 => // /esym/eqP; rewrite oppr_eq0 => /eqP.
have big j : (size vs + 2 * nz < j)%N -> (vs ++ ps)`_j = 0.
  move=> Hj; apply: nth_default; rewrite size_cat; apply: leq_trans Hj; rewrite -addnS leq_add2l.
  by case: sp => [[-> _]|->] //; rewrite addn1.
have all0 j : (vs ++ ps)`_j = 0.
  case: (ltngtP j (size vs + 2 * nz)) => [/lo|/big|->] //; by rewrite top top0.1.
have all0' j : (flatten ls)`_j = 0 by rewrite hi all0 oppr0.
move: Hc; rewrite catA mem_cat => /orP[] /(nthP 0)[j _ E]; move/eqP: c0; rewrite -E ?all0 ?all0' //.
Qed.
End Separation.

Section Selector.
Variables (F : fieldType) (env : fenv F).
Hypothesis eok : fenv_ok env.
Variable d : domain F.
Hypothesis sd : std_domain env d.
Let n := dsize d.
Let dok : domain_ok d := std_domain_ok eok sd.
Lemma size_prod_lin (T : Type) (s : seq T) (c a : T -> F) : (size (\prod_(j <- s) (c j *: ('X - (a j)%:P)) : {poly F})%R <= (size s).+1)%N.
Proof.
elim: s => [|j s IH]; first by rewrite big_nil size_poly1.
rewrite big_cons; apply: leq_trans (size_mul_leq _ _) _.
have : (size (c j *: ('X - (a j)%:P))%R <= 2)%N by apply: leq_trans (size_scale_leq _ _) _; rewrite size_XsubC.
by move=> H; rewrite [size (j :: s)]/= -subn1 leq_subLR; apply: leq_trans (leq_add H IH) _.
Qed.
Lemma size_row_selector k : (k < n)%N -> (size (row_selector d k) <= n)%N.
Proof.
move=> kn; rewrite /row_selector -big_filter; apply: leq_trans (size_prod_lin _ _ _) _.
rewrite size_filter; have := count_predC (pred1 k) (iota 0 n).
rewrite size_iota count_uniq_mem ?iota_uniq // mem_iota /= add0n kn /= add1n -/n => E.
by rewrite -[X in (_ < X)%N]E.
Qed.
Lemma row_selector_at k i : (k < n)%N -> (i < n)%N -> (row_selector d k).[element d i] = (i == k)%:R.
Proof.
move=> kn Hi; rewrite /row_selector horner_prod; case: eqP => [->|/eqP ik].
  rewrite big1_seq // => j /andP[jk]; rewrite mem_iota add0n => /andP[_ Hj].
  rewrite hornerZ hornerXsubC mulVf // subr_eq0 -[_ ^+ k]/(element d k) -[_ ^+ j]/(element d j) element_eq //.
  by rewrite !modn_small // eq_sym.
apply/eqP; rewrite prodf_seq_eq0; apply/hasP; exists i; first by rewrite mem_iota.
by rewrite ik hornerZ hornerXsubC subrr mulr0 eqxx.
Qed.
Lemma unit_poly_selector k : (k < n)%N -> exists2 p, unit_poly d n k = Ok p & Poly p = row_selector d k /\ (size p <= n)%N.
Proof.
move=> kn; rewrite /unit_poly kn; eexists; first by [].
have E : Poly (ifft d (set_nth 0 (nseq n 0) k 1)) = row_selector d k.
  apply: (ifft_unique eok) => //; first exact: size_row_selector.
  move=> i Hi; rewrite row_selector_at // nth_set_nth /= nth_nseq; case: eqP => // _; by rewrite if_same.
by rewrite Poly_trim E size_ptrim E size_row_selector.
Qed.
End Selector.

(** Folds over constraints. *)
Section Folds.
Variable F : fieldType.
Lemma combination_cons (R : comRingType) (a c : R) als cs : combination (a :: als) (c :: cs) = a * c + combination als cs.
Proof. by rewrite /combination /= big_ord_recl /=; congr (_ + _); apply: eq_bigr. Qed.
Lemma combination_nil (R : comRingType) (cs : seq R) : combination [::] cs = 0.
Proof. by rewrite /combination big_ord0. Qed.
Lemma vo_fold (vos : seq (generic_vo F)) es lf (g : expr F oquery -> F) als acc :
  map (@gv_get_expression F) vos = map Ok es -> size als = size es ->
  (forall e, occurs e es -> eval_res e lf = Ok (g e)) ->
  rfoldM (fun acc va => e <- gv_get_expression va.1 ;; x <- eval_res e lf ;; Ok (acc + va.2 * x)) acc (zip vos als)
  = Ok (acc + combination als (map g es)).
Proof.
elim: vos es als acc => [|vo vos IH] [|e es] [|a als] acc //=; rewrite ?combination_nil ?addr0 //.
case=> E0 E [sz] H; rewrite E0 rbind_Ok H ?rbind_Ok; last by left.
rewrite (IH es) //; last by move=> e' He'; apply: H; right.
by rewrite combination_cons addrA.
Qed.
Lemma lookup_fold2 (T : Type) (f : T -> seq F -> res F) (ts : seq T) (gs : seq (seq F)) ac acc :
  size ac = size ts -> size gs = size ts -> all (fun l => size l == 5%N) ac ->
  (forall j t al, idx ts j = Ok t -> size al = 5%N -> f t al = Ok (combination al (nth [::] gs j))) ->
  rfoldM (fun acc lza => x <- f lza.1 lza.2 ;; Ok (acc + x)) acc (zip ts ac)
  = Ok (acc + \sum_(t <- zip ac gs) combination t.1 t.2).
Proof.
elim: ts gs ac acc => [|t ts IH] [|g gs] [|a ac] acc //=; rewrite ?big_nil ?addr0 //.
case=> sz [sg] /andP[/eqP H5 H5'] H; rewrite (H 0%N) //.
rewrite !rbind_Ok (IH gs) //; first by rewrite big_cons addrA.
by move=> j t' al Ht; apply: (H j.+1).
Qed.
Lemma lookup_fold (T : Type) (f : T -> seq F -> res F) (g : T -> seq F) (ts : seq T) ac acc :
  size ac = size ts -> all (fun l => size l == 5%N) ac ->
  (forall t al, occurs t ts -> size al = 5%N -> f t al = Ok (combination al (g t))) ->
  rfoldM (fun acc lza => x <- f lza.1 lza.2 ;; Ok (acc + x)) acc (zip ts ac)
  = Ok (acc + \sum_(t <- zip ac (map g ts)) combination t.1 t.2).
Proof.
move=> sz H5 H; apply: lookup_fold2; rewrite ?size_map // => j t al Hj s5.
have [Hs E] := idx_ok Hj; rewrite (nth_map t) // E; apply: H => //; exact: occurs_idx Hj.
Qed.
End Folds.

Section Chunked.
Variable F : fieldType.
Lemma Poly_cat (s t : seq F) : Poly (s ++ t) = Poly s + 'X^(size s) * Poly t.
Proof.
apply/polyP => j; rewrite coefD coefXnM !coef_Poly nth_cat; case: ltnP => H; first by rewrite addr0.
by rewrite [s`_j]nth_default ?add0r.
Qed.
Lemma recombined_cons n (t : {poly F}) ts : recombined n (t :: ts) = t + 'X^n * recombined n ts.
Proof.
rewrite /recombined big_ord_recl muln0 expr0 mul1r big_distrr /=; congr (_ + _); apply: eq_bigr => k _.
by rewrite mulnS exprD mulrA.
Qed.
Lemma recombined_chunks n (s : seq F) : (0 < n)%N -> recombined n (map Poly (chunks n s)) = Poly s.
Proof.
move=> n0; elim/(@chunks_ind F n n0): s => [|s s0 IH]; first by rewrite /recombined big_ord0.
rewrite chunks_cons // map_cons recombined_cons IH; case: (leqP (size s) n) => H.
  by rewrite take_oversize // drop_oversize // Poly_nil mulr0 addr0.
by rewrite -[in RHS](cat_take_drop n s) Poly_cat size_takel // ltnW.
Qed.
Lemma Poly_pad (s : seq F) k : Poly (s ++ nseq k 0) = Poly s.
Proof.
rewrite Poly_cat [X in _ + _ * X](_ : _ = 0) ?mulr0 ?addr0 //.
by apply/polyP => j; rewrite coef_Poly coef0 nth_nseq if_same.
Qed.
End Chunked.

Section Main.
Variables (F : fieldType) (env : fenv F).
Hypothesis eok : fenv_ok env.
Variables (d : domain F).
Hypothesis sd : std_domain env d.
Variables (PC : pcs F) (vk : verifier_key F) (vos : seq (generic_vo F)) (es : seq (expr F oquery)) (A : assignment F).
Let ix := vk_index vk.
Let pa := ix_perm ix.
Let n := dsize d.
Let u := pa_usable_rows pa.
Hypothesis ev : map (@gv_get_expression F) vos = map Ok es.
Hypothesis shape : shape_ok d pa A (size (ix_lookups ix)).
Hypothesis eqok : exprs_ok (as_ws A) (as_ins A) (as_fs A) n es.
Hypothesis k0 : (0 < size vos)%N.

Lemma size_es : size es = size vos.
Proof. by rewrite -(size_map Ok es) -ev size_map. Qed.
Definition lcons (beta gamma : F) (t : lookup_oracles (poracle F) * poracle F) : seq {poly F} :=
  lookup_constraints (row_selector d 0) (row_selector d u) (opoly (as_qb A))
         beta%:P gamma%:P (opoly (lo_a t.1)) (opoly (lo_s t.1)) (opoly (lo_a' t.1)) (opoly (lo_s' t.1))
         (scaled_arg (dgen d)^-1 (opoly (lo_a' t.1))) (opoly t.2) (scaled_arg (dgen d) (opoly t.2)).

Lemma size_copied_pos : ~~ nilp (copied (as_ws A)) -> (0 < size (copied (as_ws A)))%N.
Proof. by case: (copied _). Qed.
Lemma size_perm_polys beta gamma : ~~ nilp (copied (as_ws A)) -> size (perm_polys d pa beta gamma A) = (2 * size (as_zs A) + 1)%N.
Proof.
move=> nn; have sz := size_copied_pos nn; case: shape => _ _ _ _; rewrite gtn_eqF // => -[m0 ss sdl sz'].
rewrite /perm_polys (negbTE nn).
set cs := perm_chunks _ _ _; have scs : size cs = size (as_zs A).
  rewrite size_map size_zip !size_map !size_chunks // size_map !size_zip !size_map ss sdl !minnn sz' size_chunks // minnn.
  by [].
rewrite size_perm_constraints ?scs // sz' chunks_cons //.
Qed.
Lemma perm_polys_nil beta gamma : nilp (copied (as_ws A)) -> perm_polys d pa beta gamma A = [::] /\ as_zs A = [::].
Proof.
move=> nn; rewrite /perm_polys nn; split=> //; case: shape => _ _ _ _; move: nn; by rewrite /nilp => ->.
Qed.
Lemma lookup_polysE beta gamma : lookup_polys d pa beta gamma A = map (lcons beta gamma) (zip (as_los A) (as_lzs A)).
Proof. by []. Qed.
Lemma size_lookup_polys beta gamma : size (lookup_polys d pa beta gamma A) = size (ix_lookups ix).
Proof. by case: shape => _ _ s1 s2 _; rewrite size_map size_zip s1 s2 minnn. Qed.

(** The three sums with the scheduled powers are the numerator. *)
Lemma schedule_sum beta gamma (alpha x : F) al : alpha_schedule alpha (size vos) (size (as_zs A)) (size (ix_lookups ix)) = Ok al ->
  let ev p := horner p x in
  let pv := if nilp (copied (as_ws A)) then 0
            else combination (ap_perm al) (map ev (perm_polys d pa beta gamma A)) in
  combination (ap_vos al) (map ev (vo_polys d es A)) + pv
  + \sum_(t <- zip (ap_lookups al) (map (map ev) (lookup_polys d pa beta gamma A))) combination t.1 t.2
  = (numerator d pa es beta gamma A alpha).[x].
Proof.
rewrite alpha_scheduleE // => -[<-] /=.
rewrite -[RHS]/(horner_eval x _) /numerator map_aggregate /aggregate compressed_cat.
rewrite combination_powers; last by rewrite !size_map size_es.
have hC : horner_eval_rmorphism x alpha%:P = alpha by rewrite /= /horner_eval hornerC.
rewrite hC mul1r !size_map size_es; congr (_ + _ + _).
- case: ifP => nn; first by rewrite (perm_polys_nil _ _ nn).1 compressed_nil mulr0.
  by rewrite combination_powers // size_map size_perm_polys // nn.
- rewrite lookup_sum //; first by rewrite size_map size_lookup_polys.
  by rewrite all_map lookup_polysE all_map; elim: (zip (as_los A) (as_lzs A)).
Qed.

Lemma horner_combination (als : seq F) (cs : seq {poly F}) (x : F) :
  (combination (map polyC als) cs).[x] = combination als [seq p.[x] | p <- cs].
Proof.
rewrite /combination horner_sum size_map; apply: eq_bigr => j _; rewrite hornerM (nth_map 0) ?ltn_ord // hornerC.
case: (ltnP j (size cs)) => H; first by rewrite (nth_map 0).
by rewrite [cs`_j]nth_default // [[seq p.[x] | p <- cs]`_j]nth_default ?size_map // horner0.
Qed.

(** *** The prover *)
Section Prover.
Variable pre : prover_pre PC.
Let ext := ix_ext ix.
Hypothesis se : std_domain env ext.
Hypothesis le : (n <= dsize ext)%N.
Hypothesis pf : pp_fixed pre = as_fs A.
Hypothesis pp_ : pp_perm pre = as_sigmas A.
Hypothesis pq : pp_q_blind pre = as_qb A.
Hypothesis aok : assignment_ok env d ext A.
Lemma occurs_filter (T : Type) (P : pred T) x (s : seq T) : occurs x (filter P s) -> occurs x s.
Proof. by elim: s => //= y s IH; case: (P y) => /=; [case=> [->|/IH]; [left|right]|move/IH; right]. Qed.
Lemma occurs_zip (S T : Type) (x : S * T) (s : seq S) (t : seq T) : occurs x (zip s t) -> occurs x.1 s /\ occurs x.2 t.
Proof.
elim: s t => [|a s IH] [|b t] //= [->|/IH [H1 H2]] /=; first by split; left.
by split; right.
Qed.
Lemma numerator_atE (l0 lu : lpoly F) beta gamma alpha al i :
  alpha_schedule alpha (size vos) (size (as_zs A)) (size (ix_lookups ix)) = Ok al ->
  Poly l0 = row_selector d 0 -> Poly lu = row_selector d u -> (size l0 <= n)%N -> (size lu <= n)%N -> (i < dsize ext)%N ->
  numerator_at env ix pre (as_ws A) (as_ins A) (copied (as_ws A)) (as_zs A) (as_los A) (as_lzs A) vos beta gamma al
    (coset_fft env ext l0) (coset_fft env ext lu) i = Ok (numerator d pa es beta gamma A alpha).[coset_point env ext i].
Proof.
move=> Hal E0 Eu s0 su Hi; have [n1 un sl slz shp] := shape; have [wsok inok fsok qbok sgok zok look lzok] := aok.
rewrite /numerator_at pf pp_ pq.
have [El Ep Ev] : [/\ ap_lookups al = chunks 5 (powers (5 * size (ix_lookups ix)) (alpha ^+ (size vos + 2 * size (as_zs A))) alpha),
    ap_perm al = powers (2 * size (as_zs A) + 1) (alpha ^+ size vos) alpha & ap_vos al = powers (size vos) 1 alpha].
  by move: Hal; rewrite alpha_scheduleE // => -[<-].
rewrite (@vo_fold F vos es _ (fun e => (expr_poly (as_ws A) (as_ins A) (as_fs A) (dgen d) e).[coset_point env ext i])) //.
- rewrite rbind_Ok add0r.
  have -> : (if nilp (copied (as_ws A)) then Ok 0 else perm_instantiate env (ix_perm ix) (coset_fft env ext l0) (coset_fft env ext lu)
      (as_qb A) (copied (as_ws A)) (as_sigmas A) (as_zs A) i (element (ix_ext ix) i) beta gamma (ap_perm al))
    = Ok (if nilp (copied (as_ws A)) then 0 else combination (ap_perm al)
            [seq p.[coset_point env ext i] | p <- perm_polys d pa beta gamma A]).
    case: ifP => nn //; move/negbT: (nn) => nn'; have sz := size_copied_pos nn'.
    move: shp; rewrite gtn_eqF // => -[m0 ss sdl sz'].
    rewrite (perm_instantiate_poly eok sd se le) //; try by [exact: leq_trans le|].
    + by rewrite /perm_identity horner_combination E0 Eu /perm_polys nn.
    + by move=> o Ho; apply: wsok.2; apply: occurs_filter Ho.
    + by rewrite Ep size_powers.
  rewrite rbind_Ok.
  rewrite (@lookup_fold F _ (fun t al => lookup_instantiate (coset_fft env ext l0) (coset_fft env ext lu) (as_qb A) t.1 t.2 beta gamma i al)
     (fun t => [seq p.[coset_point env ext i] | p <- lcons beta gamma t])).
  + by rewrite -(schedule_sum beta gamma _ Hal) /= /vo_polys lookup_polysE -!map_comp.
  + by rewrite El (@chunks_take_exact _ _ _ (size (ix_lookups ix))) ?size_powers ?size_zip ?sl ?slz ?minnn // mulnC.
  + by rewrite El chunks5_sizes.
  + move=> t al' Ht s5; have [H1 H2] := occurs_zip Ht; have [p1 p2 p3 p4] := look _ H1.
    rewrite (lookup_instantiate_poly eok sd se le) //; try by [exact: leq_trans le|exact: lzok].
    by rewrite /lookup_identity horner_combination E0 Eu.
- by rewrite Ev size_powers size_es.
- by move=> e He; rewrite (expr_coset_ok eok sd se le) // => q Hq; apply: (eqok He).
Qed.

Lemma opoly_chunk (kc : nat * seq F) : opoly (quotient_chunk_oracle d kc) = Poly kc.2.
Proof. by rewrite /opoly /= Poly_trim. Qed.
Lemma prover_quotient_roundE beta gamma alpha : size (vk_zh_inverses vk) = dsize ext ->
  exists cs, [/\ prover_quotient_round env vk pre (as_ws A) (as_ins A) (copied (as_ws A)) (as_zs A) (as_los A) (as_lzs A) vos
                   beta gamma alpha d = Ok cs,
    (size (recombined n (map (@opoly F) cs)) <= dsize ext)%N,
    forall i, (i < dsize ext)%N -> (recombined n (map (@opoly F) cs)).[coset_point env ext i] =
      (numerator d pa es beta gamma A alpha).[coset_point env ext i] * (vk_zh_inverses vk)`_i,
    size cs = cdiv (dsize ext) n &
    forall k c, idx cs k = Ok c -> [/\ o_label c = ("quotient_chunk_" ++ show_nat k)%string, o_rots c = [:: curr] & (size (po_poly c) <= n)%N]].
Proof.
move=> szh; have [n1 un _ _ _] := shape.
rewrite /prover_quotient_round; have Hal := alpha_scheduleE alpha (size (as_zs A)) (size (ix_lookups ix)) k0.
rewrite -/ix Hal rbind_Ok.
have [l0 -> [E0 s0]] := unit_poly_selector eok sd (ltnW n1); have [lu -> [Eu su]] := unit_poly_selector eok sd un.
rewrite !rbind_Ok.
rewrite (@rmapM_map _ _ _ (fun i => (numerator d pa es beta gamma A alpha).[coset_point env ext i])); last first.
  move=> i a0; rewrite size_iota => Hi; rewrite nth_iota // add0n; exact: numerator_atE Hal E0 Eu s0 su Hi.
rewrite rbind_Ok; set qe := map _ (zip _ _); set q := ptrim _.
have sq : (size q <= dsize ext)%N by rewrite /q size_ptrim size_Poly_coset_ifft.
rewrite /usub sq rbind_Ok /chunksR -/n gtn_eqF ?(ltnW n1) // rbind_Ok.
set cs := chunks _ _; eexists; split; first by [].
all: try have RE : recombined n (map (@opoly F) [seq quotient_chunk_oracle d kc | kc <- enumerate cs]) = Poly (coset_ifft env ext qe).
all: try (rewrite -map_comp (eq_map opoly_chunk) map_comp -/(unzip2 _) unzip2_enumerate recombined_chunks ?Poly_pad ?Poly_trim //; exact: ltnW).
- by rewrite RE size_Poly_coset_ifft.
- move=> i Hi; rewrite RE -pevalE coset_ifft_eval //.
  have sn : size [seq (numerator d pa es beta gamma A alpha).[coset_point env ext i] | i <- iota 0 (dsize ext)] = dsize ext.
    by rewrite size_map size_iota.
  rewrite /qe (nth_map (0, 0)); last by rewrite size_zip sn szh minnn.
  by rewrite nth_zip ?sn //= (nth_map 0%N) ?size_iota // nth_iota.
- by rewrite size_map size_enumerate size_chunks ?(ltnW n1) // size_cat size_nseq subnKC.
- move=> k c; rewrite idx_map => Hc; have [kc Hk ->] := rmap_ok Hc.
  have [Hs Ek] := idx_ok Hk; move: Hs; rewrite size_enumerate => Hs.
  have {Ek} Ek := Ek (0%N, [::]); rewrite nth_enumerate // in Ek; rewrite -Ek /=; split=> //.
  apply: leq_trans (size_ptrim_le _) _; apply: (@size_chunk_le _ _ (q ++ nseq (dsize ext - size q) 0)) => //; first exact: ltnW.
  by exists k.
Qed.
End Prover.

(** *** The verifier *)
Section Verifier.
Variables (vpre : verifier_pre PC) (x : F) (v : view F (pc_com PC)) (ts : seq (poracle F)).
Hypothesis uw : uniq (map (@o_label _) (as_ws A)).
Hypothesis ui : uniq (map (@o_label _) (as_ins A)).
Hypothesis uf : uniq (map (@o_label _) (as_fs A)).
Hypothesis dec : exprs_declared (as_ws A) (as_fs A) es.
Hypothesis sv : sees (dgen d) x u v A ts.
Hypothesis vf : vp_fixed vpre = v_fs v.
Hypothesis vp_ : vp_perm vpre = v_sigmas v.
Hypothesis vq : vp_q_blind vpre = v_qb v.
Lemma quotient_sum (vs : seq (voracle F (pc_com PC))) cs acc b : all_answer x vs cs ->
  rfoldM (fun acc xc => y <- vo_query xc.2 x ;; Ok (acc + xc.1 * y)) acc (zip (powers (size vs) b (x ^+ n)) vs)
  = Ok (acc + b * (recombined n (map (@opoly F) cs)).[x]).
Proof.
elim: vs cs acc b => [|o vs IH] [|c cs] acc b [] // => [_ _|].
  by rewrite /recombined big_ord0 horner0 mulr0 addr0.
move=> [sz] H; rewrite [powers _ _ _]/= [zip _ _]/= [rfoldM _ _ _]/= (H 0%N o c) // rbind_Ok rbind_Ok (IH cs); last first.
  by split=> // j v' p'; apply: (H j.+1).
rewrite map_cons recombined_cons hornerD hornerM hornerXn pevalE /opoly mulrDr addrA.
by rewrite mulrA.
Qed.
Lemma idx_zip (S T : Type) (a : seq S) (b : seq T) j t : idx (zip a b) j = Ok t -> idx a j = Ok t.1 /\ idx b j = Ok t.2.
Proof. by elim: a b j => [|a0 a IH] [|b0 b] [|j] //= => [[<-]|/IH]. Qed.
Lemma quotient_checkE beta gamma alpha z_h :
  quotient_check vk (v_ws v) (v_ins v) vpre (v_copied v) (v_zs v) (v_los v) (v_lzs v) (v_chunks v) vos beta gamma alpha x d n z_h =
  if (numerator d pa es beta gamma A alpha).[x] - (recombined n (map (@opoly F) ts)).[x] * (Poly z_h).[x] != 0
  then Err QuotientNotZero else Ok tt.
Proof.
have [n1 un sl slz shp] := shape; have [tw ti tf aqb [sc ac] [ssg asg] [szs azs] azn azu [svl avl] [svlz avlz] [_ avlzn] ach] := sv.
rewrite /quotient_check vf vp_ vq szs -/ix.
have [al Hal [El Ep Ev]] : exists2 al, alpha_schedule alpha (size vos) (size (as_zs A)) (size (ix_lookups ix)) = Ok al &
  [/\ ap_lookups al = chunks 5 (powers (5 * size (ix_lookups ix)) (alpha ^+ (size vos + 2 * size (as_zs A))) alpha),
    ap_perm al = powers (2 * size (as_zs A) + 1) (alpha ^+ size vos) alpha & ap_vos al = powers (size vos) 1 alpha].
  by rewrite alpha_scheduleE //; eexists.
rewrite Hal rbind_Ok.
have [l0 -> [E0 s0]] := unit_poly_selector eok sd (ltnW n1); have [lu -> [Eu su]] := unit_poly_selector eok sd un.
rewrite !rbind_Ok.
rewrite (@vo_fold F vos es _ (fun e => (expr_poly (as_ws A) (as_ins A) (as_fs A) (dgen d) e).[x])) //.
- rewrite rbind_Ok add0r.
  have -> : (if nilp (v_copied v) then Ok 0 else perm_open (ix_perm ix) (peval l0 x) (peval lu x) (v_qb v) (v_zs v) (v_sigmas v) (v_copied v)
       beta gamma d x (ap_perm al))
    = Ok (if nilp (copied (as_ws A)) then 0 else combination (ap_perm al) [seq p.[x] | p <- perm_polys d pa beta gamma A]).
    rewrite /nilp sc -/(nilp _); case: ifP => nn //; move/negbT: (nn) => nn'; have sz := size_copied_pos nn'.
    move: shp; rewrite gtn_eqF // => -[m0 ss sdl sz'].
    rewrite (@perm_open_poly F d _ x (ix_perm ix) l0 lu (as_qb A) (copied (as_ws A)) (as_sigmas A) (as_zs A)) //.
    + by rewrite /perm_identity horner_combination E0 Eu /perm_polys nn.
    + by rewrite Ep size_powers.
  rewrite rbind_Ok.
  rewrite (@lookup_fold2 F _ (fun t al => lookup_open (peval l0 x) (peval lu x) (v_qb v) t.1 t.2 beta gamma x d al)
     _ [seq [seq p.[x] | p <- lcons beta gamma t] | t <- zip (as_los A) (as_lzs A)]).
  + rewrite rbind_Ok.
    have -> : combination (ap_vos al) [seq (expr_poly (as_ws A) (as_ins A) (as_fs A) (dgen d) e).[x] | e <- es]
      + (if nilp (copied (as_ws A)) then 0 else combination (ap_perm al) [seq p.[x] | p <- perm_polys d pa beta gamma A])
      + \sum_(t <- zip (ap_lookups al) [seq [seq p.[x] | p <- lcons beta gamma t] | t <- zip (as_los A) (as_lzs A)]) combination t.1 t.2
      = (numerator d pa es beta gamma A alpha).[x].
      by rewrite -(schedule_sum beta gamma _ Hal) /= /vo_polys lookup_polysE -!map_comp.
    by rewrite (@quotient_sum _ ts) // rbind_Ok add0r mul1r pevalE.
  + by rewrite El (@chunks_take_exact _ _ _ (size (ix_lookups ix))) ?size_powers ?size_zip ?svl ?svlz ?sl ?slz ?minnn // mulnC.
  + by rewrite size_map !size_zip svl svlz.
  + by rewrite El chunks5_sizes.
  + move=> j [vlo vz] al' Hj s5; have [Hj1 Hj2] := idx_zip Hj.
    have [jl _] := idx_ok Hj1; have [jz _] := idx_ok Hj2; rewrite svl in jl; rewrite svlz in jz.
    have [lo Hlo] := idx_some jl; have [z Hz] := idx_some jz.
    have [a1 a2 a3 [a4 a5]] := avl _ _ _ Hj1 Hlo.
    rewrite (@lookup_open_poly F env eok d sd _ x l0 lu (as_qb A) lo z) //; last first.
    * exact: avlzn Hj2 Hz.
    * exact: avlz Hj2 Hz.
    rewrite /lookup_identity horner_combination E0 Eu (nth_map (lo, z)) ?size_zip ?sl ?slz ?minnn -?sl //.
    by rewrite nth_zip ?sl ?slz // -(idx_ok_nth lo Hlo) -(idx_ok_nth z Hz).
- by rewrite Ev size_powers size_es.
- move=> e He; rewrite expr_poly_at; apply: eval_res_ok => q Hq.
  apply: verifier_leaf_ok => //; first exact: (std_domain_ok eok sd).
  + exact: eqok He Hq.
  + exact: dec He Hq.
Qed.
End Verifier.
End Main.
