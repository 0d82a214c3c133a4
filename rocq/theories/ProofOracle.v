(** Proofs about concrete oracles, rotations and evaluation registration (C12-C18). *)
From mathcomp Require Import all_ssreflect all_algebra zify.
From Coq Require Import String.
From Verif Require Import Base ModelPoly ModelVO ModelOracle Spec ProofBase ProofPoly ProofDomain ProofVO.

Set Implicit Arguments.
Unset Strict Implicit.
Unset Printing Implicit Defensive.

Import GRing.Theory.
Local Open Scope ring_scope.

Section Rotation.
Variable F : fieldType.
Implicit Types (d : domain F) (x : F) (r : rotation).

Lemma expV_sub (w : F) n i k : w ^+ n = 1 -> w != 0 -> (k <= n)%N -> w ^+ (i + (n - k)) = w ^+ i * w ^- k.
Proof.
move=> wn w0 le; rewrite exprD; congr (_ * _).
by apply: (mulIf (expf_neq0 k w0)); rewrite -exprD subnK // wn mulVf // expf_neq0.
Qed.

Lemma rot_row_lt n r i : (0 < n)%N -> (rot_row n r i < n)%N.
Proof. by rewrite /rot_row; case: r.2 => H; apply: ltn_pmod. Qed.

Lemma rot_row_point d r i : domain_ok d ->
  element d (rot_row (dsize d) r i) = rot_point (dgen d) r (element d i).
Proof.
move=> dok; rewrite /rot_row /rot_point; case: r.2; last by rewrite element_mod // /element exprD.
rewrite element_mod // /element expV_sub ?dgen_exp ?dgen_neq0 //; last first.
  by apply: ltnW; apply: ltn_pmod; apply: dsize_gt0.
by congr (_ / _); have := element_mod r.1 dok; rewrite /element => ->.
Qed.

Definition pinfo (w : F) (r : rotation) (l : label) (x : F) : label * F :=
  ((if r.1 == 0%N then l
    else if r.2 then ("omega_-" ++ show_nat r.1 ++ "_" ++ l)%string
    else ("omega_" ++ show_nat r.1 ++ "_" ++ l)%string), rot_point w r x).

Lemma compute_point_ok d r x : domain_ok d -> (r.1 < dsize d)%N ->
  compute_evaluation_point r x (elements d) = Ok (rot_point (dgen d) r x).
Proof.
move=> dok lt; rewrite /compute_evaluation_point /rot_point.
case: eqP => [->|_]; first by rewrite expr0 invr1 mulr1; case: r.2.
rewrite idx_elements //=; case: r.2 => //=.
by rewrite /finv (negPf (element_neq0 _ dok)).
Qed.

Lemma compute_point_oob d r x : (0 < r.1)%N -> (dsize d <= r.1)%N ->
  compute_evaluation_point r x (elements d) = Panic PIndex.
Proof.
move=> r0 le; rewrite /compute_evaluation_point (gtn_eqF r0) idx_oob //.
by rewrite size_elements.
Qed.

Lemma point_info_ok d r l x : domain_ok d -> (r.1 < dsize d)%N ->
  get_point_info r l x (elements d) = Ok (pinfo (dgen d) r l x).
Proof.
move=> dok lt; rewrite /get_point_info /pinfo /rot_point.
case: eqP => [->|_]; first by rewrite expr0 invr1 mulr1; case: r.2.
rewrite idx_elements //=; case: r.2 => /=; last by rewrite mulrC.
by rewrite /finv (negPf (element_neq0 _ dok)) /= mulrC.
Qed.

Lemma point_info_oob d r l x : (0 < r.1)%N -> (dsize d <= r.1)%N ->
  get_point_info r l x (elements d) = Panic PIndex.
Proof.
move=> r0 le; rewrite /get_point_info (gtn_eqF r0) idx_oob //.
by rewrite size_elements.
Qed.

Lemma rot_point_eq d r r' x : domain_ok d -> x != 0 ->
  rot_point (dgen d) r x = rot_point (dgen d) r' x <->
  rot_row (dsize d) r 0 = rot_row (dsize d) r' 0.
Proof.
move=> dok x0; have n0 := dsize_gt0 dok.
have E r1 : rot_point (dgen d) r1 x = x * element d (rot_row (dsize d) r1 0).
  by rewrite rot_row_point // /rot_point; case: r1.2; rewrite element0 mul1r.
rewrite !E; split=> [/(mulfI x0)/eqP|->] //.
by rewrite element_eq // !modn_small ?rot_row_lt // => /eqP.
Qed.
End Rotation.

Section Queries.
Variables (F : fieldType) (env : fenv F) (eok : fenv_ok env).
Implicit Types (d ext : domain F) (p : poracle F) (r : rotation).

Definition set_coset (c : seq F) p := Oracle (o_label p) (o_rots p)
  (PData (pd_kind (o_data p)) (po_poly p) (po_evals p) (Some c) (pd_permute (o_data p))).

Lemma modB_ne N k : (0 < N)%N -> ~~ (N %| k)%N -> (N - k %% N < N)%N.
Proof.
move=> N0 /negP nd; have : (k %% N != 0)%N by apply/negP => H; apply: nd.
by have := ltn_pmod k N0; lia.
Qed.

(** The coset query as a function of rows, for coset evaluations [c] of length N = ratio * n. *)
Lemma query_in_coset_row p c i r ratio n :
  pd_coset (o_data p) = Some c -> size (po_evals p) = n -> size c = (ratio * n)%N -> (0 < n)%N ->
  (i < size c)%N ->
  query_in_coset p i r =
    if [&& r.2, (i < r.1 * ratio)%N & (size c %| r.1 * ratio - i)%N] then Panic PIndex
    else Ok (c`_(rot_row (size c) (r.1 * ratio, r.2)%N i)).
Proof.
move=> Hc Hn HN n0 Hi; rewrite /query_in_coset /get_extended_coset_evals Hc /=.
have N0 : (0 < size c)%N by apply: leq_ltn_trans Hi.
case: eqP => [->|_].
  rewrite mul0n ltn0 andbF /= (idx_nth 0) // /rot_row /=; case: r.2; rewrite ?mod0n ?subn0 ?addn0 ?modnDr modn_small //.
rewrite /udiv Hn (gtn_eqF n0) /= HN mulnK // -HN.
set k := (r.1 * ratio)%N; rewrite /umod (gtn_eqF N0) /rot_row /=.
case: r.2 => /=; last by rewrite (idx_nth 0) // ltn_pmod.
case: leqP => [le|lt] /=.
  rewrite (idx_nth 0); last by apply: leq_ltn_trans Hi; apply: leq_subr.
  congr (Ok (nth _ _ _)).
  have kl : (k < size c)%N by apply: leq_ltn_trans Hi.
  rewrite (modn_small kl) addnBA; last exact: ltnW.
  by rewrite addnC -addnBA // modnDl modn_small // (leq_ltn_trans _ Hi) // leq_subr.
rewrite /usub; have lm := ltn_pmod (k - i) N0; rewrite (ltnW lm) /=.
case: ifP => dv.
  by rewrite idx_oob //; move: dv; rewrite /dvdn => /eqP ->; rewrite subn0.
rewrite (idx_nth 0) ?modB_ne ?dv //; congr (Ok (nth _ _ _)).
set N := size c in N0 Hi dv lm *.
have H1 : (N - (k - i) %% N < N)%N by apply: modB_ne => //; rewrite dv.
rewrite -[LHS](modn_small H1); apply/eqP; rewrite -(eqn_modDr (k - i)%N).
rewrite -[X in (N - _ + X)%N](subnK (leq_mod (k - i) N)).
have -> : (N - (k - i) %% N + (k - i - (k - i) %% N + (k - i) %% N) = N + (k - i - (k - i) %% N))%N by lia.
have -> : (i + (N - k %% N) + (k - i) = N + (k - k %% N))%N.
  by have := leq_mod k N; have := ltn_pmod k N0; lia.
have E m : (m - m %% N = m %/ N * N)%N by rewrite {1}(divn_eq m N) addnK.
by rewrite !E !modnDl !modnMl.
Qed.

Lemma rot_row_scaled d ext ratio r i : domain_ok ext -> dgen ext ^+ ratio = dgen d ->
  element ext (rot_row (dsize ext) (r.1 * ratio, r.2)%N i) = rot_point (dgen d) r (element ext i).
Proof.
move=> eo e; rewrite rot_row_point // /rot_point /=.
by rewrite mulnC exprM e.
Qed.

Lemma query_in_coset_poly d ext p i r :
  std_domain env d -> std_domain env ext -> (dsize d <= dsize ext)%N ->
  size (po_evals p) = dsize d -> (size (po_poly p) <= dsize ext)%N -> (i < dsize ext)%N ->
  let ratio := (dsize ext %/ dsize d)%N in
  query_in_coset (compute_extended_evals env ext p) i r =
    if [&& r.2, (i < r.1 * ratio)%N & (dsize ext %| r.1 * ratio - i)%N] then Panic PIndex
    else Ok (peval (po_poly p) (rot_point (dgen d) r (coset_point env ext i))).
Proof.
move=> sd se le sz sp Hi ratio; have [HN Hw] := std_domain_ratio eok sd se le.
have N0 := dsize_gt0 (std_domain_ok eok se).
rewrite (@query_in_coset_row _ (coset_fft env ext (po_poly p)) i r ratio (dsize d)) //; last first.
- by rewrite size_coset_fft.
- exact: dsize_gt0 (std_domain_ok eok sd).
- by rewrite size_coset_fft.
rewrite size_coset_fft; case: ifP => // _; congr Ok.
rewrite nth_coset_fft ?rot_row_lt // take_oversize //.
congr peval; rewrite /coset_point (rot_row_scaled _ _ (std_domain_ok eok se) Hw).
by rewrite /rot_point; case: r.2; rewrite mulrA.
Qed.

Lemma query_row p i r : (i < size (po_evals p))%N ->
  let n := size (po_evals p) in
  query_at_omega_in_original_domain p i r =
    if [&& r.2, (i < r.1)%N & (n %| r.1 - i)%N] then Panic PIndex
    else Ok ((po_evals p)`_(rot_row n r i)).
Proof.
move=> Hi n; rewrite /query_at_omega_in_original_domain -/n.
have := @query_in_coset_row (set_coset (po_evals p) p) (po_evals p) i r 1 n erefl erefl (esym (mul1n _)) (leq_ltn_trans (leq0n _) Hi) Hi.
rewrite /query_in_coset /=; case: eqP => [r0|rn0].
  by rewrite r0 mul0n -/n => ->; case: r r0 => a b /= ->.
rewrite /udiv /= -/n; have n0 : (0 < n)%N by apply: leq_ltn_trans Hi.
rewrite (gtn_eqF n0) /= divnn n0 muln1 => ->.
by case: r {rn0}.
Qed.

Lemma query_row_poly d p i r : std_domain env d ->
  size (po_evals p) = dsize d -> po_poly p = ptrim (ifft d (po_evals p)) -> (i < dsize d)%N ->
  (po_evals p)`_(rot_row (dsize d) r i) = peval (po_poly p) (rot_point (dgen d) r (element d i)).
Proof.
move=> sd sz Hp Hi; have dok := std_domain_ok eok sd.
rewrite -rot_row_point // Hp peval_trim (ifft_eval eok) // rot_row_lt //.
exact: dsize_gt0.
Qed.

Lemma no_wrap (n ratio i d : nat) : (d < n)%N -> (i < d * ratio)%N -> ~~ ((ratio * n) %| d * ratio - i)%N.
Proof.
move=> dn ir; apply/negP => /dvdn_leq; rewrite subn_gt0 => /(_ ir) H.
have : (d * ratio < ratio * n)%N by rewrite mulnC ltn_pmul2l //; case: ratio ir {H} => //; rewrite muln0.
by lia.
Qed.

Lemma query_row_in_bounds p i r : (i < size (po_evals p))%N -> (r.1 < size (po_evals p))%N ->
  query_at_omega_in_original_domain p i r = Ok ((po_evals p)`_(rot_row (size (po_evals p)) r i)).
Proof.
move=> Hi Hr; rewrite query_row //; case: r.2 => //=; case: ltnP => // lt.
by have := @no_wrap _ 1 i _ Hr; rewrite muln1 mul1n => /(_ lt) /negPf ->.
Qed.

Lemma query_coset_in_bounds d ext p i r :
  std_domain env d -> std_domain env ext -> (dsize d <= dsize ext)%N ->
  size (po_evals p) = dsize d -> (size (po_poly p) <= dsize ext)%N -> (i < dsize ext)%N ->
  (r.1 < dsize d)%N ->
  query_in_coset (compute_extended_evals env ext p) i r =
  Ok (peval (po_poly p) (rot_point (dgen d) r (coset_point env ext i))).
Proof.
move=> sd se le sz sp Hi Hr; rewrite (query_in_coset_poly _ sd se) //.
have [HN _] := std_domain_ratio eok sd se le.
case: r.2 => //=; case: ltnP => // lt.
by rewrite {1}HN (negPf (no_wrap Hr lt)).
Qed.

Lemma row_query_oob p : (0 < size (po_evals p))%N ->
  query_at_omega_in_original_domain p 0 (size (po_evals p), true) = Panic PIndex.
Proof. by move=> H; rewrite query_row //= H subn0 dvdnn. Qed.

Lemma coset_query_oob d ext p : std_domain env d -> std_domain env ext -> (dsize d <= dsize ext)%N ->
  size (po_evals p) = dsize d -> (size (po_poly p) <= dsize ext)%N ->
  query_in_coset (compute_extended_evals env ext p) 0 (dsize d, true) = Panic PIndex.
Proof.
move=> sd se le sz sp; have N0 := dsize_gt0 (std_domain_ok eok se).
have [HN _] := std_domain_ratio eok sd se le.
by rewrite (query_in_coset_poly _ sd se) //= mulnC -HN N0 subn0 dvdnn.
Qed.

(** C15 *)
Lemma evals_form d p (L : nat -> {poly F}) x ls :
  std_domain env d -> size (po_evals p) = dsize d -> po_poly p = ptrim (ifft d (po_evals p)) ->
  (forall i, (i < dsize d)%N -> (size (L i) <= dsize d)%N) ->
  (forall i j, (i < dsize d)%N -> (j < dsize d)%N -> (L i).[element d j] = (i == j)%:R) ->
  ls = [seq (L i).[x] | i <- iota 0 (dsize d)] ->
  query_in_evals_form p ls = peval (po_poly p) x.
Proof.
move=> sd sz Hp sL LE ->.
rewrite /query_in_evals_form Hp peval_trim pevalE.
set S : {poly F} := \sum_(i < dsize d) (po_evals p)`_i *: L i.
rewrite (@ifft_unique F env eok d _ S) //; last 2 first.
- apply: (leq_trans (size_sum _ _ _)); apply/bigmax_leqP => i _; exact: leq_trans (size_scale_leq _ _) (sL _ (ltn_ord i)).
- move=> j Hj; rewrite horner_sum (bigD1 (Ordinal Hj)) //= hornerZ LE // eqxx mulr1.
  rewrite big1 ?addr0 // => i ij; rewrite hornerZ LE //.
  by move: ij; rewrite -val_eqE /= => /negPf ->; rewrite mulr0.
rewrite foldl_sum add0r horner_sum.
have -> : zip (po_evals p) [seq (L i).[x] | i <- iota 0 (dsize d)]
   = [seq ((po_evals p)`_i, (L i).[x]) | i <- iota 0 (dsize d)].
  rewrite -{1}(mkseq_nth 0 (po_evals p)) sz /mkseq.
  by elim: (iota 0 _) => //= i s ->.
rewrite big_map -[X in iota 0 X]subn0 -/(index_iota 0 _) big_mkord.
by apply: eq_bigr => i _; rewrite hornerZ.
Qed.

Lemma lagrange_exists d : std_domain env d -> exists L : nat -> {poly F},
  (forall i, (i < dsize d)%N -> (size (L i) <= dsize d)%N) /\
  (forall i j, (i < dsize d)%N -> (j < dsize d)%N -> (L i).[element d j] = (i == j)%:R).
Proof.
move=> sd; exists (fun i => Poly (ifft d (set_nth 0 (nseq (dsize d) 0) i 1))); split=> [i _|i j Hi Hj].
  exact: size_Poly_ifft.
rewrite -pevalE (ifft_eval eok) // nth_set_nth /= nth_nseq Hj eq_sym.
by case: (i == j).
Qed.
End Queries.

(** ** Evaluation registration *)
Section Registration.
Variables (F : fieldType) (C : Type).
Implicit Types (o : voracle F C) (os : seq (voracle F C)).

Lemma vo_query_register x v y o :
  vo_query (register_eval_at_challenge x v o) y = if x == y then Ok v else vo_query o y.
Proof.
by rewrite /vo_query /register_eval_at_challenge [vd_evals _]/= assoc_ains; case: eqP.
Qed.

Lemma sbe_refl o : same_but_evals o o. Proof. by []. Qed.
Lemma sbe_trans o1 o2 o3 : same_but_evals o1 o2 -> same_but_evals o2 o3 -> same_but_evals o1 o3.
Proof. by rewrite /same_but_evals => -[-> -> -> -> ->]. Qed.

Lemma label_register os i x v :
  map (@o_label _) (upd os i (register_eval_at_challenge x v)) = map (@o_label _) os.
Proof. by elim: os i => [|o os IH] [|i] //=; rewrite IH. Qed.

Definition entries_for (l : label) (es : seq (qentry F * F)) : seq (F * F) :=
  [seq (e.1.2.2, e.2) | e <- es & e.1.1 == l].

Lemma register_evals_spec os missing es :
  uniq (map (@o_label _) os) -> (forall e, e \in es -> e.1.1 \in map (@o_label _) os) ->
  exists os', [/\ register_evals os missing es = Ok os', size os' = size os &
    forall j o, idx os j = Ok o -> exists o', [/\ idx os' j = Ok o', same_but_evals o o' &
      forall x, vo_query o' x = (if assoc_last (entries_for (o_label o) es) x is Some v then Ok v
                                 else vo_query o x)]].
Proof.
elim: es os => [|e es IH] os u Hes; first by exists os; split=> // j o Ho; exists o.
have Hm := Hes e (mem_head _ _).
have [k Hk] := label_index_mem Hm; have [Hks Hkn] := label_index_some Hk.
rewrite /register_evals /= Hk /= -/(register_evals _ _ _).
set os1 := upd os k _.
have lab1 : map (@o_label _) os1 = map (@o_label _) os by apply: label_register.
have [||os' [-> Hs H]] := IH os1; first by rewrite lab1.
  by move=> e' He'; rewrite lab1; apply: Hes; rewrite inE He' orbT.
exists os'; split=> // [|j o Ho]; first by rewrite Hs size_upd.
have [o' [H1 H2 H3]] := H j _ (idx_upd k (register_eval_at_challenge e.1.2.2 e.2) Ho).
have [Hj Hjn] := idx_ok Ho.
exists o'; split=> //; first by move: H2; case: ifP => // _ /(sbe_trans _); apply.
move=> x; rewrite H3.
have lo : o_label (if k == j then register_eval_at_challenge e.1.2.2 e.2 o else o) = o_label o by case: ifP.
rewrite lo /entries_for /=.
have -> : (e.1.1 == o_label o) = (k == j).
  rewrite -(Hkn EmptyString) -(Hjn o) -(nth_map o EmptyString (@o_label _)) //.
  by rewrite nth_uniq //; rewrite size_map.
case: ifP => [/eqP kj|//] /=.
by case: (assoc_last _ _) => //; rewrite vo_query_register; case: eqP.
Qed.

(** A history of registrations. *)
Definition register_history o (h : seq (F * F)) : voracle F C :=
  foldl (fun o xv => register_eval_at_challenge xv.1 xv.2 o) o h.

Lemma history_query o h x :
  vo_query (register_history o h) x = if assoc_last h x is Some v then Ok v else vo_query o x.
Proof.
rewrite /register_history; elim: h o => [|[y v] h IH] o //=; rewrite IH vo_query_register.
by case: (assoc_last h x) => //; case: (y == x).
Qed.

Lemma history_same o h : same_but_evals o (register_history o h).
Proof.
rewrite /register_history; elim: h o => [|[y v] h IH] o //=.
exact: sbe_trans (IH _).
Qed.

Lemma history_last o h1 v h2 x : (forall e, e \in h2 -> e.1 != x) ->
  vo_query (register_history o (h1 ++ (x, v) :: h2)) x = Ok v.
Proof.
move=> H; rewrite history_query assoc_last_cat /=.
suff -> : assoc_last h2 x = None by rewrite eqxx.
have := assoc_last_none h2 x; suff -> : x \notin map fst h2 by case: (assoc_last _ _).
by apply/negP => /mapP[e /H ne xe]; rewrite xe eqxx in ne.
Qed.

Lemma history_none o h x : (forall e, e \in h -> e.1 != x) ->
  vo_query (register_history o h) x = vo_query o x.
Proof.
move=> H; rewrite history_query.
have := assoc_last_none h x; suff -> : x \notin map fst h by case: (assoc_last _ _).
by apply/negP => /mapP[e /H ne xe]; rewrite xe eqxx in ne.
Qed.

(** Values computed from the entries themselves. *)
Lemma assoc_last_fun (K : eqType) V (g : K -> V) (s : seq (K * V)) k :
  (forall i x0, (i < size s)%N -> (nth x0 s i).2 = g (nth x0 s i).1) ->
  assoc_last s k = if k \in map fst s then Some (g k) else None.
Proof.
elim: s => [|[a b] s IH] //= H.
rewrite inE IH; last by move=> i x0 Hi; apply: (H i.+1).
have := H 0%N (a, b) isT => /= ->.
by case: (k \in _); rewrite ?orbT ?orbF // eq_sym; case: eqP => // ->.
Qed.
End Registration.

Section QuerySet.
Variable F : fieldType.
Implicit Types (d : domain F) (x : F).

Lemma oracle_query_set_ok P (o : oracle P) pl x d acc : domain_ok d ->
  (forall r, r \in o_rots o -> (r.1 < dsize d)%N) ->
  exists2 qs, oracle_query_set o pl x (elements d) acc = Ok qs &
    forall e, (e \in qs) = (e \in acc) || (e \in [seq (o_label o, pinfo (dgen d) r pl x) | r <- o_rots o]).
Proof.
move=> dok; rewrite /oracle_query_set; elim: (o_rots o) acc => [|r rs IH] acc H /=.
  by exists acc => // e; rewrite in_nil orbF.
rewrite point_info_ok ?H ?mem_head //=.
have [|qs -> Hqs] := IH (sinsert (@qentry_lt F) (o_label o, pinfo (dgen d) r pl x) acc).
  by move=> r' Hr'; apply: H; rewrite inE Hr' orbT.
by exists qs => // e; rewrite Hqs mem_sinsert inE; case: (e == _); case: (e \in acc); rewrite ?orbT.
Qed.

Definition query_entries P (os : seq (oracle P)) pl x d : seq (qentry F) :=
  flatten [seq [seq (o_label o, pinfo (dgen d) r pl x) | r <- o_rots o] | o <- os].

Lemma get_query_set_ok P (os : seq (oracle P)) pl x d : domain_ok d -> rots_below os (dsize d) ->
  exists2 qs, get_query_set os pl x (elements d) = Ok qs & qs =i query_entries os pl x d.
Proof.
move=> dok; rewrite /get_query_set.
suff gen acc : rots_below os (dsize d) ->
  exists2 qs, rfoldM (fun acc o => oracle_query_set o pl x (elements d) acc) acc os = Ok qs &
    forall e, (e \in qs) = (e \in acc) || (e \in query_entries os pl x d).
  by move=> H; have [qs -> Hq] := gen [::] H; exists qs => // e; rewrite Hq.
elim: os acc => [|o os IH] acc H /=; first by exists acc => // e; rewrite in_nil orbF.
have [|qs1 -> H1] := oracle_query_set_ok pl x acc dok (o:=o); first exact: (H 0%N o).
rewrite /=.
have [|qs -> H2] := IH qs1; first by move=> j o' Ho'; apply: (H j.+1).
by exists qs => // e; rewrite H2 H1 /query_entries /= mem_cat orbA.
Qed.

(** The query set depends on labels and rotations only. *)
Lemma get_query_set_shape P P' (os : seq (oracle P)) (os' : seq (oracle P')) pl x omegas :
  [seq (o_label o, o_rots o) | o <- os] = [seq (o_label o, o_rots o) | o <- os'] ->
  get_query_set os pl x omegas = get_query_set os' pl x omegas.
Proof.
rewrite /get_query_set; move: [::]; elim: os os' => [|o os IH] [|o' os'] //= acc [Hl Hr H].
rewrite /oracle_query_set Hl Hr; case: (rfoldM _ acc _) => //= acc'.
exact: IH.
Qed.

Lemma find_oracle_uniq P (os : seq (oracle P)) j o : uniq (map (@o_label P) os) -> idx os j = Ok o ->
  find_oracle os (o_label o) = Some o.
Proof.
rewrite /find_oracle; elim: os j => [|o1 os IH] [|j] //= /andP[nin u].
  case=> <-; case E: (assoc_last _ _) => [o'|]; last by rewrite eqxx.
  have := assoc_last_none (zip (map (@o_label P) os) os) (o_label o1).
  rewrite E -/(unzip1 _) unzip1_zip ?size_map //; by rewrite nin.
by move=> /IH -> .
Qed.

Lemma evaluate_query_set_ok (os : seq (poracle F)) qs (g : label -> F -> F) :
  uniq (map (@o_label _) os) ->
  (forall j o, idx os j = Ok o -> forall x, g (o_label o) x = peval (po_poly o) x) ->
  (forall e, e \in qs -> e.1 \in map (@o_label _) os) ->
  evaluate_query_set os qs = Ok [seq g e.1 e.2.2 | e <- qs].
Proof.
move=> u Hg; rewrite /evaluate_query_set; elim: qs => [|e qs IH] H //=.
rewrite IH; last by move=> e' He'; apply: H; rewrite inE He' orbT.
have [k Hk] := label_index_mem (H e (mem_head _ _)); have [Hks Hkn] := label_index_some Hk.
rewrite size_map in Hks; have [o Ho] := idx_some Hks.
have [_ Hn] := idx_ok Ho.
have le : o_label o = e.1 by rewrite -(Hn o) -(nth_map o EmptyString (@o_label _)) // Hkn.
by rewrite -le (find_oracle_uniq u Ho) /= -(Hg _ _ Ho).
Qed.

Lemma idx_map_eq A B D (f : A -> D) (g : B -> D) (s : seq A) (t : seq B) j b :
  map f s = map g t -> idx t j = Ok b -> exists2 a, idx s j = Ok a & f a = g b.
Proof.
by elim: s t j => [|a s IH] [|b' t] [|j] //= [H1 H2]; [case=> <-; exists a | apply: IH].
Qed.

Lemma in_query_entries P (os : seq (oracle P)) pl x d j o r :
  idx os j = Ok o -> r \in o_rots o -> (o_label o, pinfo (dgen d) r pl x) \in query_entries os pl x d.
Proof.
rewrite /query_entries; elim: os j => [|o1 os IH] [|j] //=; rewrite ?mem_cat.
  by case=> <- Hr; rewrite map_f.
by move=> Ho Hr; rewrite (IH _ Ho Hr) orbT.
Qed.

Lemma query_entries_inv P (os : seq (oracle P)) pl x d e : e \in query_entries os pl x d ->
  exists j o r, [/\ idx os j = Ok o, r \in o_rots o & e = (o_label o, pinfo (dgen d) r pl x)].
Proof.
rewrite /query_entries; elim: os => [|o1 os IH] //=; rewrite mem_cat.
case/orP=> [/mapP[r Hr ->]|/IH[j [o [r [H1 H2 H3]]]]]; first by exists 0%N, o1, r.
by exists j.+1, o, r.
Qed.

Lemma query_entries_label P (os : seq (oracle P)) pl x d e :
  e \in query_entries os pl x d -> e.1 \in map (@o_label P) os.
Proof.
rewrite /query_entries; elim: os => [|o1 os IH] //=; rewrite mem_cat inE.
by case/orP=> [/mapP[r _ ->]|/IH->]; rewrite ?eqxx ?orbT.
Qed.

Lemma entries_for_map (g : label -> F -> F) l (qs : seq (qentry F)) :
  entries_for l (zip qs [seq g e.1 e.2.2 | e <- qs]) = [seq (y, g l y) | y <- [seq e.2.2 | e <- qs & e.1 == l]].
Proof.
rewrite /entries_for; elim: qs => //= e qs IH.
by case: eqP => [el|_] /=; rewrite IH // el.
Qed.

Lemma evals_alignment C (ps : seq (poracle F)) (vs : seq (voracle F C)) pl x d missing :
  domain_ok d -> uniq (map (@o_label _) ps) -> rots_below ps (dsize d) ->
  [seq (o_label o, o_rots o) | o <- vs] = [seq (o_label o, o_rots o) | o <- ps] ->
  exists qs evs vs', [/\ get_query_set ps pl x (elements d) = Ok qs,
     get_query_set vs pl x (elements d) = Ok qs, evaluate_query_set ps qs = Ok evs, size evs = size qs &
     register_evals vs missing (zip qs evs) = Ok vs' /\
     forall j p, idx ps j = Ok p -> exists v v',
       [/\ idx vs j = Ok v, idx vs' j = Ok v', same_but_evals v v' &
        forall y, vo_query v' y = if y \in [seq rot_point (dgen d) r x | r <- o_rots p]
                                  then Ok (peval (po_poly p) y) else vo_query v y]].
Proof.
move=> dok u below shape.
have [qs Hqs Hmem] := get_query_set_ok pl x dok below.
have labs : map (@o_label _) vs = map (@o_label _) ps.
  by have := congr1 (map fst) shape; rewrite -!map_comp.
pose g l y := if find_oracle ps l is Some o then peval (po_poly o) y else 0.
have Hg j o : idx ps j = Ok o -> forall y, g (o_label o) y = peval (po_poly o) y.
  by move=> Ho y; rewrite /g (find_oracle_uniq u Ho).
have Hlab e : e \in qs -> e.1 \in map (@o_label _) ps.
  by rewrite Hmem; apply: query_entries_label.
have Hev := evaluate_query_set_ok u Hg Hlab.
set evs := map _ qs in Hev.
have [||vs' [Hreg Hs Hv]] := @register_evals_spec _ _ vs missing (zip qs evs).
- by rewrite labs.
- move=> e /(map_f fst); rewrite -/(unzip1 _) unzip1_zip ?size_map // => /Hlab.
  by rewrite labs.
exists qs, evs, vs'; split=> //; first by rewrite (get_query_set_shape _ _ _ shape).
  by rewrite size_map.
split=> // j p Hp.
have [v Hjv [vl vr]] := idx_map_eq shape Hp.
have [v' [H1 H2 H3]] := Hv j v Hjv.
exists v, v'; split=> // y; rewrite H3 vl entries_for_map.
set ys := map _ (filter _ _).
rewrite (@assoc_last_fun _ _ (g (o_label p))); last first.
  by move=> i x0; rewrite size_map => Hi; rewrite !(nth_map y).
rewrite -map_comp (eq_map (f2 := id)) // map_id.
have -> : (y \in ys) = (y \in [seq rot_point (dgen d) r x | r <- o_rots p]).
  apply/mapP/mapP => [[e]|[r Hr ->]].
    rewrite mem_filter Hmem => /andP[/eqP el He] ->.
    have [k [o [r [Ho Hr He']]]] := query_entries_inv He.
    move: el; rewrite He' /= => el; exists r => //.
    suff <- : o = p by [].
    by have := find_oracle_uniq u Ho; rewrite el (find_oracle_uniq u Hp) => -[].
  exists (o_label p, pinfo (dgen d) r pl x) => //.
  by rewrite mem_filter eqxx Hmem (in_query_entries _ _ _ Hp Hr).
by case: ifP => // _; rewrite (Hg _ _ Hp).
Qed.
End QuerySet.
