(** The indexer: quotient degree, extended domain, inverses of the vanishing polynomial. *)
From mathcomp Require Import all_ssreflect all_algebra zify.
From Coq Require Import String.
From Verif Require Import Base ModelPoly ModelVO ModelOracle ModelPermutation ModelLookup ModelIndexer
  Spec ProofBase ProofPoly ProofDomain ProofVO ProofOracle ProofPermutation.

Set Implicit Arguments.
Unset Strict Implicit.
Unset Printing Implicit Defensive.

Import GRing.Theory.
Local Open Scope ring_scope.

Section ZH.
Variables (F : fieldType) (env : fenv F) (eok : fenv_ok env).

Lemma zh_inverses (d ext : domain F) (z_h : lpoly F) :
  std_domain env d -> std_domain env ext -> (dsize d <= dsize ext)%N ->
  (size z_h <= dsize ext)%N \/ Poly z_h = 'X^(dsize d) - 1 ->
  exists zs, [/\ compute_zh_evals env d ext z_h = Ok zs, size zs = dsize ext &
    forall i, (i < dsize ext)%N -> zs`_i = (peval z_h (coset_point env ext i))^-1].
Proof.
move=> sd se le Hz; have dok := std_domain_ok eok sd; have n0 := dsize_gt0 dok.
rewrite /compute_zh_evals le /= peqE Poly_vanishing //.
have evz i : Poly z_h = 'X^(dsize d) - 1 -> peval z_h (coset_point env ext i) = coset_point env ext i ^+ dsize d - 1.
  by move=> E; rewrite pevalE E !hornerE hornerXn.
case: eqP => [E|NE] /=; last first.
  exists (batch_inversion (coset_fft env ext z_h)); split=> // [|i Hi].
    by rewrite size_map size_coset_fft.
  rewrite (nth_map 0) ?size_coset_fft // nth_coset_fft // take_oversize //.
  by case: Hz => // Hz; case: NE; rewrite Hz.
case: eqP => [Esz|Nsz] /=.
  rewrite /finv /eval_vanishing subr_eq0 (negPf (gen_exp_neq1 eok sd)) /=.
  eexists; split; [by [] | by rewrite size_nseq | move=> i Hi].
  rewrite nth_nseq Esz Hi evz //; congr (_ - 1)^-1.
  by rewrite Esz /coset_point exprMn element_exp ?mulr1 // (std_domain_ok eok).
rewrite /compute_vanishing_poly_over_coset /=.
have -> : (dsize d < dsize ext)%N by lia.
eexists; split; [by [] | by rewrite !size_map size_iota | move=> i Hi].
rewrite (nth_map 0) ?size_map ?size_iota // (nth_map 0%N) ?size_iota // nth_iota // add0n evz //.
congr (_ - 1)^-1; rewrite /coset_point exprMn; congr (_ * _).
by rewrite /element expr1 -!exprM mulnC.
Qed.

Lemma zh_inverse_mul (d ext : domain F) (z_h : lpoly F) zs :
  std_domain env d -> std_domain env ext -> (dsize d <= dsize ext)%N ->
  (size z_h <= dsize ext)%N \/ Poly z_h = 'X^(dsize d) - 1 ->
  compute_zh_evals env d ext z_h = Ok zs ->
  forall i, (i < dsize ext)%N -> peval z_h (coset_point env ext i) != 0 ->
  zs`_i * peval z_h (coset_point env ext i) = 1.
Proof.
move=> sd se le Hz; have [zs' [-> _ H]] := zh_inverses sd se le Hz; case=> <- i Hi ne.
by rewrite H // mulVf.
Qed.
End ZH.

Section Degree.
Variable F : fieldType.
Variables (PW PI PF : Type) (ws : seq (oracle PW)) (ins : seq (oracle PI)) (fs : seq (oracle PF)).
Notation dleaf n := (query_leaf ws ins fs (fun _ _ => get_degree n) (fun _ _ => get_degree n)
                       (fun _ _ => get_degree n)).

Lemma dleaf_val n q k : dleaf n q = Ok k -> (0 < n)%N /\ k = n.-1.
Proof.
have H : forall P (o : seq (oracle P)) l e, (x <- resolve o l e;; get_degree n) = Ok k -> (0 < n)%N /\ k = n.-1.
  move=> P o l e; case: (resolve o l e) => //= x; rewrite /get_degree => /usub_ok[n0 ->]; by rewrite subn1.
by rewrite /query_leaf; case: (oq_type q); apply: H.
Qed.

Lemma dleaf_ok n q : (0 < n)%N -> query_resolves ws ins fs q -> dleaf n q = Ok n.-1.
Proof.
move=> n0; rewrite /query_resolves /query_leaf.
have H : forall P (o : seq (oracle P)) l e, l \in map (@o_label P) o ->
    (x <- resolve o l e;; get_degree n) = Ok n.-1.
  move=> P o l e Hl; rewrite /resolve; have [i Hi] := label_index_mem Hl; rewrite Hi.
  have [Hs _] := label_index_some Hi; rewrite size_map in Hs.
  by have [x ->] := idx_some Hs; rewrite /= /get_degree /usub n0 subn1.
by case: (oq_type q); apply: H.
Qed.

Lemma edegree_all Q (dg : Q -> res nat) k (e : expr F Q) :
  (forall q, occurs q (leaves e) -> dg q = Ok k) -> edegree e dg = Ok (expr_degree k e).
Proof.
elim: e => [c|q|a IH|a IHa b IHb|a IHa b IHb|a IH c] H //=.
- by apply: H; left.
- exact: IH.
- by rewrite IHa ?IHb // => q Hq; apply: H; apply/occurs_cat; [right|left].
- by rewrite IHa ?IHb // => q Hq; apply: H; apply/occurs_cat; [right|left].
- exact: IH.
Qed.

(** Outcome of the quotient degree computation for configured virtual oracles. *)
Lemma quotient_degree_configured (vos : seq (generic_vo F)) es n dz : (0 < n)%N -> configured ws ins fs vos es ->
  compute_quotient_degree ws ins fs vos n dz = usub (max_degree n.-1 es) dz.
Proof.
move=> n0 [Hg Hr]; rewrite /compute_quotient_degree /max_degree.
suff gen m : rfoldM (fun m vo => e <- gv_get_expression vo;; dg <- edegree e (dleaf n);; Ok (maxn m dg)) m vos
    = Ok (maxn m (\max_(e <- es) expr_degree n.-1 e)) by rewrite gen /= max0n.
elim: vos es Hg Hr m => [|vo vos IH] [|e es] //=; first by move=> *; rewrite big_nil maxn0.
case=> Hvo Hg Hr m.
rewrite big_cons Hvo /= (@edegree_all _ _ n.-1) /=; last first.
  by move=> q Hq; apply: dleaf_ok => //; apply: (Hr e) => //; left.
by rewrite (IH es) // ?maxnA // => e' q He'; apply: Hr; right.
Qed.

(** The other direction: on success the result bounds the degree of every virtual oracle. *)
Lemma quotient_degree_bound (vos : seq (generic_vo F)) n dz qd : compute_quotient_degree ws ins fs vos n dz = Ok qd ->
  exists m, [/\ qd = (m - dz)%N, (dz <= m)%N &
    forall vo, occurs vo vos -> exists2 e, gv_get_expression vo = Ok e &
      exists2 k, edegree e (dleaf n) = Ok k & (k <= m)%N].
Proof.
move=> H; have [m Hm /usub_ok[le ->]] := rbind_ok H; exists m; split=> // {H}.
suff: (0 <= m)%N /\ forall vo, occurs vo vos -> exists2 e, gv_get_expression vo = Ok e &
      exists2 k, edegree e (dleaf n) = Ok k & (k <= m)%N by case.
move: Hm; move: (0%N); elim: vos => [|vo vos IH] m0 /=; first by case=> ->.
case E: (gv_get_expression vo) => [e||] //=; case D: (edegree e _) => [k||] //= /IH[H1 H2].
split; first by apply: leq_trans H1; rewrite leq_maxl.
move=> vo' [->|]; last exact: H2.
by exists e => //; exists k => //; apply: leq_trans H1; rewrite leq_maxr.
Qed.

Lemma poly_ofE (leaf : oquery -> lpoly F) e : poly_of leaf e =
  Poly (evaluate e (fun c => ptrim [:: c]) leaf (@pneg F) (@padd F) (@pmul F) (fun p c => pscale c p)).
Proof.
rewrite /poly_of; elim: e => [c|q|a IH|a IHa b IHb|a IHa b IHb|a IH c] //=.
- by rewrite Poly_trim Poly_seq1.
- by rewrite IH Poly_neg.
- by rewrite IHa IHb Poly_add.
- by rewrite IHa IHb Poly_mul.
- by rewrite IH Poly_scale.
Qed.

(** Leaves that are polynomials of degree below [n]. *)
Lemma poly_of_bound (leaf : oquery -> lpoly F) n e k :
  (forall q, occurs q (leaves e) -> (size (Poly (leaf q)) <= n)%N) ->
  edegree e (dleaf n) = Ok k -> (size (poly_of leaf e) <= k.+1)%N.
Proof.
move=> H; rewrite poly_ofE; apply: poly_evaluate_degree => q j Hq /dleaf_val[n0 ->].
by rewrite prednK // H.
Qed.

Lemma size_divp_bound (p z : {poly F}) m : z != 0 -> (size p <= m.+1)%N -> ((size z).-1 <= m)%N ->
  (size (p %/ z)%R <= (m - (size z).-1).+1)%N.
Proof.
move=> z0 sp sz; rewrite size_divp //.
move: sp sz; move: (size p) (size z).-1 => a b; lia.
Qed.
End Degree.

Section Index.
Variables (F : fieldType) (env : fenv F) (eok : fenv_ok env).
Variables (PW PI PF : Type) (permute : PW -> bool).
Variables (vos : seq (generic_vo F)) (lookups : seq (generic_lookup_vo F)).
Variables (ws : seq (oracle PW)) (ins : seq (oracle PI)) (fs : seq (oracle PF)).
Variables (d : domain F) (z_h : lpoly F) (info : permutation_info F) (usable_rows : nat).
Hypothesis sd : std_domain env d.
Notation the_index := (index env permute vos lookups ws ins fs d z_h info usable_rows).
Notation num_to_permute := (count (fun o => permute (o_data o)) ws).

(** The scaling factor the indexer settles on. *)
Definition scaling (s0 : nat) : nat :=
  let s1 := if (0 < num_to_permute)%N then maxn s0 2 else s0 in
  if ~~ nilp lookups then maxn s1 4 else s1.

Lemma max_pow a b : maxn (2 ^ a) (2 ^ b) = (2 ^ maxn a b)%N.
Proof.
case: (leqP a b) => H; first by apply/maxn_idPr; rewrite leq_exp2l.
by apply/maxn_idPl; rewrite leq_exp2l // ltnW.
Qed.

Lemma scaling_pow l : exists2 k, scaling (2 ^ l) = (2 ^ k)%N & (l <= k)%N.
Proof.
have max2 a : maxn (2 ^ a) 2 = (2 ^ maxn a 1)%N by rewrite -(max_pow a 1).
have max4 a : maxn (2 ^ a) 4 = (2 ^ maxn a 2)%N by rewrite -(max_pow a 2).
rewrite /scaling; case: ifP => _; case: ifP => _; rewrite ?max2 ?max4.
- by exists (maxn (maxn l 1) 2); rewrite // -maxnA leq_maxl.
- by exists (maxn l 2); rewrite // leq_maxl.
- by exists (maxn l 1); rewrite // leq_maxl.
- by exists l.
Qed.

Lemma scaling_ge s : (s <= scaling s)%N.
Proof. rewrite /scaling; do 2!case: ifP => _; lia. Qed.

Lemma scaling_perm s : (0 < num_to_permute)%N -> (2 <= scaling s)%N.
Proof. by rewrite /scaling => ->; case: ifP => _; lia. Qed.

Lemma scaling_lookup s : ~~ nilp lookups -> (4 <= scaling s)%N.
Proof. by rewrite /scaling => ->; lia. Qed.

Lemma zh_total ext : std_domain env ext -> (dsize d <= dsize ext)%N ->
  exists2 zs, compute_zh_evals env d ext z_h = Ok zs & size zs = dsize ext.
Proof.
move=> se le; rewrite /compute_zh_evals le /=.
case: ifP => [/andP[_ /eqP E]|H1].
  rewrite /finv /eval_vanishing subr_eq0 (negPf (gen_exp_neq1 eok sd)) /=.
  by eexists; [by [] | rewrite size_nseq].
case: ifP => [Hp|_]; last by eexists; [by [] | rewrite size_map size_coset_fft].
rewrite /compute_vanishing_poly_over_coset.
case: (ltnP (dsize d) (dsize ext)) => Hlt /=; first by eexists; [by [] | rewrite !size_map size_iota].
by move: H1; rewrite Hp eqn_leq le Hlt.
Qed.

Lemma index_outcome qd : compute_quotient_degree ws ins fs vos (dsize d) (pdeg z_h) = Ok qd ->
  let m := (2 ^ up_log 2 qd)%N in
  let s := scaling (m %/ dsize d) in
  [\/ (two_adicity env < up_log 2 qd)%N /\ the_index = Panic PUnwrap,
      (m < dsize d)%N /\ the_index = Err QuotientTooSmall,
      [/\ (dsize d <= m)%N, (2 ^ two_adicity env < s * dsize d)%N & the_index = Panic PUnwrap] |
      exists ext zh, [/\ the_index = Ok (VerifierKey (Index qd ext
          (PermutationArgument s.-1 (pi_u info) (pi_deltas info)) lookups usable_rows) zh),
        compute_zh_evals env d ext z_h = Ok zh, std_domain env ext,
        (dsize ext = s * dsize d)%N /\ (m <= dsize ext)%N & (dsize d <= m)%N /\ (0 < s)%N]].
Proof.
move=> Hq m s; have [ld Hld dle] := std_domain_pow eok sd.
set T := the_index; have HT : T = the_index by []; move: HT; rewrite [RHS]/index Hq /=.
case E0: (domain_new env qd) => [ext0|] /=; last first.
  by move=> ->; constructor 1; split=> //; move: E0; rewrite /domain_new; case: leqP.
have [Hm0 _ _ _] := domain_new_spec eok E0; rewrite Hm0 -/m.
case: ltnP => [lt ->|ge]; first by constructor 2.
rewrite /udiv; have n0 : dsize d != 0%N by rewrite -lt0n (dsize_gt0 (std_domain_ok eok sd)).
rewrite (negPf n0) /=.
have lel : (ld <= up_log 2 qd)%N by rewrite Hld leq_exp2l in ge.
have Em : (m %/ dsize d)%N = (2 ^ (up_log 2 qd - ld))%N by rewrite Hld /m expnB.
have [k Hk lk] := scaling_pow (up_log 2 qd - ld).
have Hs : s = (2 ^ k)%N by rewrite /s Em.
rewrite -/(scaling (m %/ dsize d)) -/s /perm_new /usub.
have s0 : (0 < s)%N by rewrite Hs expn_gt0.
rewrite s0 /= subn1.
case E: (domain_new env (s * dsize d)) => [ext|] /=; last first.
  move=> ->; constructor 3; split=> //; move: E; rewrite /domain_new Hs Hld -expnD up_expnK //.
  by rewrite ltn_exp2l // ltnNge; case: (k + ld <= _)%N.
have [He1 He2 eo se] := domain_new_spec eok E.
have Hext : dsize ext = (s * dsize d)%N by rewrite He1 Hs Hld -expnD up_expnK.
have led : (dsize d <= dsize ext)%N by rewrite Hext leq_pmull.
have [zh Hzh _] := zh_total se led.
rewrite Hzh /= => ->; constructor 4; exists ext, zh; split=> //.
split=> //; rewrite Hext -(@divnK (dsize d) m); last by rewrite Hld /m dvdn_exp2l.
by rewrite leq_mul2r scaling_ge orbT.
Qed.

Lemma index_inv vk : the_index = Ok vk ->
  let ix := vk_index vk in
  exists qd, [/\ compute_quotient_degree ws ins fs vos (dsize d) (pdeg z_h) = Ok qd,
    ix_quotient_degree ix = qd /\ ix_lookups ix = lookups,
    std_domain env (ix_ext ix) /\ (dsize (ix_ext ix) = (pa_max_cols (ix_perm ix)).+1 * dsize d)%N,
    (qd <= dsize (ix_ext ix))%N /\ compute_zh_evals env d (ix_ext ix) z_h = Ok (vk_zh_inverses vk) &
    ((0 < num_to_permute)%N -> (1 <= pa_max_cols (ix_perm ix))%N) /\
    (~~ nilp lookups -> (3 <= pa_max_cols (ix_perm ix))%N)].
Proof.
move=> Hix; have [qd Hq _] := rbind_ok Hix.
case: (index_outcome Hq) => [[_ E]|[_ E]|[_ _ E]|[ext [zh [E Hzh se [Hs Hm] [Hd s0]]]]]; rewrite E // in Hix.
case: Hix => <-; exists qd; split=> //=.
- by rewrite prednK.
- by split=> //; apply: leq_trans Hm; apply: up_logP.
- split=> H; first by have := scaling_perm (2 ^ up_log 2 qd %/ dsize d) H; lia.
  by have := scaling_lookup (2 ^ up_log 2 qd %/ dsize d) H; lia.
Qed.

(** Quotient of one virtual oracle. *)
Lemma index_quotient_bound vk : the_index = Ok vk -> Poly z_h != 0 ->
  let ix := vk_index vk in
  (ix_quotient_degree ix <= dsize (ix_ext ix))%N /\
  forall vo, occurs vo vos -> exists2 e, gv_get_expression vo = Ok e &
    forall leaf : oquery -> lpoly F, (forall q, occurs q (leaves e) -> (size (Poly (leaf q)) <= dsize d)%N) ->
    (size (poly_of leaf e %/ Poly z_h)%R <= (ix_quotient_degree ix).+1)%N.
Proof.
move=> Hix z0 ix; have [qd [Hq [Eq _] _ [le _] _]] := index_inv Hix.
rewrite -/ix in Eq le; rewrite Eq; split=> // vo Hvo.
have [m [Em lem H]] := quotient_degree_bound Hq.
have [e He [k Hk lek]] := H _ Hvo; exists e => // leaf Hl.
rewrite Em pdegE; apply: size_divp_bound => //; last by rewrite -pdegE.
by apply: leq_trans (poly_of_bound Hl Hk) _.
Qed.

(** Totality. *)
Lemma index_underflow es : configured ws ins fs vos es -> (max_degree (dsize d).-1 es < pdeg z_h)%N ->
  the_index = Panic PUnderflow.
Proof.
move=> Hc lt; rewrite /index (quotient_degree_configured _ _ Hc) ?(dsize_gt0 (std_domain_ok eok sd)) //.
by rewrite /usub leqNgt lt.
Qed.

Lemma index_total es : configured ws ins fs vos es -> (pdeg z_h <= max_degree (dsize d).-1 es)%N ->
  let m := (2 ^ up_log 2 (max_degree (dsize d).-1 es - pdeg z_h))%N in
  (4 * maxn m (dsize d) <= 2 ^ two_adicity env)%N ->
  if (m < dsize d)%N then the_index = Err QuotientTooSmall else exists vk, the_index = Ok vk.
Proof.
move=> Hc le m Hf.
have n0 := dsize_gt0 (std_domain_ok eok sd).
have Hq : compute_quotient_degree ws ins fs vos (dsize d) (pdeg z_h) = Ok (max_degree (dsize d).-1 es - pdeg z_h)%N.
  by rewrite (quotient_degree_configured _ _ Hc) // /usub le.
have := index_outcome Hq; rewrite -/m /=.
set s := scaling _.
have sle : (dsize d <= m)%N -> (s * dsize d <= 4 * maxn m (dsize d))%N.
  move=> Hdm; have Hs : (s <= maxn (m %/ dsize d) 4)%N by rewrite /s /scaling; do 2!case: ifP => _; lia.
  apply: leq_trans (_ : maxn (m %/ dsize d) 4 * dsize d <= _)%N; first by rewrite leq_mul2r Hs orbT.
  have := leq_trunc_div m (dsize d).
  by rewrite maxnMl; move: (m %/ dsize d * dsize d)%N (dsize d) => a b; lia.
case=> [[lt ->]|[lt ->]|[Hdm lt Hp]|[ext [zh [-> _ _ [_ _] [Hd _]]]]].
- have : (m <= 2 ^ two_adicity env)%N by lia.
  by rewrite leq_exp2l // leqNgt lt.
- by rewrite lt.
- by have := sle Hdm; lia.
- by rewrite ltnNge Hd /=; eexists.
Qed.
End Index.

Section Counts.
Variable F : fieldType.

Lemma z_polys_chunks A (pa : permutation_argument F) (s : seq A) : (0 < pa_max_cols pa)%N ->
  number_of_z_polys pa (size s) = Ok (size (chunks (pa_max_cols pa) s)).
Proof.
move=> m0; rewrite size_chunks // /number_of_z_polys /udiv /umod eqn0Ngt.
rewrite [pa_max_cols pa == 0%N]eqn0Ngt m0 /= /cdiv; case: ltnP => [_|/=]; last by rewrite leqn0 => /eqP->; rewrite div0n mod0n.
by case: (_ %% _)%N => [|k] /=; rewrite ?addn0 ?addn1.
Qed.

Lemma agg_loop_size Z (env : fenv F) (zk_rand : Z -> F * Z) pa beta gamma d ext i pr cs zk zs zk' :
  construct_agg_polys_loop env zk_rand pa beta gamma d ext i pr cs zk = Ok (zs, zk') -> size zs = size cs.
Proof.
elim: cs i pr zk zs zk' => [|[[w s] ds] cs IH] i pr zk zs zk' /=; first by case=> <-.
move=> H; have [init _ H1] := rbind_ok H; have [[z zk1] _ H2] := rbind_ok H1.
by have [[zs1 zk2] /IH E [<- _]] := rbind_ok H2; rewrite /= E.
Qed.

Lemma construct_agg_size Z (env : fenv F) (zk_rand : Z -> F * Z) pa ws sigmas beta gamma d ext zk zs zk' :
  construct_agg_polys env zk_rand pa ws sigmas beta gamma d ext zk = Ok (zs, zk') ->
  number_of_z_polys pa (size ws) = Ok (size zs).
Proof.
move=> H; have [_ /rassert_ok/eqP E1 H1] := rbind_ok H; have [_ /rassert_ok/eqP E2 H2] := rbind_ok H1.
move: H2; rewrite /chunksR; case: eqP => //= /eqP m0; rewrite -lt0n in m0 => H2.
have [[zs1 zk1] Hl H3] := rbind_ok H2; have := agg_loop_size Hl.
rewrite !size_zip !size_chunks // -E1 -E2 !minnn => E.
have [zl _ H4] := rbind_ok H3; have [e _ H5] := rbind_ok H4; have [_ _ H6] := rbind_ok H5.
by case: H6 => <- _; rewrite z_polys_chunks // E size_chunks.
Qed.

Lemma quotient_size (p z : {poly F}) a N : dle p a -> (a < N + (size z).-1)%N -> (size (p %/ z)%R <= N)%N.
Proof.
rewrite /dle => Hp H; case: (eqVneq z 0) => [->|z0]; first by rewrite divp0 size_poly0.
by rewrite size_divp //; move: Hp H; move: (size p) (size z).-1 => x y; lia.
Qed.
End Counts.
