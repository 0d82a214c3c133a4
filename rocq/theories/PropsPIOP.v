(** Property theorems C35-C38: aggregation of the constraints and the quotient check. The
    vocabulary is in Spec.v, SpecProtocol.v and SpecPIOP.v; the proofs are in ProofPIOP.v and
    ProofPIOP2.v. *)
From mathcomp Require Import all_ssreflect all_algebra zify.
From Coq Require Import String Lia.
From Verif Require Import Base ModelPoly ModelVO ModelOracle ModelPC ModelPermutation ModelLookup
  ModelIndexer ModelMultiproof ModelProtocol Spec SpecProtocol SpecPIOP
  ProofBase ProofPoly ProofDomain ProofVO ProofOracle ProofPermutation ProofIndexer ProofLookup ProofColumns ProofOpen
  ProofVerifierCols ProofPIOP ProofPIOP2 ProofPIOP3.

Set Implicit Arguments.
Unset Strict Implicit.
Unset Printing Implicit Defensive.

Import GRing.Theory.
Local Open Scope ring_scope.

(** ** C35 *)
(** Prover and verifier both weight [k] virtual oracles, the constraints of [nz] grand products and
    [nl] lookups with the same schedule: exponents 0 .. k-1, k .. k+2nz, and k+2nz .. . *)
Theorem c35_schedule (F : fieldType) (alpha : F) (k nz nl : nat) : (0 < k)%N ->
  exists2 al, alpha_schedule alpha k nz nl = Ok al &
  [/\ ap_vos al = [seq alpha ^+ i | i <- iota 0 k],
      ap_perm al = [seq alpha ^+ (k + i) | i <- iota 0 (2 * nz + 1)],
      flatten (ap_lookups al) = [seq alpha ^+ (k + 2 * nz + i) | i <- iota 0 (5 * nl)] &
      size (ap_lookups al) = nl /\ all (fun l => size l == 5%N) (ap_lookups al)].
Proof.
move=> k0; rewrite alpha_scheduleE //; eexists; first by [].
rewrite /= flatten_chunks // chunks5_sizes !powersE; split=> //.
- by apply: eq_map => i; rewrite mul1r.
- by apply: eq_map => i; rewrite -exprD.
- by apply: eq_map => i; rewrite -exprD.
- by split=> //; apply: chunks_take_exact; rewrite // size_map size_iota mulnC.
Qed.
Print Assumptions c35_schedule.

(** The sum that is computed on a row from the values [vs] of the virtual oracles, [ps] of the
    permutation constraints and [ls] of the lookup constraints. *)
Definition row_sum {F : fieldType} (al : alpha_powers F) (vs ps : seq F) (ls : seq (seq F)) : F :=
  combination (ap_vos al) vs + combination (ap_perm al) ps
  + \sum_(t <- zip (ap_lookups al) ls) combination t.1 t.2.

(** The powers are not distinct: the last permutation constraint and the first lookup constraint
    share one, so values 1 and -1 there cancel for every alpha. *)
Theorem c35_distinct_powers_refuted (F : fieldType) (k nz nl : nat) : (0 < k)%N -> (0 < nz)%N ->
  exists vs ps ls, [/\ size vs = k, size ps = (2 * nz + 1)%N, size ls = nl.+1 /\ all (fun l => size l == 5%N) ls,
    last 0 ps = 1 /\ (head [::] ls)`_0 = -1 :> F &
    forall alpha al, alpha_schedule alpha k nz nl.+1 = Ok al -> row_sum al vs ps ls = 0].
Proof.
move=> k0 z0; exists (nseq k 0), (rcons (nseq (2 * nz) 0) 1), ([:: -1; 0; 0; 0; 0] :: nseq nl (nseq 5 0)).
rewrite size_nseq size_rcons size_nseq addn1 /= size_nseq last_rcons; split=> //.
  by split=> //; rewrite all_nseq orbT.
move=> alpha al; rewrite alpha_scheduleE // => E0; have E := congr1 (fun r : res _ => if r is Ok a then a else al) E0.
have [E1 E2 E3] : [/\ ap_vos al = powers k 1 alpha, ap_perm al = powers (2 * nz + 1) (alpha ^+ k) alpha &
  ap_lookups al = chunks 5 (powers (5 * nl.+1) (alpha ^+ (k + 2 * nz)) alpha)] by split; rewrite -[in LHS]E.
rewrite /row_sum E1 E2 E3.
rewrite !combination_powers ?size_nseq ?size_rcons ?size_nseq ?addn1 //.
set L := (_ :: nseq nl _); have s5 : all (fun l : seq F => size l == 5%N) L by rewrite /L /= all_nseq orbT.
rewrite (lookup_sum _ _ _ s5); last by rewrite /L /= size_nseq.
have -> : flatten L = [:: -1] ++ ([:: 0; 0; 0; 0] ++ flatten (nseq nl (nseq 5 0))) by [].
have c1 (x : F) : compressed alpha [:: x] = x by rewrite /compressed big_ord1 expr0 mul1r.
have cz m : compressed alpha (nseq m 0) = 0 :> F by apply: compressed0 => c; rewrite mem_nseq => /andP[_ /eqP].
rewrite -cats1 ![compressed alpha (_ ++ _)]compressed_cat !cz !c1 size_nseq.
have -> : compressed alpha [:: 0; 0; 0; 0] = 0 :> F by rewrite -[[:: 0; _; _; _]]/(nseq 4 0) cz.
have -> : compressed alpha (flatten (nseq nl (nseq 5 0))) = 0 :> F.
  by apply: compressed0 => c /flattenP [l]; rewrite mem_nseq => /andP[_ /eqP ->]; rewrite mem_nseq => /andP[_ /eqP].
by rewrite !(mulr0, add0r, addr0, mulr1) mulrN1 exprD subrr.
Qed.
Print Assumptions c35_distinct_powers_refuted.

(** What holds instead: if at most one of the two constraints that share a power is non-zero and
    some constraint is non-zero, at most as many alphas as there are constraints make the sum
    vanish. *)
Theorem c35_separation_partial (F : fieldType) (k nz nl : nat) (vs ps : seq F) (ls : seq (seq F)) (c : F) :
  (0 < k)%N -> size vs = k -> ps = [::] /\ nz = 0%N \/ size ps = (2 * nz + 1)%N ->
  size ls = nl -> all (fun l => size l == 5%N) ls ->
  last 0 ps = 0 \/ (head [::] ls)`_0 = 0 ->
  c \in vs ++ ps ++ flatten ls -> c != 0 ->
  at_most (k + (2 * nz) + 5 * nl) (fun alpha => exists2 al, alpha_schedule alpha k nz nl = Ok al & row_sum al vs ps ls = 0).
Proof.
move=> k0 svs sps sls al5 sh Hc c0.
have fl : size (flatten ls) = (5 * nl)%N.
  rewrite -sls; move: al5; elim: (ls) => //= l t IH /andP[/eqP s5 /IH]; by rewrite size_cat s5 mulnS => ->.
apply: (@at_most_roots _ (agg_coefs nz vs ps ls)).
- apply: agg_coefs_neq0 Hc c0 => //; case: sh => [->|E]; [by left|right].
  by move: al5 E; case: (ls) => //= -[|x l] t.
- apply: leq_trans (size_agg_coefs _ _ _) _; last by rewrite svs fl.
  by case: sps => [[-> _]|->].
- move=> alpha [al]; rewrite alpha_scheduleE // => -[<-].
  rewrite /row_sum /= combination_powers // lookup_sum // mul1r => E; rewrite -aggregateE /aggregate compressed_cat svs -[RHS]E.
  congr (_ + _ + _); case: sps => [[-> _]|sp]; last by rewrite combination_powers.
  by rewrite compressed_nil mulr0 /combination big1 // => j _; rewrite nth_nil mulr0.
Qed.
Print Assumptions c35_separation_partial.

(** ** C36 *)
(** Padding a quotient to the size of the extended domain, cutting it into chunks of [n]
    coefficients and adding the values of the chunks with powers of x^n gives the value of the
    quotient. *)
Theorem c36_chunks_recombine (F : fieldType) (n m : nat) (q : seq F) : (0 < n)%N -> (size q <= m * n)%N ->
  exists cs, [/\ chunksR n (q ++ nseq (m * n - size q) 0) = Ok cs, size cs = m,
    all (fun c => size c == n) cs &
    forall x, \sum_(k < m) (x ^+ n) ^+ k * (Poly (nth [::] cs k)).[x] = (Poly q).[x]].
Proof.
move=> n0 sq; set q' := q ++ _; have sq' : size q' = (m * n)%N by rewrite size_cat size_nseq subnKC.
have sc : size (chunks n q') = m by apply: chunks_take_exact.
exists (chunks n q'); split=> //; first by rewrite /chunksR gtn_eqF.
  apply/(all_nthP [::]) => i Hi; rewrite nth_chunks // size_take size_drop sq'.
  rewrite sc in Hi; have : (i.+1 * n <= m * n)%N by rewrite leq_mul2r Hi orbT.
  by rewrite mulSn; case: ltnP => // H1 H2; apply/eqP; lia.
move=> x; have := recombined_chunks q' n0; rewrite Poly_pad => <-.
rewrite /recombined horner_sum size_map sc; apply: eq_bigr => k _.
by rewrite hornerM hornerXn exprM (nth_map [::]) ?sc.
Qed.
Print Assumptions c36_chunks_recombine.

(** The same for the quotient round of the prover: it returns [extended size / n] chunks of at most
    [n] coefficients, which recombine to one polynomial that fits the extended domain and whose
    product with z_h is the combined constraint polynomial on the whole extended coset. *)
Theorem c36_quotient_round (F : fieldType) (env : fenv F) (PC : pcs F) (d : domain F) (vk : verifier_key F)
    (pre : prover_pre PC) (vos : seq (generic_vo F)) (es : seq (expr F oquery)) (A : assignment F) (z_h : lpoly F)
    (beta gamma alpha : F) :
  let ix := vk_index vk in let ext := ix_ext ix in
  fenv_ok env -> std_domain env d -> std_domain env ext -> (dsize d <= dsize ext)%N ->
  map (@gv_get_expression F) vos = map Ok es -> (0 < size vos)%N -> exprs_ok (as_ws A) (as_ins A) (as_fs A) (dsize d) es ->
  shape_ok d (ix_perm ix) A (size (ix_lookups ix)) -> assignment_ok env d ext A ->
  pp_fixed pre = as_fs A -> pp_perm pre = as_sigmas A -> pp_q_blind pre = as_qb A ->
  (size z_h <= dsize ext)%N \/ Poly z_h = 'X^(dsize d) - 1 -> compute_zh_evals env d ext z_h = Ok (vk_zh_inverses vk) ->
  exists cs, [/\ prover_quotient_round env vk pre (as_ws A) (as_ins A) (copied (as_ws A)) (as_zs A) (as_los A) (as_lzs A) vos
                   beta gamma alpha d = Ok cs,
    size cs = (dsize ext %/ dsize d)%N, forall c, occurs c cs -> (size (po_poly c) <= dsize d)%N &
    exists Q : {poly F}, [/\ (size Q <= dsize ext)%N,
      forall x, \sum_(k < size cs) (x ^+ dsize d) ^+ k * (nth 0 (map (@opoly F) cs) k).[x] = Q.[x] &
      forall i, (i < dsize ext)%N -> let y := coset_point env ext i in
        (Poly z_h).[y] != 0 -> Q.[y] * (Poly z_h).[y] = (numerator d (ix_perm ix) es beta gamma A alpha).[y]]].
Proof.
move=> ix ext eok sd se le ev k0 eqok shape aok pf pp_ pq szh Ezh.
have [zs' [Ezs szs _]] := zh_inverses eok sd se le szh; move: (Ezs); rewrite Ezh => -[E]; rewrite -E in szs.
have [cs [Ecs s1 s2 s3 s4]] := prover_quotient_roundE eok sd ev shape eqok k0 se le pf pp_ pq aok beta gamma alpha szs.
exists cs; split=> //.
- have [n1 _ _ _ _] := shape; rewrite s3 /cdiv.
  have := std_domain_dvd eok sd se le; rewrite /dvdn => /eqP ->; by rewrite addn0.
- by move=> c Hc; have [k Hk Ek] := (occurs_nth c cs).1 Hc; have [_ _] := s4 k c (etrans (idx_nth c Hk) (congr1 Ok (Ek c))).
exists (recombined (dsize d) (map (@opoly F) cs)); split=> // [x|i Hi y ny].
  rewrite /recombined horner_sum size_map; apply: eq_bigr => k _.
  by rewrite hornerM hornerXn exprM.
have ny' : peval z_h y != 0 by rewrite pevalE.
by rewrite /y s2 // -mulrA -[X in _ * (_ * X)]pevalE (zh_inverse_mul eok sd se le szh Ezh Hi ny') mulr1.
Qed.
Print Assumptions c36_quotient_round.

(** ** C37 *)
(** [rows] are the rows on which z_h vanishes. If every virtual oracle is zero on these rows, the
    permutation and lookup constraints are zero there, and the quotient fits, then the quotient
    round succeeds, and the verifier who sees the true evaluations of the prover's polynomials at
    [xi] accepts the quotient equation, for every [xi]. *)
Theorem c37_piop_completeness (F : fieldType) (env : fenv F) (PC : pcs F) (d : domain F) (vk : verifier_key F)
    (pre : prover_pre PC) (vos : seq (generic_vo F)) (es : seq (expr F oquery)) (A : assignment F) (z_h : lpoly F)
    (c : F) (rows : seq nat) (beta gamma alpha : F) :
  let ix := vk_index vk in let ext := ix_ext ix in let n := dsize d in let w := dgen d in
  fenv_ok env -> std_domain env d -> std_domain env ext -> (n <= dsize ext)%N ->
  map (@gv_get_expression F) vos = map Ok es -> (0 < size vos)%N ->
  exprs_ok (as_ws A) (as_ins A) (as_fs A) n es -> exprs_declared (as_ws A) (as_fs A) es ->
  shape_ok d (ix_perm ix) A (size (ix_lookups ix)) -> assignment_ok env d ext A ->
  pp_fixed pre = as_fs A -> pp_perm pre = as_sigmas A -> pp_q_blind pre = as_qb A ->
  c != 0 -> uniq rows -> (forall i, i \in rows -> (i < n)%N) -> Poly z_h = c *: \prod_(i <- rows) ('X - (w ^+ i)%:P) ->
  (size z_h <= dsize ext)%N \/ Poly z_h = 'X^n - 1 -> compute_zh_evals env d ext z_h = Ok (vk_zh_inverses vk) ->
  (forall e i, occurs e es -> i \in rows -> meaning (row_value (as_ws A) (as_ins A) (as_fs A) n i) e = 0) ->
  (forall p i, p \in perm_polys d (ix_perm ix) beta gamma A ++ flatten (lookup_polys d (ix_perm ix) beta gamma A) ->
     i \in rows -> p.[w ^+ i] = 0) ->
  (size (numerator d (ix_perm ix) es beta gamma A alpha) <= size rows + dsize ext)%N ->
  exists cs, prover_quotient_round env vk pre (as_ws A) (as_ins A) (copied (as_ws A)) (as_zs A) (as_los A) (as_lzs A) vos
                   beta gamma alpha d = Ok cs /\
  forall xi (v : view F (pc_com PC)) vpre, sees w xi (pa_usable_rows (ix_perm ix)) v A cs ->
    vp_fixed vpre = v_fs v -> vp_perm vpre = v_sigmas v -> vp_q_blind vpre = v_qb v ->
    quotient_check vk (v_ws v) (v_ins v) vpre (v_copied v) (v_zs v) (v_los v) (v_lzs v) (v_chunks v) vos beta gamma alpha xi d n z_h
    = Ok tt.
Proof.
move=> ix ext n w eok sd se le ev k0 eqok dec shape aok pf pp_ pq c0 ur rn zE szh Ezh Hv Hc fit.
have [zs' [Ezs szs _]] := zh_inverses eok sd se le szh; move: (Ezs); rewrite Ezh => -[E]; rewrite -E in szs.
have [cs [Ecs s1 s2 _ _]] := prover_quotient_roundE eok sd ev shape eqok k0 se le pf pp_ pq aok beta gamma alpha szs.
exists cs; split=> // xi v vpre sv vf vp_ vq.
have [[uw _] [ui _] [uf _]] := And3 (ao_ws aok) (ao_ins aok) (ao_fs aok).
rewrite (quotient_checkE eok sd ev shape eqok k0 uw ui uf dec sv vf vp_ vq).
set N := numerator _ _ _ _ _ _ _; set T := recombined _ _.
have N0 i : i \in rows -> N.[w ^+ i] = 0.
  move=> Hi; apply: numerator_root => p; rewrite /constraint_polys mem_cat => /orP[Hp|Hp]; last exact: Hc Hi.
  have [e He ->] := in_map_occurs Hp.
  have [_ ->] := expr_row_ok eok sd (ao_ws aok) (ao_ins aok) (ao_fs aok) (rn _ Hi) (fun q Hq => eqok e q He Hq).
  exact: Hv.
have [Q EQ sQ] := divides_rows eok sd c0 ur rn zE N0.
have -> : T = Q.
  apply: (@poly_eq_on _ _ _ (coset_points env ext)) => //.
  - exact: coset_points_uniq.
  - by rewrite size_coset_points.
  - rewrite size_coset_points; case: sQ => [sN|->]; last by rewrite size_poly0.
    by rewrite -(leq_add2r (size rows)) -sN addnC.
  move=> x /(nthP 0) [i]; rewrite size_coset_points => Hi <-; rewrite nth_coset_points //.
  rewrite /T s2 // -/N EQ hornerM -mulrA.
  have nz : peval z_h (coset_point env ext i) != 0.
    by rewrite pevalE zE rows_nonzero_on_coset.
  by rewrite -[X in _ * (X * _)]pevalE [X in _ * X]mulrC (zh_inverse_mul eok sd se le szh Ezh Hi nz) mulr1.
by rewrite EQ hornerM subrr eqxx.
Qed.
Print Assumptions c37_piop_completeness.

(** The side condition about the quotient is met by every key the indexer makes for z_h = X^n - 1,
    unless its quotient degree equals the size of the extended domain (C20). *)
Theorem c37_quotient_fits (F : fieldType) (env : fenv F) (d : domain F) (vk : verifier_key F)
    (vos : seq (generic_vo F)) (es : seq (expr F oquery)) (lookups : seq (generic_lookup_vo F)) (A : assignment F)
    (z_h : lpoly F) (info : permutation_info F) (u : nat) (beta gamma alpha : F) :
  let ix := vk_index vk in let ext := ix_ext ix in let n := dsize d in
  fenv_ok env -> std_domain env d ->
  index env (fun o : pdata F => pd_permute o) vos lookups (as_ws A) (as_ins A) (as_fs A) d z_h info u = Ok vk ->
  Poly z_h = 'X^n - 1 -> (ix_quotient_degree ix < dsize ext)%N ->
  configured (as_ws A) (as_ins A) (as_fs A) vos es -> exprs_ok (as_ws A) (as_ins A) (as_fs A) n es ->
  shape_ok d (ix_perm ix) A (size lookups) -> assignment_ok env d ext A ->
  (size (numerator d (ix_perm ix) es beta gamma A alpha) <= n + dsize ext)%N.
Proof.
move=> ix ext n eok sd Hix zE qd Hcf eqok shape aok.
have n0 : (0 < n)%N := dsize_gt0 (std_domain_ok eok sd).
have [q [Eq [qE lE] [se sE] [_ _] [Hp Hl]]] := index_inv eok sd Hix.
have pz : pdeg z_h = n by rewrite pdegE zE size_Xn_sub_1.
move: Eq; rewrite (quotient_degree_configured _ n0 Hcf) pz => Eq; have [Hm qE'] := usub_ok Eq.
rewrite -lE in shape.
apply: (numerator_fits beta gamma shape aok eqok).
- move=> e He; apply: (@leq_ltn_trans (max_degree n.-1 es)).
    by rewrite /max_degree; elim: (es) He => //= e' t IH [<-|/IH H]; rewrite big_cons leq_max ?leqnn // H orbT.
  by rewrite -/ext -/ix qE qE' in qd *; move: (max_degree _ _) Hm qd => m; rewrite -/n; lia.
- by rewrite -sE.
- move=> nn; have {}nn : ~~ nilp lookups by rewrite -lE.
  by rewrite sE leq_mul2r -/n; have := Hl nn; rewrite -/ix => H3; apply/orP; right; lia.
Qed.
Print Assumptions c37_quotient_fits.

(** ** C38 *)
(** [D] bounds the degrees of all constraint polynomials of [A]. If some constraint is non-zero on row
    [i] although z_h vanishes there, all but at most (number of constraints) alphas are such that, for
    every choice of chunk polynomials [ts], at most as many values of xi pass the verifier's check on the
    true evaluations as [D] or the degree of the product of quotient and z_h, whichever is larger. The
    chunks may depend on alpha (and the rest of [A] on nothing later than beta and gamma). *)
Theorem c38_piop_soundness (F : fieldType) (env : fenv F) (PC : pcs F) (d : domain F) (vk : verifier_key F)
    (vos : seq (generic_vo F)) (es : seq (expr F oquery)) (A : assignment F) (z_h : lpoly F)
    (beta gamma : F) (D i : nat) (p : {poly F}) :
  let ix := vk_index vk in let pa := ix_perm ix in let n := dsize d in let w := dgen d in
  let nl := size (ix_lookups ix) in let nz := size (as_zs A) in
  fenv_ok env -> std_domain env d ->
  map (@gv_get_expression F) vos = map Ok es -> (0 < size vos)%N ->
  exprs_ok (as_ws A) (as_ins A) (as_fs A) n es -> exprs_declared (as_ws A) (as_fs A) es ->
  shape_ok d pa A nl ->
  uniq (map (@o_label _) (as_ws A)) -> uniq (map (@o_label _) (as_ins A)) -> uniq (map (@o_label _) (as_fs A)) ->
  (0 < pa_usable_rows pa)%N \/ copied (as_ws A) = [::] \/ nl = 0%N ->
  (forall q, q \in constraint_polys d pa es beta gamma A -> (size q <= D.+1)%N) ->
  (i < n)%N -> (Poly z_h).[w ^+ i] = 0 ->
  p \in constraint_polys d pa es beta gamma A -> p.[w ^+ i] != 0 ->
  at_most (size vos + 2 * nz + 5 * nl) (fun alpha => exists ts : seq (poracle F),
    ~ at_most (maxn D (size (recombined n (map (@opoly F) ts)) + size (Poly z_h)).-2) (fun xi => exists (v : view F (pc_com PC)) vpre,
        [/\ sees w xi (pa_usable_rows pa) v A ts, vp_fixed vpre = v_fs v, vp_perm vpre = v_sigmas v, vp_q_blind vpre = v_qb v &
         quotient_check vk (v_ws v) (v_ins v) vpre (v_copied v) (v_zs v) (v_los v) (v_lzs v) (v_chunks v) vos
           beta gamma alpha xi d n z_h = Ok tt])).
Proof.
move=> ix pa n w nl nz eok sd ev k0 eqok dec shape uw ui uf sh HD Hi zi Hp np.
rewrite -(size_es ev) => s us Hs; apply: (bad_alphas eok sd shape Hi sh Hp np us) => alpha /Hs [ts].
set N := numerator _ _ _ _ _ _ _; case: (eqVneq N.[w ^+ i] 0) => // N0 []; set T := recombined _ _.
have ne : N - T * Poly z_h != 0.
  apply: contraNneq N0 => /eqP; rewrite subr_eq0 => /eqP ->; by rewrite hornerM zi mulr0.
apply: (at_most_roots ne).
  apply: leq_trans (size_add _ _) _; rewrite geq_max size_opp; apply/andP; split.
    by apply: leq_trans (_ : D.+1 <= _)%N; [exact: size_numerator_le HD|rewrite ltnS leq_maxl].
  by apply: leq_trans (size_mul_leq _ _) _; move: (size T) (size (Poly z_h)) => a b; lia.
move=> xi [v [vpre [sv vf vp_ vq]]].
rewrite (quotient_checkE eok sd ev shape eqok k0 uw ui uf dec sv vf vp_ vq).
by rewrite hornerD hornerN hornerM; case: eqP.
Qed.
Print Assumptions c38_piop_soundness.
