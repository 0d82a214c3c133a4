(** Property theorems C19-C23: the indexer. The vocabulary is in Spec.v; the proofs are in
    ProofIndexer.v and ProofPermutation.v. *)
From mathcomp Require Import all_ssreflect all_algebra zify.
From Coq Require Import String Lia.
From Verif Require Import Base ModelPoly ModelVO ModelOracle ModelPermutation ModelLookup ModelIndexer
  Spec ProofBase ProofDomain ProofPermutation ProofIndexer ProofIndexerExamples.

Set Implicit Arguments.
Unset Strict Implicit.
Unset Printing Implicit Defensive.

Import GRing.Theory.
Local Open Scope ring_scope.

(** ** C19 *)
Theorem c19_zh_inverses (F : fieldType) (env : fenv F) (d ext : domain F) (z_h : lpoly F) :
  fenv_ok env -> std_domain env d -> std_domain env ext -> (dsize d <= dsize ext)%N ->
  (size z_h <= dsize ext)%N \/ Poly z_h = 'X^(dsize d) - 1 ->
  exists zs, [/\ compute_zh_evals env d ext z_h = Ok zs, size zs = dsize ext &
    forall i, (i < dsize ext)%N ->
      let z := peval z_h (mult_gen env * dgen ext ^+ i) in
      (z != 0 -> zs`_i * z = 1) /\ (z = 0 -> zs`_i = 0)].
Proof.
move=> eok sd se le Hz; have [zs [E S H]] := zh_inverses eok sd se le Hz; exists zs; split=> // i Hi z.
rewrite H // -/(coset_point env ext i); split=> Hz0; first by rewrite mulVf.
by rewrite -[coset_point _ _ _]/(mult_gen env * dgen ext ^+ i) -/z Hz0 invr0.
Qed.
Print Assumptions c19_zh_inverses.

(** For z_h = X^n - 1 no coset point is a root, so every entry is a true inverse. *)
Theorem c19_zh_inverses_vanishing (F : fieldType) (env : fenv F) (d ext : domain F) (z_h : lpoly F) :
  fenv_ok env -> std_domain env d -> std_domain env ext -> (dsize d <= dsize ext)%N ->
  Poly z_h = 'X^(dsize d) - 1 ->
  exists2 zs, compute_zh_evals env d ext z_h = Ok zs &
    forall i, (i < dsize ext)%N -> zs`_i * peval z_h (mult_gen env * dgen ext ^+ i) = 1.
Proof.
move=> eok sd se le Hz; have [zs [E S H]] := c19_zh_inverses eok sd se le (or_intror Hz); exists zs => // i Hi.
case: (H i Hi) => H1 _; apply: H1.
rewrite ProofPoly.pevalE Hz hornerD hornerN hornerXn hornerC subr_eq0; by apply: (coset_not_in eok _ sd se le).
Qed.
Print Assumptions c19_zh_inverses_vanishing.

(** ** C20 *)
(** Refuted: for [n = 4] and the constraint [w0^4 - w1] the indexer succeeds with an extended
    domain of 8 points, and a satisfying assignment has a quotient of degree 8 (9 coefficients). *)
Theorem c20_quotient_too_big_refuted :
  exists (F : fieldType) (env : fenv F) (d : domain F) (vo : generic_vo F) (ws : seq (poracle F))
         (vk : verifier_key F) (e : expr F oquery),
    let z_h := vanishing_dense d in
    let leaf q := if find_oracle ws (oq_label q) is Some o then po_poly o else [::] in
    [/\ fenv_ok env /\ std_domain env d,
        index env (fun o : pdata F => pd_permute o) [:: vo] [::] ws ([::] : seq (poracle F))
          ([::] : seq (poracle F)) d z_h (permutation_info_dummy F) (dsize d) = Ok vk,
        gv_get_expression vo = Ok e,
        forall i, (i < dsize d)%N -> (poly_of leaf e).[dgen d ^+ i] = 0 &
        (size (poly_of leaf e %/ Poly z_h)%R > dsize (ix_ext (vk_index vk)))%N].
Proof. exact: quotient_degree_off_by_one. Qed.
Print Assumptions c20_quotient_too_big_refuted.

(** What holds: the quotient of every virtual oracle over columns of degree below [n] has at
    most [quotient_degree + 1] coefficients and [quotient_degree] is at most the number of
    points; so it fits unless the two are equal. Missing for the full property: that case. *)
Theorem c20_quotient_fits_partial (F : fieldType) (env : fenv F) (PW PI PF : Type) (permute : PW -> bool)
    (vos : seq (generic_vo F)) (lookups : seq (generic_lookup_vo F)) (ws : seq (oracle PW))
    (ins : seq (oracle PI)) (fs : seq (oracle PF)) (d : domain F) (z_h : lpoly F)
    (info : permutation_info F) (usable_rows : nat) (vk : verifier_key F) :
  fenv_ok env -> std_domain env d ->
  index env permute vos lookups ws ins fs d z_h info usable_rows = Ok vk -> Poly z_h != 0 ->
  let ix := vk_index vk in
  (ix_quotient_degree ix <= dsize (ix_ext ix))%N /\
  forall vo, occurs vo vos -> exists2 e, gv_get_expression vo = Ok e &
    forall leaf : oquery -> lpoly F, (forall q, occurs q (leaves e) -> (size (Poly (leaf q)) <= dsize d)%N) ->
    (size (poly_of leaf e %/ Poly z_h)%R <= (ix_quotient_degree ix).+1)%N /\
    (ix_quotient_degree ix <> dsize (ix_ext ix) ->
      (size (poly_of leaf e %/ Poly z_h)%R <= dsize (ix_ext ix))%N).
Proof.
move=> eok sd Hix z0 ix; have [le H] := index_quotient_bound eok sd Hix z0; split=> // vo /H[e He Hl].
exists e => // leaf Hs; split; first exact: Hl.
move/eqP=> ne; apply: leq_trans (Hl _ Hs) _; by rewrite ltn_neqAle ne.
Qed.
Print Assumptions c20_quotient_fits_partial.

(** ** C21 *)
(** Refuted: whenever the largest constraint degree is below the degree of z_h, indexing
    panics. *)
Theorem c21_low_degree_panics_refuted (F : fieldType) (env : fenv F) (PW PI PF : Type) (permute : PW -> bool)
    (vos : seq (generic_vo F)) (lookups : seq (generic_lookup_vo F)) (ws : seq (oracle PW))
    (ins : seq (oracle PI)) (fs : seq (oracle PF)) (d : domain F) (z_h : lpoly F)
    (info : permutation_info F) (usable_rows : nat) (es : seq (expr F oquery)) :
  fenv_ok env -> std_domain env d -> configured ws ins fs vos es ->
  (max_degree (dsize d).-1 es < pdeg z_h)%N ->
  index env permute vos lookups ws ins fs d z_h info usable_rows = Panic PUnderflow.
Proof. by move=> eok sd; apply: index_underflow. Qed.
Print Assumptions c21_low_degree_panics_refuted.

(** In particular with no constraint at all, and with linear constraints only, for z_h = X^n-1. *)
Theorem c21_no_constraints_panics_refuted (F : fieldType) (env : fenv F) (PW PI PF : Type) (permute : PW -> bool)
    (lookups : seq (generic_lookup_vo F)) (ws : seq (oracle PW)) (ins : seq (oracle PI)) (fs : seq (oracle PF))
    (d : domain F) (info : permutation_info F) (usable_rows : nat) :
  fenv_ok env -> std_domain env d ->
  index env permute [::] lookups ws ins fs d (vanishing_dense d) info usable_rows = Panic PUnderflow.
Proof.
move=> eok sd; apply: (@c21_low_degree_panics_refuted _ _ _ _ _ _ _ _ _ _ _ _ _ _ _ [::]) => //.
have n0 := dsize_gt0 (std_domain_ok eok sd).
by rewrite /max_degree big_nil ProofPoly.pdegE Poly_vanishing // size_Xn_sub_1.
Qed.
Print Assumptions c21_no_constraints_panics_refuted.

Theorem c21_linear_panics_refuted (F : fieldType) (env : fenv F) (PW PI PF : Type) (permute : PW -> bool)
    (vos : seq (generic_vo F)) (lookups : seq (generic_lookup_vo F)) (ws : seq (oracle PW))
    (ins : seq (oracle PI)) (fs : seq (oracle PF)) (d : domain F)
    (info : permutation_info F) (usable_rows : nat) (es : seq (expr F oquery)) :
  fenv_ok env -> std_domain env d -> configured ws ins fs vos es -> (max_degree 1 es <= 1)%N ->
  index env permute vos lookups ws ins fs d (vanishing_dense d) info usable_rows = Panic PUnderflow.
Proof.
move=> eok sd Hc H1; apply: (@c21_low_degree_panics_refuted _ _ _ _ _ _ _ _ _ _ _ _ _ _ _ es) => //.
have n0 := dsize_gt0 (std_domain_ok eok sd).
rewrite ProofPoly.pdegE Poly_vanishing // size_Xn_sub_1 //=.
by apply: leq_ltn_trans (max_degree_linear _ H1) _; rewrite prednK.
Qed.
Print Assumptions c21_linear_panics_refuted.

(** Otherwise, in a field with a large enough two-power subgroup, it never panics: it returns
    QuotientTooSmall when the domain for the quotient is smaller than [n] and succeeds else. *)
Theorem c21_total_otherwise (F : fieldType) (env : fenv F) (PW PI PF : Type) (permute : PW -> bool)
    (vos : seq (generic_vo F)) (lookups : seq (generic_lookup_vo F)) (ws : seq (oracle PW))
    (ins : seq (oracle PI)) (fs : seq (oracle PF)) (d : domain F) (z_h : lpoly F)
    (info : permutation_info F) (usable_rows : nat) (es : seq (expr F oquery)) :
  fenv_ok env -> std_domain env d -> configured ws ins fs vos es ->
  (pdeg z_h <= max_degree (dsize d).-1 es)%N ->
  let m := (2 ^ up_log 2 (max_degree (dsize d).-1 es - pdeg z_h))%N in
  (4 * maxn m (dsize d) <= 2 ^ two_adicity env)%N ->
  if (m < dsize d)%N
  then index env permute vos lookups ws ins fs d z_h info usable_rows = Err QuotientTooSmall
  else exists vk, index env permute vos lookups ws ins fs d z_h info usable_rows = Ok vk.
Proof. by move=> eok sd; apply: index_total. Qed.
Print Assumptions c21_total_otherwise.

(** ** C22 *)
Theorem c22_scaling_suffices (F : fieldType) (env : fenv F) (PW PI PF : Type) (permute : PW -> bool)
    (vos : seq (generic_vo F)) (lookups : seq (generic_lookup_vo F)) (ws : seq (oracle PW))
    (ins : seq (oracle PI)) (fs : seq (oracle PF)) (d : domain F) (z_h : lpoly F)
    (info : permutation_info F) (usable_rows : nat) (vk : verifier_key F) :
  fenv_ok env -> std_domain env d -> (1 < dsize d)%N ->
  index env permute vos lookups ws ins fs d z_h info usable_rows = Ok vk ->
  let n := dsize d in
  let N := dsize (ix_ext (vk_index vk)) in
  let m := pa_max_cols (ix_perm (vk_index vk)) in
  [/\ (N = m.+1 * n)%N,
      (0 < count (fun o => permute (o_data o)) ws)%N -> (2 * n <= N)%N /\ (1 <= m)%N,
      lookups <> [::] -> (4 * n <= N)%N,
      (* quotients of the permutation constraints: chunks of at most [m] columns of degree < n *)
      forall (l0 ql qb : {poly F}) (beta gamma : F) (cs : seq (pchunk [comRingType of {poly F}])) c,
        (0 < count (fun o => permute (o_data o)) ws)%N -> (n <= pdeg z_h + m.+1)%N ->
        (forall k, occurs k cs -> [/\ (size (ch_cols k) <= m)%N,
           (size (ch_z k) <= n)%N /\ (size (ch_zn k) <= n)%N, (size (ch_zu k) <= n)%N &
           forall t, occurs t (ch_cols k) ->
             [/\ (size t.1.1 <= n)%N, (size t.1.2 <= n)%N & exists delta, t.2 = delta *: 'X]]) ->
        (size l0 <= n)%N -> (size ql <= n)%N -> (size qb <= n)%N ->
        c \in perm_constraints l0 ql qb beta%:P gamma%:P cs -> (size (c %/ Poly z_h)%R <= N)%N &
      (* quotients of the lookup constraints: columns of degree < n *)
      forall (l0 ql qb a s a' s' ap z zn : {poly F}) (beta gamma : F) (c : {poly F}),
        lookups <> [::] -> (forall p, p \in [:: l0; ql; qb; a; s; a'; s'; ap; z; zn] -> (size p <= n)%N) ->
        c \in lookup_constraints l0 ql qb beta%:P gamma%:P a s a' s' ap z zn ->
        (size (c %/ Poly z_h)%R <= N)%N].
Proof.
move=> eok sd n1 Hix n N m.
have [qd [_ _ [_ HN] _ [H1 H3]]] := index_inv eok sd Hix; rewrite -/N -/m -/n in HN H1 H3.
have Hlk : lookups <> [::] -> (3 <= m)%N by move=> nl; apply: H3; case: (lookups) nl.
have dn (p : {poly F}) : (size p <= n)%N -> dle p n.-1 by rewrite /dle prednK // ltnW.
split=> //.
- by move/H1 => m1; split=> //; rewrite HN leq_mul2r orbC ltnS m1.
- by move/Hlk => m3; rewrite HN leq_mul2r orbC ltnS m3.
- move=> l0 ql qb beta gamma cs c np Hz Hcs s0 sl sb Hc.
  apply: (@quotient_size _ _ _ ((m + 2) * n.-1)).
    apply: (dle_perm_constraints _ (dn _ s0) (dn _ sl) (dn _ sb) Hc (H1 np)) => k /Hcs[H4 [H5 H6] H7 H8].
    split=> //; try exact: dn.
    move=> t /H8[H9 H10 [delta ->]]; split; try exact: dn.
    by apply: dle_scale; apply: dle_X; rewrite -ltnS prednK // ltnW.
  rewrite HN -ProofPoly.pdegE; have E : n = n.-1.+1 by rewrite prednK // ltnW.
  by move: Hz; rewrite E /=; move: (n.-1) (pdeg z_h) => x y; nia.
- move=> l0 ql qb a s a' s' ap z zn beta gamma c /Hlk m3 Hs Hc.
  apply: (@quotient_size _ _ _ (4 * n.-1)).
    by apply: (dle_lookup_constraints _ _ _ _ _ _ _ _ _ _ Hc); apply: dn; apply: Hs; rewrite !inE eqxx ?orbT.
  rewrite HN ltn_addr //; apply: leq_ltn_trans (_ : m.+1 * n.-1 < _)%N; first by rewrite leq_mul2r ltnS m3 orbT.
  by rewrite ltn_mul2l /= prednK // ltnW.
Qed.
Print Assumptions c22_scaling_suffices.

(** ** C23 *)
Theorem c23_number_of_z_polys (F : fieldType) (A : Type) (pa : permutation_argument F) (cols : seq A) :
  (0 < pa_max_cols pa)%N ->
  number_of_z_polys pa (size cols) = Ok (size (chunks (pa_max_cols pa) cols)).
Proof. exact: z_polys_chunks. Qed.
Print Assumptions c23_number_of_z_polys.

Theorem c23_prover_builds_that_many (F : fieldType) (Z : Type) (env : fenv F) (zk_rand : Z -> F * Z)
    (pa : permutation_argument F) (ws sigmas : seq (poracle F)) (beta gamma : F) (d ext : domain F)
    (zk zk' : Z) (zs : seq (poracle F)) :
  construct_agg_polys env zk_rand pa ws sigmas beta gamma d ext zk = Ok (zs, zk') ->
  number_of_z_polys pa (size ws) = Ok (size zs).
Proof. exact: construct_agg_size. Qed.
Print Assumptions c23_prover_builds_that_many.

(** The verifier's sum contains every constraint of the argument exactly once, each with its
    own challenge power, and uses all [number_of_alphas] of them. *)
Theorem c23_alphas_cover_constraints (F : fieldType) (C : Type) (pa : permutation_argument F) (l0 ql qbv : F)
    (qb : voracle F C) (zs sigmas ws : seq (voracle F C)) (beta gamma : F) (d : domain F) (xi : F) (alphas : seq F)
    (wv sv zv znv zuv : voracle F C -> F) :
  (0 < pa_max_cols pa)%N -> (0 < size ws)%N -> size sigmas = size ws -> size (pa_deltas pa) = size ws ->
  number_of_z_polys pa (size ws) = Ok (size zs) -> size alphas = number_of_alphas (size zs) ->
  vo_query qb xi = Ok qbv ->
  (forall o, occurs o ws -> vo_query o xi = Ok (wv o)) ->
  (forall o, occurs o sigmas -> vo_query o xi = Ok (sv o)) ->
  (forall o, occurs o zs -> vo_query o xi = Ok (zv o)) ->
  (forall o, occurs o zs -> vo_query o (dgen d * xi) = Ok (znv o)) ->
  (forall k o, (k.+1 < size zs)%N -> idx zs k = Ok o -> vo_query o (dgen d ^+ pa_usable_rows pa * xi) = Ok (zuv o)) ->
  let constraints := perm_constraints l0 ql qbv beta gamma
     (perm_chunks (pa_max_cols pa) [seq (wv t.1.1, sv t.1.2, t.2 * xi) | t <- zip (zip ws sigmas) (pa_deltas pa)]
        [seq (zv z, znv z, zuv z) | z <- zs]) in
  size constraints = number_of_alphas (size zs) /\
  perm_open pa l0 ql qb zs sigmas ws beta gamma d xi alphas = Ok (combination alphas constraints).
Proof.
move=> m0 w0 ss sd; rewrite z_polys_chunks // => -[E] Ea Hqb Hw Hs Hz Hzn Hzu cs.
have Ea' : size alphas = (2 * size zs + 1)%N by rewrite Ea /number_of_alphas addnK.
have sz : size (perm_chunks (pa_max_cols pa) [seq (wv t.1.1, sv t.1.2, t.2 * xi) | t <- zip (zip ws sigmas) (pa_deltas pa)]
   [seq (zv z, znv z, zuv z) | z <- zs]) = size zs by apply: size_perm_chunks.
have z0 : (0 < size zs)%N by rewrite -E chunks_cons.
split; first by rewrite size_perm_constraints sz // /number_of_alphas addnK.
by rewrite perm_openE Hqb; apply: perm_generic_ok.
Qed.
Print Assumptions c23_alphas_cover_constraints.

Theorem c23_wrong_alpha_count_panics (F : fieldType) (C : Type) (pa : permutation_argument F) (l0 ql : F)
    (qb : voracle F C) (zs sigmas ws : seq (voracle F C)) (beta gamma : F) (d : domain F) (xi : F) (alphas : seq F) :
  size alphas != number_of_alphas (size zs) ->
  exists p, perm_open pa l0 ql qb zs sigmas ws beta gamma d xi alphas = Panic p.
Proof.
rewrite eq_sym => ne; rewrite /perm_open /rassert /chunksR.
do 2!(case: (_ == _); last by eexists); case: (_ == _); first by eexists.
by rewrite /=; do 3!(case: (_ == _); last by eexists); rewrite (negPf ne); eexists.
Qed.
Print Assumptions c23_wrong_alpha_count_panics.

(** ** Non-vacuity *)
From Coq Require Import NArith String.
From Verif Require Import ModelGates Field97 Concrete ProofConcrete.
Local Close Scope ring_scope.

Example ex_c19 : [/\ fenv_ok env97, std_domain env97 (dom97 4), std_domain env97 (dom97 16) &
  dsize (dom97 4) <= dsize (dom97 16)].
Proof. split; [exact: env97_ok | exact: dom97_4 | exact: dom97_16 | by []]. Qed.

(** Two permuted columns, a cubic gate and a lookup: the indexer picks scaling 4. *)
Definition ix_cols : seq (poracle f97_fieldType) :=
  [:: porc Witness 4 "a" (col [:: 1; 2; 3; 5]%nat) true; porc Witness 4 "b" (col [:: 1; 8; 27; 28]%nat) true].
Definition ix_table : seq (poracle f97_fieldType) := [:: porc Fixed 4 "t" (col [:: 1; 2; 3; 5]%nat) false].
Definition ix_vo : generic_vo f97_fieldType :=
  let w := Orc (wq 0 curr) in
  gv_init (esub (emul w (emul w w)) (Orc (wq 1 curr)), [:: wq 0 curr; wq 1 curr]).
Definition ix_lookup : generic_lookup_vo f97_fieldType :=
  GenericLookupVO [:: Orc (wq 0 curr)] [:: wq 0 curr] [:: VQuery 0 curr Fixed] None None.
Definition ix_conf := ok_or (ix_vo, (ix_cols, [::], ix_table)) (gv_configure ix_vo (ix_cols, [::] : seq (poracle f97_fieldType), ix_table)).
Definition ix_vk := ModelIndexer.index env97 (fun o : pdata f97_fieldType => pd_permute o) [:: ix_conf.1] [:: ix_lookup]
   ix_conf.2.1.1 ([::] : seq (poracle f97_fieldType)) ix_conf.2.2 (dom97 4)
   (vanishing_dense (dom97 4)) (PermutationInfo 2 (col [:: 1; 5]%nat)) 2.
Example ex_index : if ix_vk is Ok vk
  then (dsize (ix_ext (vk_index vk)) == 16) && (pa_max_cols (ix_perm (vk_index vk)) == 3)
       && (ix_quotient_degree (vk_index vk) == 5) && (size (vk_zh_inverses vk) == 16)
  else false.
Proof. by vm_compute. Qed.
Example ex_c21 : exists es, [/\ configured ix_conf.2.1.1 ([::] : seq (poracle f97_fieldType)) ix_conf.2.2 [:: ix_conf.1] es,
  pdeg (vanishing_dense (dom97 4)) <= max_degree (dsize (dom97 4)).-1 es &
  4 * maxn (2 ^ up_log 2 (max_degree (dsize (dom97 4)).-1 es - pdeg (vanishing_dense (dom97 4)))) (dsize (dom97 4)) <= 2 ^ two_adicity env97].
Proof.
pose w l : expr f97_fieldType oquery := Orc (OQuery l curr Witness).
exists [:: esub (emul (w "a"%string) (emul (w "a"%string) (w "a"%string))) (w "b"%string)].
have D : pdeg (vanishing_dense (dom97 4)) = 4 by apply/eqP; vm_compute.
split; [split; first by vm_compute| | ].
- move=> e q [->|//]; rewrite /=; by case=> [->|[->|[->|[->|//]]]]; vm_compute.
- by rewrite D /max_degree !big_cons !big_nil.
- rewrite D /max_degree !big_cons !big_nil -[dsize _]/4 -[_ - _]/5.
  by rewrite -[up_log 2 5]/3.
Qed.
(** A linear gate. *)
Definition lin_vo : generic_vo f97_fieldType :=
  gv_init (esub (Orc (wq 0 curr)) (Orc (wq 1 curr)), [:: wq 0 curr; wq 1 curr]).
Definition lin_conf := ok_or (lin_vo, (ix_cols, [::], [::])) (gv_configure lin_vo (ix_cols, [::] : seq (poracle f97_fieldType), [::] : seq (poracle f97_fieldType))).
Example ex_c21_linear : exists es, configured lin_conf.2.1.1 ([::] : seq (poracle f97_fieldType)) ([::] : seq (poracle f97_fieldType)) [:: lin_conf.1] es /\
  max_degree 1 es <= 1.
Proof.
pose w l : expr f97_fieldType oquery := Orc (OQuery l curr Witness).
exists [:: esub (w "a"%string) (w "b"%string)]; split; first split; first by vm_compute.
- move=> e q [->|//]; rewrite /=; by case=> [->|[->|//]]; vm_compute.
- by rewrite /max_degree !big_cons !big_nil.
Qed.

(** One chunk of two columns, opened at 7 in the domain of size 4 (generator 22). *)
Definition vorc (l : string) (k : oracle_type) (es : seq (nat * nat)) : voracle f97_fieldType unit :=
  Oracle l [::] (VData k [seq (n97 e.1, n97 e.2) | e <- es] None false).
Example ex_c23 :
  let xi := n97 7 in let wxi := (dgen (dom97 4) * n97 7)%R in
  let pa := PermutationArgument 2 2 (col [:: 1; 5]%nat) in
  let ws := [:: vorc "a" Witness [:: (7, 3)%nat]; vorc "b" Witness [:: (7, 4)%nat]] in
  let ss := [:: vorc "sa" Fixed [:: (7, 1)%nat]; vorc "sb" Fixed [:: (7, 9)%nat]] in
  let zs : seq (voracle f97_fieldType unit) := [:: Oracle "z"%string [::] (VData Witness [:: (xi, n97 2); (wxi, n97 6)] None false)] in
  [/\ number_of_z_polys pa 2 = Ok 1%nat, number_of_alphas 1 = 3%nat,
      forall o, occurs o ws -> vo_query o xi = Ok (ok_or 0%R (vo_query o xi)),
      forall o, occurs o ss -> vo_query o xi = Ok (ok_or 0%R (vo_query o xi)) &
      forall o, occurs o zs -> vo_query o xi = Ok (ok_or 0%R (vo_query o xi)) /\
                               vo_query o wxi = Ok (ok_or 0%R (vo_query o wxi))].
Proof.
split=> //.
- by move=> o [->|[->|//]].
- by move=> o [->|[->|//]].
- by move=> o [->|//].
Qed.
