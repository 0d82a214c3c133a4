(** When the prover returns a proof (C59). *)
From mathcomp Require Import all_ssreflect all_algebra.
From mathcomp Require Import zify.
From Coq Require Import String.
From Verif Require Import Base ModelPoly ModelVO ModelOracle ModelPC ModelPermutation
  ModelLookup ModelIndexer ModelMultiproof ModelProtocol Spec SpecProtocol SpecPIOP SpecMultiopen SpecCircuit SpecProve
  ProofBase ProofPoly ProofDomain ProofEach ProofOracle ProofPermutation ProofPermArg ProofLookup ProofIndexer ProofOpen ProofPIOP ProofPIOP2 ProofPIOP3 ProofColumns
  ProofVerifierCols ProofProver ProofCounts ProofRounds ProofMultiopen ProofHonest.

Set Implicit Arguments.
Unset Strict Implicit.
Unset Printing Implicit Defensive.

Import GRing.Theory.
Local Open Scope ring_scope.

Section Sizes.
Variable F : fieldType.
Implicit Types p q : lpoly F.
Lemma size_padd_le n p q : (size p <= n)%N -> (size q <= n)%N -> (size (padd p q) <= n)%N.
Proof.
move=> Hp Hq; apply: leq_trans (size_ptrim_le _) _; elim: p q n Hp Hq => [|a p IH] [|b q] [|n] //= Hp Hq.
exact: IH.
Qed.
Lemma size_pscale_le c p : (size (pscale c p) <= size p)%N.
Proof. by apply: leq_trans (size_ptrim_le _) _; rewrite size_map. Qed.
Lemma size_foldl_le (T : Type) (f : T -> lpoly F) (c : T -> F) n (s : seq T) p :
  (size p <= n)%N -> (forall t, occurs t s -> (size (f t) <= n)%N) ->
  (size (foldl (fun q t => padd q (pscale (c t) (f t))) p s) <= n)%N.
Proof.
elim: s p => //= t s IH p Hp Hs; apply: IH => [|t' Ht']; last by apply: Hs; right.
by apply: size_padd_le => //; apply: leq_trans (size_pscale_le _ _) _; apply: Hs; left.
Qed.
Lemma size_pdivmod b db lc p : size (pdivmod_rec b db lc p).1 = size p.
Proof. by elim: p => //= a p; case: (pdivmod_rec b db lc p) => q r /= ->. Qed.
Lemma size_pdiv p q r : pdiv p q = Ok r -> (size r <= size p)%N.
Proof.
rewrite /pdiv; case: (ptrim q) => // c s [<-].
by apply: leq_trans (size_ptrim_le _) _; rewrite size_pdivmod.
Qed.
End Sizes.

Section Multiopen.
Variables (F : fieldType) (env : fenv F) (PC : pcs F) (FS : fsrng F) (ck : pc_ck PC) (n : nat).
Hypothesis tot : pcs_total ck n.
Lemma commit_all_ok ps zk : (forall p, occurs p ps -> (size p.1 <= n)%N) -> exists cs rs zk', commit_all ck ps zk = Ok (cs, rs, zk').
Proof.
elim: ps zk => [|[p h] ps IH] zk H /=; first by exists [::], [::], zk.
case: (pc_sample h zk) => r zk1; have [c ->] := (tot (H _ (or_introl erefl))).1 r.
have [|cs [rs [zk2 ->]]] := IH zk1; first by move=> q Hq; apply: H; right.
by exists (c :: cs), (r :: rs), zk2.
Qed.
Lemma commit_labeled_ok os zk : (forall o, occurs o os -> (size (po_poly o) <= n)%N) ->
  exists cs rs zk', commit_all ck (labeled os) zk = Ok (cs, rs, zk').
Proof. by move=> H; apply: commit_all_ok => p Hp; have [o Ho ->] := occurs_map Hp; apply: H. Qed.

Variables (d : domain F) (xi : F).
Hypothesis dok : domain_ok d.
Definition openable (o : poracle F) : Prop :=
  [/\ (size (po_poly o) <= n)%N, (forall r, r \in o_rots o -> (r.1 < dsize d)%N) & uniq [seq rot_point (dgen d) r xi | r <- o_rots o]].

Lemma prover_item_ok pows k (os : seq (poracle F * pc_rand PC)) :
  (0 < size os)%N -> (forall o, occurs o os -> openable o.1 /\ o_rots o.1 = k) ->
  exists q r evs, mo_prover_item pows (elements d) xi (k, os) = Ok (q, r, evs) /\ (size q <= n)%N.
Proof.
case: os => // o0 os _; move: (o0 :: os) (or_introl erefl : occurs o0 (o0 :: os)) => {os}os H0 H.
have [[s0 b0 u0] E0] := H _ H0; rewrite E0 in b0 u0.
rewrite /mo_prover_item.
pose g (pt : F) : F := \sum_(t <- zip (map fst os) pows) t.2 * peval (po_poly t.1) pt.
pose pvs := [seq (rot_point (dgen d) r xi, g (rot_point (dgen d) r xi)) | r <- k].
have Ep : map fst pvs = [seq rot_point (dgen d) r xi | r <- k] by rewrite -map_comp; apply: eq_map.
have -> : batched_evals (@po_query F) (fun rot => Err (RepeatedRotation rot.1 rot.2)) (elements d) xi pows (map fst os) k [::] = Ok ([::] ++ pvs).
  apply: batched_intro; rewrite ?Ep //.
  - elim: (k) b0 => //= r l IH Hb; rewrite IH => [|r' Hr']; last by apply: Hb; rewrite inE Hr' orbT.
    by rewrite compute_point_ok ?Hb ?mem_head.
  - move=> i Hi; rewrite /pvs in Hi *; rewrite size_map in Hi.
    by rewrite (nth_map curr (0, 0)) //=; apply: (@ProofMultiopen.batch_ok F _ _ _ _ _ (fun o => peval (po_poly o) _)).
eexists _, _, _; split; first by [].
apply: size_foldl_le => // t Ht; have [[] //] := H t.1 (occurs_zip_fst Ht).
Qed.

Lemma f_poly_ok (it : lpoly F * pc_rand PC * seq (F * F)) : exists2 p, mo_f_poly it = Ok p & (size p <= size it.1.1)%N.
Proof.
rewrite /mo_f_poly; have z0 : Poly (construct_vanishing (map fst it.2)) != 0.
  by rewrite Poly_vanish monic_neq0 // monic_prod_XsubC.
have [p E _] := pdivE it.1.1 z0; exists p => //; exact: size_pdiv E.
Qed.
Lemma rmapM_ok_prop A B (f : A -> res B) (P : B -> Prop) s :
  (forall x, occurs x s -> exists2 y, f x = Ok y & P y) -> exists2 ys, rmapM f s = Ok ys & forall y, occurs y ys -> P y.
Proof.
elim: s => [|x s IH] H /=; first by exists [::].
have [y -> Py] := H x (or_introl erefl); have [|ys -> Hys] := IH; first by move=> z Hz; apply: H; right.
by exists (y :: ys) => //= z [->|/Hys].
Qed.
Lemma mo_prove_ok ds os rs (fs : fs_state FS) zk : domain_new env ds = Some d -> size os = size rs ->
  (forall o, occurs o os -> openable o) ->
  exists pf fs' zk', mo_prove env ck os rs xi ds fs zk = Ok (pf, fs', zk').
Proof.
move=> Ed ss Ho; rewrite /mo_prove; case: (fs_rand fs) => x1 fs1; case: (fs_rand fs1) => x2 fs2; rewrite Ed /=.
set sets := opening_sets _ _; set pows := powers _ _ _.
have [items -> Hit] : exists2 items, rmapM (mo_prover_item pows (elements d) xi) sets = Ok items &
    forall it, occurs it items -> (size it.1.1 <= n)%N.
  apply: rmapM_ok_prop => -[k l] Hk.
  have [||q [r [evs [E Hq]]]] := @prover_item_ok pows k l; last by exists (q, r, evs).
  - exact: opening_sets_nonempty Hk.
  - move=> o Hol; have [Ek Hoz] := opening_sets_mem Hk Hol; split=> //.
    by apply: Ho; exact: occurs_zip_fst Hoz.
rewrite rbind_Ok.
have [fp -> Hfp] : exists2 fp, rmapM (@mo_f_poly F PC) items = Ok fp & forall p, occurs p fp -> (size p <= n)%N.
  apply: rmapM_ok_prop => it /Hit Hs; have [p E Hp] := f_poly_ok it; exists p => //; exact: leq_trans Hp Hs.
rewrite rbind_Ok; set fagg := foldl _ _ _.
have sf : (size fagg <= n)%N.
  by apply: size_foldl_le => // t Ht; apply: Hfp; exact: occurs_zip_fst Ht.
cbn [commit_all]; case: (pc_sample _ zk) => fr zk1.
have [c ->] := (tot sf).1 fr; cbn [rbind commit_all idx].
case: (fs_rand _) => x3 fs3; case: (fs_rand _) => x4 fs4.
set fin := foldl _ _ _; have sfin : (size fin <= n)%N.
  by apply: size_foldl_le => // t Ht; apply: Hit; exact: occurs_zip_fst Ht.
have [c2 ->] := (tot sfin).1 (pc_empty PC); rewrite rbind_Ok.
have [op ->] := (tot sfin).2 x3 (foldl (fun r ix => pc_add_rand r (pc_scale_rand ix.1.1.2 ix.2)) fr (zip items (powers (size items) x4 x4))).
by eexists _, _, _; cbn [rbind idx].
Qed.
End Multiopen.

Section Rounds.
Variables (F : fieldType) (env : fenv F) (PC : pcs F).
Lemma lookup_round_ok (pre : prover_pre PC) ix ws ins theta d kls zk :
  (forall kl zk, occurs kl kls -> exists es tqs lo zk', [/\ gl_get_expressions kl.2 = Ok es, gl_get_table_queries kl.2 = Ok tqs &
    construct_a_and_s_polys_prover env (@pc_zk_rand F PC) ws ins (pp_fixed pre) (pp_table pre) (ix_usable_rows ix) kl.1 es tqs
      theta d (ix_ext ix) zk = Ok (lo, zk')]) ->
  exists los zk', prover_lookup_round env pre ix ws ins theta d kls zk = Ok (los, zk').
Proof.
elim: kls zk => [|[k l] kls IH] zk H /=; first by exists [::], zk.
have [es [tqs [lo [zk1 [/= -> -> E]]]]] := H (k, l) zk (or_introl erefl); rewrite !rbind_Ok E rbind_Ok.
have [|los [zk2 ->]] := IH zk1; first by move=> kl zk0 Hk; apply: H; right.
by exists (lo :: los), zk2.
Qed.
Lemma subset_round_ok (ix : index_info F) beta gamma d klos (zk : pc_zk PC) :
  (forall kl zk, occurs kl klos -> exists z zk', se_construct_agg_poly env (@pc_zk_rand F PC) kl.2 beta gamma kl.1 (ix_usable_rows ix) d (ix_ext ix) zk
     = Ok (z, zk')) ->
  exists zs zk', prover_subset_round env ix beta gamma d klos zk = Ok (zs, zk').
Proof.
elim: klos zk => [|[k lo] klos IH] zk H /=; first by exists [::], zk.
have [z [zk1 /= E]] := H (k, lo) zk (or_introl erefl); rewrite E rbind_Ok.
have [|zs [zk2 ->]] := IH zk1; first by move=> kl zk0 Hk; apply: H; right.
by exists (z :: zs), zk2.
Qed.
Lemma label_mem P (os : seq (oracle P)) j o : idx os j = Ok o -> o_label o \in map (@o_label P) os.
Proof.
elim: os j => [|a os IH] [|j] //=; first by case=> ->; rewrite mem_head.
by move=> /IH H; rewrite inE H orbT.
Qed.
Lemma query_set_ok (d : domain F) pl x (os : seq (poracle F)) : domain_ok d -> rots_below os (dsize d) -> uniq (map (@o_label _) os) ->
  exists qs evs, get_query_set os pl x (elements d) = Ok qs /\ evaluate_query_set os qs = Ok evs.
Proof.
move=> dok rb uq; have [qs E Hq] := get_query_set_ok pl x dok rb.
exists qs, [seq peval (ok_or [::] (if named os e.1 is Some o then Ok (po_poly o) else Panic PUnwrap)) e.2.2 | e <- qs]; split=> //.
apply: (evaluate_query_set_ok (g := fun l x => peval (ok_or [::] (if named os l is Some o then Ok (po_poly o) else Panic PUnwrap)) x)) => //.
  by move=> j o Ho y; rewrite (named_idx uq Ho).
by move=> e; rewrite Hq => /query_entries_inv[j [o [r [Ho _ ->]]]]; exact: label_mem Ho.
Qed.
End Rounds.

Section Prove.
Variables (F : fieldType) (env : fenv F).
Hypothesis eok : fenv_ok env.
Variables (PC : pcs F) (ck : pc_ck PC) (C : circuit F) (vk : verifier_key F) (es : seq (expr F oquery))
  (theta beta gamma alpha xi : F) (zk : pc_zk PC).
Let ix := vk_index vk.
Let ext := ix_ext ix.
Let d := c_d C.
Let n := c_rows C.
Let w := dgen d.
Let pre := preprocessed env PC C vk.
Notation f := (compute_extended_evals env ext).
Hypothesis sd : std_domain env d.
Hypothesis ixd : indexed env C vk.
Hypothesis lay : laid_out C.
Hypothesis gok : gates_ok C es.
Hypothesis vpos : (0 < size (c_vos C))%N.
Hypothesis ult : (pi_u (c_info C) < n)%N.
Hypothesis lks : lookups_ok C n.
Hypothesis lkh : combined_lookups_hold C theta.
Hypothesis cph : ~~ nilp (copied (c_ws C)) -> products_agree C beta gamma.
Hypothesis nzd : no_zero_denominator C theta beta gamma.
Hypothesis tot : pcs_total ck n.

Let dok : domain_ok d := std_domain_ok eok sd.
Let se : std_domain env ext := (ext_std eok sd ixd).1.
Let le : (n <= dsize ext)%N := (ext_std eok sd ixd).2.
Lemma lks_ext : lookups_ok C (dsize ext).
Proof.
case: lks => H1 H2; split=> // l /H1[e [t [h1 h2 h3 h4 [h5 h6]]]]; exists e, t; split=> //; split=> // x /h6 H.
exact: leq_trans H le.
Qed.
Lemma lookup_row_ext es' i : lookup_row (map f (c_ws C)) (map f (c_ins C)) (map f (c_fs C)) n es' theta i =
  lookup_row (c_ws C) (c_ins C) (c_fs C) n es' theta i.
Proof. by rewrite /lookup_row; congr compressed; apply: eq_map => e; rewrite meaning_ext. Qed.
Lemma table_row_ext tqs i : table_row (map f (c_ts C)) tqs theta i = table_row (c_ts C) tqs theta i.
Proof. by rewrite /table_row; congr compressed; apply: eq_map => q; rewrite column_ext. Qed.

Lemma one_lookup k l zk0 : occurs l (c_lookups C) -> exists es' tqs lo zk', [/\ gl_get_expressions l = Ok es', gl_get_table_queries l = Ok tqs &
  construct_a_and_s_polys_prover env (@pc_zk_rand F PC) (map f (c_ws C)) (map f (c_ins C)) (map f (c_fs C)) (map f (c_ts C)) (c_u C) k es' tqs
    theta d ext zk0 = Ok (lo, zk')].
Proof.
move=> Hl; case: lks => H1 H2; have [es' [tqs [E1 E2 [h1 h2] [h3 h4] [h5 h6]]]] := H1 l Hl.
have [ss rows] := lkh Hl E1 E2.
have [|_ u0 un] := H2; first by case: (c_lookups C) Hl.
exists es', tqs; have wfw := wf_ws env vk lay; have wfi := wf_ins env vk lay; have wff := wf_fs env vk lay; have wft := wf_ts env vk lay.
have h1e := exprs_ok_ext env ext h1; have h3e := (tables_ext env ext (conj h3 h4)).1.
have sA : (size (lookup_poly (map f (c_ws C)) (map f (c_ins C)) (map f (c_fs C)) w es' theta) <= n)%N.
  apply: size_compressed => p Hp; have [e He ->] := in_map_occurs Hp.
  apply: leq_trans (h6 e He); apply: (expr_poly_size_wf eok _ sd wfw wfi wff) => [|q Hq].
    exact: ltnW (lay_rows lay).
  exact: h1e He Hq.
have [|lo [zk' E]] := construct_columns_ok eok sd se le wfw wfi wff wft (@pc_zk_rand F PC) k h1e h3e (leq_trans sA le) zk0 ss (ltnW un) sA.
  move=> i Hi; have [j Hj E] := rows i Hi; exists j => //.
  by rewrite lookup_row_ext table_row_ext E.
by exists lo, zk'.
Qed.
Lemma los_ok zk0 : exists los zk', prover_lookup_round env pre ix (map f (c_ws C)) (map f (c_ins C)) theta d (enumerate (ix_lookups ix)) zk0 = Ok (los, zk').
Proof.
apply: lookup_round_ok => kl zk1 Hk; have [_ ->] := usable ixd.
have [j Hj] := occurs_ex_idx Hk; move: Hj; rewrite idx_enumerate /ix (ix_lookupsE eok sd ixd).
case E: (idx _ j) => [l|//|//] /= [<-] /=; exact: (one_lookup j zk1 (occurs_idx E)).
Qed.
Lemma zs_ok zk0 : exists zs zk', prover_permutation_round env (ix_perm ix) pre (oracles_to_copy (map f (c_ws C))) beta gamma d ext zk0 = Ok (zs, zk').
Proof.
rewrite /prover_permutation_round -[oracles_to_copy _]/(copied (map f (c_ws C))) copied_ext /nilp size_map -/(nilp _).
case: ifP => nn; first by exists [::], zk0.
have [s1 s2 pr] := cph (negbT nn); have [iu idl _] := index_rows ixd; rewrite -/ix in iu idl.
have [qd [_ _ _ _ [hm _]]] := index_inv eok sd ixd.
have cv os j i : cell_value (map f os) j i = cell_value os j i.
  by rewrite /cell_value idx_map; case: (idx os j).
apply: (@construct_agg_of_prods F env _ (@pc_zk_rand F PC) d ext (ix_perm ix) (map f (copied (c_ws C))) (map f (c_sigmas C)) beta gamma).
all: rewrite ?iu ?idl ?size_map //.
- move=> o [Ho|Ho]; have [o' Ho' ->] := occurs_map Ho.
    by have [|-> //] := @lay_in F C lay o'; left; exact: occurs_filter Ho'.
  by have [|-> //] := @lay_in F C lay o'; (right; right; right; right; left).
- by apply: hm; move/negbT: nn; rewrite /copied /nilp -lt0n size_filter.
- by rewrite lt0n; move/negbT: nn.
- by apply: etrans (etrans _ pr) _; apply: eq_bigr => j _; apply: eq_bigr => i _; rewrite !cv.
- by move=> c Hc; rewrite !cv; apply: nzd.1.
Qed.
Lemma lo_cols zk0 zk1 los j lo :
  prover_lookup_round env pre ix (map f (c_ws C)) (map f (c_ins C)) theta d (enumerate (ix_lookups ix)) zk0 = Ok (los, zk1) ->
  idx los j = Ok lo -> exists l es' tqs, [/\ occurs l (c_lookups C), gl_get_expressions l = Ok es', gl_get_table_queries l = Ok tqs &
    lookup_columns env d ext (map f (c_ws C)) (map f (c_ins C)) (map f (c_fs C)) (map f (c_ts C)) (c_u C) es' tqs theta lo].
Proof.
move=> H Hlo; have H2 := lookup_round_inv H.
have [[k l] Hkl] : exists kl, idx (enumerate (ix_lookups ix)) j = Ok kl by apply: (idx_size2 _ Hlo); rewrite (each2_size H2).
have [es' [tqs [z1 [z2 [/= E1 E2 E3]]]]] := each2_idx H2 Hkl Hlo.
move: Hkl; rewrite idx_enumerate /ix (ix_lookupsE eok sd ixd); case El: (idx _ j) => [l'|//|//] /= [_ El2]; subst l'.
have Hl := occurs_idx El; exists l, es', tqs; split=> //.
case: lks_ext => /(_ _ Hl)[es2 [tq2 [E1' E2' [h1 h2] [h3 h4] [h5 h6]]]] _.
have [? ?] : es' = es2 /\ tqs = tq2 by move: E1 E2; rewrite E1' E2' => -[->] [->].
subst es2 tq2; have h1e := exprs_ok_ext env ext h1; have h3e := (tables_ext env ext (conj h3 h4)).1.
rewrite (usable ixd).2 in E3.
have [//] := construct_columns_inv eok sd se le (wf_ws env vk lay) (wf_ins env vk lay) (wf_fs env vk lay) (wf_ts env vk lay) h1e h3e (lookup_size eok theta sd lay h1 h6) E3.
Qed.
Lemma perm_forall (s t : seq F) u (P : F -> Prop) : perm_eq (take u s) (take u t) -> (u <= size s)%N -> (u <= size t)%N ->
  (forall i, (i < u)%N -> P t`_i) -> forall i, (i < u)%N -> P s`_i.
Proof.
move=> pe us ut H i Hi; have Hin : s`_i \in take u s by rewrite -(nth_take 0 Hi) mem_nth // size_takel.
move: Hin; rewrite (perm_mem pe) => /(nthP 0)[j]; rewrite size_takel // => Hj <-.
by rewrite nth_take //; apply: H.
Qed.
Lemma lzs_ok zk0 zk1 (zk2 : pc_zk PC) los :
  prover_lookup_round env pre ix (map f (c_ws C)) (map f (c_ins C)) theta d (enumerate (ix_lookups ix)) zk0 = Ok (los, zk1) ->
  exists lzs zk', prover_subset_round env ix beta gamma d (enumerate los) zk2 = Ok (lzs, zk').
Proof.
move=> H; apply: subset_round_ok => kl zk3 Hk; have [j Hj] := occurs_ex_idx Hk.
move: Hj; rewrite idx_enumerate; case E: (idx los j) => [lo|//|//] /= [<-] /=; rewrite (usable ixd).2.
have [l [es' [tqs [Hl E1 E2 Hc]]]] := lo_cols H E.
have [|_ u0 un] := lks.2; first by case: (c_lookups C) Hl.
apply: (subset_ok eok _ _ un u0 Hc) => i Hi.
have [p1 p2 _ _] := permuted_rows eok un u0 Hc; have [[[sa _] [ss _] [sa' _] [ss' _]] _ [Ha Hs] _ _] := Hc.
have un' := ltnW un; rewrite mulf_neq0 //.
- apply: (perm_forall (P := fun x => x + beta != 0) p1) Hi; rewrite ?sa ?sa' // => k Hk'.
  by rewrite Ha ?lookup_row_ext; [have [] := nzd.2 l es' tqs k Hl E1 E2 Hk'|exact: leq_trans Hk' un'].
- apply: (perm_forall (P := fun x => x + gamma != 0) p2) Hi; rewrite ?ss ?ss' // => k Hk'.
  by rewrite Hs ?table_row_ext; [have [] := nzd.2 l es' tqs k Hl E1 E2 Hk'|exact: leq_trans Hk' un'].
Qed.

Lemma uniq_map_fine (A B D : eqType) (g : A -> B) (h : A -> D) (s : seq A) :
  (forall x y, h x = h y -> g x = g y) -> uniq (map g s) -> uniq (map h s).
Proof.
move=> H; elim: s => //= x s IH /andP[Hx /IH ->]; rewrite andbT.
apply/mapP => -[y Hy /H E]; case/mapP: Hx; by exists y.
Qed.
(** The queries of the columns that are opened: those of a column of the circuit, only [curr], or at distinct rows if the
    circuit has copies or lookups. *)
Definition open_shape (o : poracle F) : Prop :=
  [/\ (size (po_poly o) <= n)%N, (forall r, r \in o_rots o -> (r.1 < n)%N) &
   [\/ o_rots o = [:: curr],
       (~~ nilp (copied (c_ws C)) || ~~ nilp (c_lookups C)) /\ uniq [seq rot_row n r 0 | r <- o_rots o] |
       exists2 o', occurs o' (c_ws C ++ c_fs C ++ c_ts C ++ c_sigmas C ++ [:: c_qb C]) & o_rots o = o_rots o']].
Lemma shape_openable o : distinct_points C xi -> open_shape o -> openable n d xi o.
Proof.
move=> [d1 d2] [sz rb H]; split=> //; case: H => [-> //|[args ur]|[o' Ho' ->]]; last exact: d1 Ho'.
by apply: uniq_map_fine ur => r r'; exact: (rot_point_eq r r' dok (d2 args)).1.
Qed.
Lemma curr_shape o : (size (po_poly o) <= n)%N -> o_rots o = [:: curr] -> open_shape o.
Proof.
move=> sz E; split=> //; last by apply: Or31.
by rewrite E => r; rewrite inE => /eqP ->; exact: ltnW (lay_rows lay).
Qed.
Lemma plus_shape o : (~~ nilp (copied (c_ws C)) || ~~ nilp (c_lookups C)) -> (size (po_poly o) <= n)%N -> uniq (o_rots o) ->
  (forall r, r \in o_rots o -> r.2 = false /\ (r.1 < n)%N) -> open_shape o.
Proof.
move=> args sz ur rb; split=> // [r /rb[] //|]; apply: Or32; split=> //.
rewrite map_inj_in_uniq // => -[k b] [k' b'] /rb[/= -> lk] /rb[/= -> lk']; rewrite /rot_row /= !add0n !modn_small // => ->.
by [].
Qed.
Lemma prev_row : (1 < n)%N -> uniq [seq rot_row n r 0 | r <- [:: curr; prev]].
Proof.
move=> n1; rewrite /= /rot_row /= inE !andbT add0n mod0n.
by rewrite [(1 %% n)%N]modn_small // modn_small; move: n1; set m := n; move: m => m; lia.
Qed.
Lemma uniq_sins u : uniq (sinsert rot_lt (u, Plus) [:: curr; next]).
Proof. by case: u => [|[|u]]. Qed.

Lemma prove_trace : exists T, (forall o, occurs o (t_oracles pre (ws_ext env vk (c_ws C)) T) -> open_shape o) /\
  forall mo, exists2 pf, prover_trace env ck vk pre (c_ws C) (c_ins C) (c_vos C) n zk theta beta gamma alpha xi pf T & tp_multiopen pf = mo.
Proof.
have n1 : (1 < n)%N := lay_rows lay.
have pol o : interpolates d o -> (size (po_poly o) <= n)%N by move=> io; exact: size_po_poly io.
have pws o : occurs o (map f (c_ws C)) -> interpolates d o.
  by move=> Ho; have [o' Ho' ->] := occurs_map Ho; apply: (@lay_in F C lay o'); left.
have [wc [wr [zk1 Ew]]] := commit_labeled_ok tot zk (fun o Ho => pol o (pws o Ho)).
have [los [zk2 El]] := los_ok zk1.
have plo lo : occurs lo los -> exists es' tqs, lookup_columns env d ext (map f (c_ws C)) (map f (c_ins C)) (map f (c_fs C)) (map f (c_ts C)) (c_u C) es' tqs theta lo.
  by move=> Hlo; have [j Hj] := occurs_ex_idx Hlo; have [l [es' [tqs [_ _ _ H]]]] := lo_cols El Hj; exists es', tqs.
have plp o : occurs o (lookup_primes los) -> interpolates d o /\ (o_rots o = [:: curr; prev] \/ o_rots o = [:: curr]).
  rewrite /lookup_primes; elim: (los) plo => //= lo los' IH plo.
  have [es' [tqs [[_ _ a1 a2] _ _ [_ [r1 r2]] _]]] := plo lo (or_introl erefl).
  case=> [->|[->|Ho]]; [by split=> //; left|by split=> //; right|].
  by apply: IH Ho => lo' Hlo'; apply: plo; right.
have [lc [lr [zk3 Elc]]] := commit_labeled_ok tot zk2 (fun o Ho => pol o (plp o Ho).1).
have [zs [zk4 Ez]] := zs_ok zk3.
have uE : pa_usable_rows (ix_perm ix) = pi_u (c_info C) by have [] := usable ixd.
(* the z columns do not depend on the commitments to them *)
have [lzs0 [zk60 Elz0]] := lzs_ok zk4 El.
pose T0 := PTrace d wr zk1 los zk2 lr zk3 zs zk4 [::] zk4 lzs0 zk60 [::] zk60 [::] [::] zk60 [::] [::] [::] [::].
have tr0 : early_trace env vk pre (c_ws C) (c_ins C) (c_vos C) n theta beta gamma T0.
  by split=> //=; rewrite -/ix uE.
have pzs z : occurs z zs -> interpolates d z by move=> Hz; have [] := honest_zs sd lay tr0 Hz.
have [zc [zr [zk5 Ezc]]] := commit_labeled_ok tot zk4 (fun o Ho => pol o (pzs o Ho)).
have [lzs [zk6 Elz]] := lzs_ok zk5 El.
pose T1 := PTrace d wr zk1 los zk2 lr zk3 zs zk4 zr zk5 lzs zk6 [::] zk6 [::] [::] zk6 [::] [::] [::] [::].
have tr1 : early_trace env vk pre (c_ws C) (c_ins C) (c_vos C) n theta beta gamma T1.
  by split=> //=; rewrite -/ix uE.
have aok := honest_ok eok sd ixd lay lks_ext tr1.
have plz z : occurs z lzs -> interpolates d z by move=> Hz; have [] := ao_lzs aok Hz.
have [lzc [lzr [zk7 Elzc]]] := commit_labeled_ok tot zk6 (fun o Ho => pol o (plz o Ho)).
have [qd [_ _ _ [_ Ezh] _]] := index_inv eok sd ixd; rewrite -/ix in Ezh.
have [zh' Ezh' szh] := @zh_total F env eok d (c_zh C) sd ext se le.
have {szh}szh : size (vk_zh_inverses vk) = dsize ext by move: Ezh'; rewrite Ezh => -[->].
have [ev eqok _] := gok.
have [cs [Ecs _ _ _ Hcs]] := @prover_quotient_roundE F env eok d sd PC vk (c_vos C) es (honest env C vk T1) ev
  (honest_shape eok sd ixd lay tr1) (exprs_ok_ext env ext eqok) vpos pre se le erefl erefl erefl aok beta gamma alpha szh.
have pcs_ o : occurs o cs -> (size (po_poly o) <= n)%N /\ o_rots o = [:: curr].
  by move=> Ho; have [k Hk] := occurs_ex_idx Ho; have [] := Hcs k o Hk.
have [qc [qr [zk8 Eqc]]] := commit_labeled_ok tot zk7 (fun o Ho => (pcs_ o Ho).1).

have [uw ui uf ut] := lay_labels lay; have [rw rf rt] := lay_rots lay.
have ux os : uniq (map (@o_label _) os) -> uniq (map (@o_label _) (map f os)) by rewrite labels_ext.
have rx os : rots_below os n -> rots_below (map f os) n by exact: rots_below_ext.
have [wqs [we [Ewq Ewe]]] := query_set_ok xi_label xi dok (rx _ rw) (ux _ uw).
have [fqs [fe [Efq Efe]]] := query_set_ok xi_label xi dok (rx _ rf) (ux _ uf).
have [tqs [te [Etq Ete]]] := query_set_ok xi_label xi dok (rx _ rt) (ux _ ut).
have Zrot k z : idx zs k = Ok z -> o_rots z = [:: curr; next] \/ o_rots z = sinsert rot_lt (pi_u (c_info C), Plus) [:: curr; next].
  have [[_ /= ->]|[_ _ _ _ H]] := honest_perm sd lay tr1; first by case: k.
  by move=> Hz; have [_ ->] := H k z Hz; rewrite -/ix uE; case: ifP => _; [left|right].
have Zr k z r : idx zs k = Ok z -> r \in o_rots z -> r.2 = false /\ (r.1 < n)%N.
  move=> /Zrot[] ->; rewrite ?mem_sinsert !inE; first by case/orP => /eqP -> //; split=> //; exact: ltnW.
  by case/or3P => /eqP -> //; split=> //; exact: ltnW.
have [zqs [ze [Ezq Eze]]] : exists qs evs, get_query_set zs xi_label xi (elements d) = Ok qs /\ evaluate_query_set zs qs = Ok evs.
  apply: query_set_ok => //; first by move=> j o Ho r /(Zr _ _ _ Ho)[].
  by rewrite -[zs]/(t_zs T1); have [[_ -> //]|[_ _ _ -> _]] := honest_perm sd lay tr1; exact: uniq_numbered.
pose T := PTrace d wr zk1 los zk2 lr zk3 zs zk4 zr zk5 lzs zk6 lzr zk7 cs qr zk8 wqs fqs tqs zqs.
exists T; split=> [o|mo].
  have Hin o' : occurs o' (c_ws C ++ c_fs C ++ c_ts C ++ c_sigmas C ++ [:: c_qb C]) -> (forall r, r \in o_rots o' -> (r.1 < n)%N) ->
      open_shape (f o').
    move=> Ho' Hr; split=> //; last by apply: Or33; exists o'.
    by apply: (pol o'); apply: (lay_cols lay); move: Ho'; rewrite !occurs_cat /=; tauto.
  have Hr (os : seq (poracle F)) o' : rots_below os n -> occurs o' os -> forall r, r \in o_rots o' -> (r.1 < n)%N.
    by move=> H Hoo r; have [j Hj] := occurs_ex_idx Hoo; exact: (H j o' Hj).
  rewrite /t_oracles /= !occurs_cat => -[Ho|[Ho|[Ho|[Ho|[Ho|[Ho|[Ho|[Ho|Ho]]]]]]]].
  - have [o' Ho' ->] := occurs_map Ho; apply: Hin; [by rewrite !occurs_cat; tauto|exact: Hr rw Ho'].
  - have [io [E|E]] := plp o Ho; last by apply: curr_shape => //; exact: pol.
    split; [exact: pol|by move=> r; rewrite E !inE => /orP[] /eqP -> //; exact: ltnW|apply: Or32; split; last by rewrite E; exact: prev_row].
    apply/orP; right; have := size_los eok sd ixd tr1; rewrite /T1 /= /nilp => <-.
    by move: Ho; rewrite /lookup_primes; case: (los).
  - have E : o_rots o = [:: curr; next].
      have [j Hj] := occurs_ex_idx Ho; have Elos : size lzs = size (c_lookups C) := size_lzs eok sd ixd tr1.
      have [l Hl] := idx_size2 Elos Hj.
      have [lo Hlo] := idx_size2 (esym (size_los eok sd ixd tr1)) Hl.
      have [es' [tqs' [_ _ _ _ Hc]]] := honest_lookup eok sd ixd lay lks_ext tr1 Hl Hlo.
      by have [_ []] := honest_subset eok sd ixd lks_ext tr1 Hl Hlo Hj Hc.
    apply: plus_shape; rewrite ?E //; [|exact: pol (plz _ Ho)|].
      apply/orP; right; have := size_lzs eok sd ixd tr1; rewrite /T1 /= /nilp => <-.
      by case: (lzs) Ho.
    by move=> r; rewrite !inE => /orP[] /eqP ->; split=> //; exact: ltnW.
  - by have [s E] := pcs_ o Ho; exact: curr_shape.
  - have [k Hk] := occurs_ex_idx Ho; apply: plus_shape; [|exact: pol (pzs _ Ho)| |].
    + apply/orP; left; have [[_ E]|[nn _ _ _ _]] := honest_perm sd lay tr1; first by move: Ho; rewrite -[zs]/(t_zs T1) E.
      by move: nn; rewrite copied_ext /nilp size_map.
    + by have [] := Zrot k o Hk => ->; rewrite ?uniq_sins.
    + by move=> r; exact: Zr Hk.
  - have [o' Ho' ->] := occurs_map Ho; apply: Hin; [by rewrite !occurs_cat; tauto|exact: Hr rf Ho'].
  - have [o' Ho' ->] := occurs_map Ho; apply: Hin; [by rewrite !occurs_cat; tauto|exact: Hr rt Ho'].
  - have [o' Ho' ->] := occurs_map Ho; apply: Hin; first by rewrite !occurs_cat; tauto.
    by move=> r /(@lay_flat F C lay o' r) ->; [exact: ltnW|rewrite occurs_cat; left].
  - case: Ho => // ->; apply: Hin; first by rewrite !occurs_cat /=; tauto.
    by move=> r /(@lay_flat F C lay (c_qb C) r) ->; [exact: ltnW|rewrite occurs_cat /=; right; left].
have Esz : size (t_oracles pre (map f (c_ws C)) T) = size (t_rands pre T).
  have [_ r1] := commit_all_size Ew; have [_ r2] := commit_all_size Elc; have [_ r3] := commit_all_size Ezc.
  have [_ r4] := commit_all_size Elzc; have [_ r5] := commit_all_size Eqc.
  rewrite /t_oracles /t_rands /= !size_cat r1 r2 r3 r4 r5 !size_labeled /pre /= !size_map size_nseq; lia.
pose pf := TPProof wc we fe te [seq peval (po_poly s) xi | s <- pp_perm pre] (peval (po_poly (pp_q_blind pre)) xi) lc lzc
  (flatten [seq [:: peval (po_poly (lo_a' lo)) xi; peval (po_poly (lo_a' lo)) (xi * (element d 1)^-1); peval (po_poly (lo_s' lo)) xi] | lo <- los])
  (flatten [seq [:: peval (po_poly z) xi; peval (po_poly z) (xi * element d 1)] | z <- lzs])
  zc ze qc [seq peval (po_poly c) xi | c <- cs] mo.
exists pf => //; split; try by [|exact: erefl].
by rewrite /= /finv /element expr1 (negbTE (dgen_neq0 dok)).
Qed.
Lemma some_mo : exists mo : mo_proof PC, True.
Proof.
have [h1 h2] := tot (p := [::]) isT; have [c _] := h1 (pc_empty PC); have [op _] := h2 0 (pc_empty PC).
by exists (MoProof [::] c op).
Qed.
Lemma prove_ok_exact rest : distinct_points C xi -> exists pf zk',
  tp_prove env (scripted [:: theta, beta, gamma, alpha, xi & rest]) ck vk pre (c_ws C) (c_ins C) (c_vos C) n zk = Ok (pf, zk').
Proof.
move=> dpts; have [T [Hsh Hpf]] := prove_trace.
have [mo0 _] := some_mo; have [pf0 tr0 _] := Hpf mo0.
have [mo [fs' [zk' Emo]]] := mo_prove_ok (FS := scripted [::]) tot dok rest (t_zk8 T) sd (pt_size tr0) (fun o Ho => shape_openable dpts (Hsh o Ho)).
have [pf tr Em] := Hpf mo; exists pf, zk'; apply: (prover_replay tr (fs' := fs')); rewrite Em; exact: Emo.
Qed.
End Prove.

(** Circuits whose copies and lookups hold meet its conditions. *)
Section Holds.
Variables (F : fieldType) (C : circuit F).
Lemma lookups_combined theta : lookups_hold C -> combined_lookups_hold C theta.
Proof.
move=> H l es tqs Hl E1 E2; have [ss rows] := H l es tqs Hl E1 E2; split=> // i /rows[j Hj E]; exists j => //.
by rewrite /lookup_row /table_row E.
Qed.
Lemma copies_agree tau beta gamma : copies_hold C tau -> products_agree C beta gamma.
Proof.
case=> -[s1 s2] t1 t2 t3 t4; split=> //.
exact: (@copies_products F _ _ (cell_value (copied (c_ws C))) (cell_value (c_sigmas C))
  (fun j i => (pi_deltas (c_info C))`_j * dgen (c_d C) ^+ i) beta gamma tau t1 t2 t3 t4).
Qed.
Lemma rotations_distinct xi : domain_ok (c_d C) -> xi != 0 -> distinct_rotations C -> distinct_points C xi.
Proof.
move=> dok x0 H; split=> // o /H; apply: uniq_map_fine => r r'; exact: (rot_point_eq r r' dok x0).1.
Qed.
End Holds.
Lemma prove_ok (F : fieldType) (env : fenv F) (eok : fenv_ok env) (PC : pcs F) (ck : pc_ck PC) (C : circuit F) (vk : verifier_key F)
    (es : seq (expr F oquery)) (tau : nat * nat -> nat * nat) (theta beta gamma alpha xi : F) (zk : pc_zk PC) :
  std_domain env (c_d C) -> indexed env C vk -> laid_out C -> gates_ok C es -> (0 < size (c_vos C))%N -> (pi_u (c_info C) < c_rows C)%N ->
  lookups_ok C (c_rows C) -> lookups_hold C -> (~~ nilp (copied (c_ws C)) -> copies_hold C tau) ->
  no_zero_denominator C theta beta gamma -> distinct_rotations C -> pcs_total ck (c_rows C) -> xi != 0 -> forall rest,
  exists pf zk', tp_prove env (scripted [:: theta, beta, gamma, alpha, xi & rest]) ck vk (preprocessed env PC C vk)
    (c_ws C) (c_ins C) (c_vos C) (c_rows C) zk = Ok (pf, zk').
Proof.
move=> sd ixd lay gok vp ul lks lkh cph nzd dr tot x0 rest.
apply: (prove_ok_exact eok alpha zk sd ixd lay gok vp ul lks (lookups_combined theta lkh) _ nzd tot).
  by move=> nn; apply: copies_agree (cph nn).
by apply: rotations_distinct => //; exact: std_domain_ok sd.
Qed.

(** The outcome depends on the transcript only through the challenges it gives. *)
Section Transcript.
Variables (F : fieldType) (env : fenv F) (PC : pcs F) (FS : fsrng F).
Lemma ex_cons (P : seq F -> Prop) x : (exists s, P (x :: s)) -> exists s, P s.
Proof. by case=> s H; exists (x :: s). Qed.
Lemma rmap_rbind A B D (g : A -> res B) (h : B -> D) x : rmap h (rbind x g) = rbind x (fun a => rmap h (g a)).
Proof. by case: x. Qed.
Lemma mo_prove_scripted (ck : pc_ck PC) os rs xi ds (fs : fs_state FS) zk : exists chs,
  rmap (fun r => (r.1.1, r.2)) (mo_prove env ck os rs xi ds fs zk) =
  rmap (fun r => (r.1.1, r.2)) (mo_prove (FS := scripted [::]) env ck os rs xi ds chs zk).
Proof.
rewrite /mo_prove; case: (fs_rand fs) => x1 fs1; case: (fs_rand fs1) => x2 fs2.
apply: (ex_cons (x := x1)); apply: (ex_cons (x := x2)); cbn [fs_rand scripted head behead].
case: (opt_unwrap (domain_new env ds)) => [d|e|p]; [|by exists [::]|by exists [::]]; cbn [rbind].
case: (rmapM _ _) => [items|e|p]; [|by exists [::]..]; cbn [rbind].
case: (rmapM _ _) => [fp|e|p]; [|by exists [::]..]; cbn [rbind].
set fagg := foldl _ _ _.
case: (commit_all _ _ _) => [[[fcs frs] zk1]|e|p]; [|by exists [::]..]; cbn [rbind].
case: (idx frs 0) => [fr|e|p]; [|by exists [::]..]; cbn [rbind].
case: (fs_rand _) => x3 fs3; apply: (ex_cons (x := x3)); cbn [fs_rand scripted head behead].
case: (fs_rand _) => x4 fs4; exists [:: x4]; cbn [fs_rand fs_absorb scripted head behead].
case: (pc_commit1 _ _ _) => //= _; case: (pc_open _ _ _ _) => //= op; by case: (idx fcs 0).
Qed.
Lemma prove_scripted (ck : pc_ck PC) vk (pre : prover_pre PC) ws ins vos ds zk : exists theta beta gamma alpha xi rest,
  tp_prove env FS ck vk pre ws ins vos ds zk =
  tp_prove env (scripted [:: theta, beta, gamma, alpha, xi & rest]) ck vk pre ws ins vos ds zk.
Proof.
rewrite /tp_prove; cbv zeta; cbn [fs_init fs_rand fs_absorb scripted head behead].
case: (commit_all ck _ zk) => [[[wc wr] zk1]|e|p]; [|by exists 0, 0, 0, 0, 0, [::]..]; cbn [rbind].
case: (opt_unwrap _) => [d|e|p]; [|by exists 0, 0, 0, 0, 0, [::]..]; cbn [rbind].
case: (fs_rand _) => theta fs2; exists theta.
case: (prover_lookup_round _ _ _ _ _ _ _ _ _) => [[los zk2]|e|p]; [|by exists 0, 0, 0, 0, [::]..]; cbn [rbind].
case: (commit_all ck (labeled (lookup_primes los)) _) => [[[lc lr] zk3]|e|p]; [|by exists 0, 0, 0, 0, [::]..]; cbn [rbind].
case: (fs_rand _) => beta fs3; exists beta; case: (fs_rand fs3) => gamma fs4; exists gamma.
case: (prover_permutation_round _ _ _ _ _ _ _ _ _) => [[zs zk4]|e|p]; [|by exists 0, 0, [::]..]; cbn [rbind].
case: (commit_all ck (labeled zs) _) => [[[zc zr] zk5]|e|p]; [|by exists 0, 0, [::]..]; cbn [rbind].
case: (prover_subset_round _ _ _ _ _ _ _) => [[lzs zk6]|e|p]; [|by exists 0, 0, [::]..]; cbn [rbind].
case: (commit_all ck (labeled lzs) _) => [[[lzc lzr] zk7]|e|p]; [|by exists 0, 0, [::]..]; cbn [rbind].
case: (fs_rand _) => alpha fs5; exists alpha.
case: (prover_quotient_round _ _ _ _ _ _ _ _ _ _ _ _ _ _) => [cs|e|p]; [|by exists 0, [::]..]; cbn [rbind].
case: (commit_all ck (labeled cs) _) => [[[qc qr] zk8]|e|p]; [|by exists 0, [::]..]; cbn [rbind].
case: (fs_rand _) => xi fs6; exists xi.
case: (get_query_set _ _ _ _) => [wqs|e|p]; [|by exists [::]..]; cbn [rbind].
case: (evaluate_query_set _ wqs) => [we|e|p]; [|by exists [::]..]; cbn [rbind].
case: (get_query_set (pp_fixed pre) _ _ _) => [fqs|e|p]; [|by exists [::]..]; cbn [rbind].
case: (evaluate_query_set (pp_fixed pre) _) => [fe|e|p]; [|by exists [::]..]; cbn [rbind].
case: (get_query_set (pp_table pre) _ _ _) => [tqs|e|p]; [|by exists [::]..]; cbn [rbind].
case: (evaluate_query_set (pp_table pre) _) => [te|e|p]; [|by exists [::]..]; cbn [rbind].
case: (finv _) => [winv|e|p]; [|by exists [::]..]; cbn [rbind].
case: (get_query_set zs _ _ _) => [zqs|e|p]; [|by exists [::]..]; cbn [rbind].
case: (evaluate_query_set zs _) => [ze|e|p]; [|by exists [::]..]; cbn [rbind].
case: (rassert _) => [?|e|p]; [|by exists [::]..]; cbn [rbind].
set os := _ ++ lookup_primes los ++ _; set rs := wr ++ _.
have [chs E] := mo_prove_scripted ck os rs xi ds fs6 zk8; exists chs.
have {E} : rmap (fun r => (r.1.1, r.2)) (mo_prove env ck os rs xi ds fs6 zk8) =
  rmap (fun r => (r.1.1, r.2)) (mo_prove (FS := scripted [:: theta, beta, gamma, alpha, xi & chs]) env ck os rs xi ds chs zk8) := E.
case: (mo_prove _ _ _ _ _ _ _ _) => [[[m1 f1] z1]|e|p]; case: (mo_prove _ _ _ _ _ _ _ _) => [[[m2 f2] z2]|e'|p'] //=.
- by case=> -> ->.
- by case=> ->.
- by case=> ->.
Qed.
End Transcript.

(** Few challenges make the prover divide by zero. *)
Section Bad.
Variables (F : fieldType) (C : circuit F).
Lemma at_most_list (A : eqType) (P : A -> Prop) (s : seq A) : (forall x, P x -> x \in s) -> at_most (size s) P.
Proof. by move=> H t ut Ht; apply: uniq_leq_size => // x /Ht /H. Qed.
Lemma occurs_mem_map (A : Type) (B : eqType) (g : A -> B) x s : occurs x s -> g x \in map g s.
Proof. by elim: s => //= a s IH [->|/IH H]; rewrite inE ?eqxx ?H ?orbT. Qed.
Lemma bad_betas theta : at_most (size (c_lookups C) * c_u C) (beta_clash C theta).
Proof.
pose s := flatten [seq [seq - lookup_row (c_ws C) (c_ins C) (c_fs C) (c_rows C) (ok_or [::] (gl_get_expressions l)) theta i | i <- iota 0 (c_u C)]
  | l <- c_lookups C].
have -> : (size (c_lookups C) * c_u C)%N = size s.
  by rewrite size_allpairs size_iota.
apply: at_most_list => beta [l [es [i [Hl E Hi Hb]]]]; apply/flattenP.
exists [seq - lookup_row (c_ws C) (c_ins C) (c_fs C) (c_rows C) (ok_or [::] (gl_get_expressions l)) theta i | i <- iota 0 (c_u C)].
  exact: (occurs_mem_map (fun l => [seq - lookup_row (c_ws C) (c_ins C) (c_fs C) (c_rows C) (ok_or [::] (gl_get_expressions l)) theta i | i <- iota 0 (c_u C)])).
rewrite E /=; apply/mapP; exists i; first by rewrite mem_iota.
by apply/eqP; rewrite -addr_eq0 addrC Hb.
Qed.
Lemma bad_gammas theta beta : ~ beta_clash C theta beta ->
  at_most (size (copied (c_ws C)) * pi_u (c_info C) + size (c_lookups C) * c_u C) (fun gamma => ~ no_zero_denominator C theta beta gamma).
Proof.
move=> nb; pose K := size (copied (c_ws C)); pose u := pi_u (c_info C).
pose v (j i : nat) := - (cell_value (copied (c_ws C)) j i + beta * cell_value (c_sigmas C) j i).
pose s1 := [seq v j i | j <- iota 0 K, i <- iota 0 u].
pose tr (l : generic_lookup_vo F) := [seq - table_row (c_ts C) (ok_or [::] (gl_get_table_queries l)) theta i | i <- iota 0 (c_u C)].
pose s2 := flatten [seq tr l | l <- c_lookups C].
have -> : (size (copied (c_ws C)) * pi_u (c_info C) + size (c_lookups C) * c_u C)%N = size (s1 ++ s2).
  by rewrite size_cat /s2 /tr !size_allpairs !size_iota.
apply: at_most_list => gamma; case Hin: (gamma \in s1 ++ s2) => // [] []; move: Hin => /negbT.
rewrite mem_cat negb_or => /andP[n1 n2]; split.
- move=> [j i] /andP[/= Hj Hi]; apply: contraNneq n1 => E; apply/allpairsP; exists (j, i) => /=.
  rewrite !mem_iota; split=> //; by apply/eqP; rewrite /v -addr_eq0 addrC E.
- move=> l es tqs i Hl E1 E2 Hi; split.
    by apply/negP => /eqP E; apply: nb; exists l, es, i; split.
  apply: contraNneq n2 => E; apply/flattenP; exists (tr l); first exact: occurs_mem_map.
  rewrite /tr E2 /=; apply/mapP; exists i; first by rewrite mem_iota.
  by apply/eqP; rewrite -addr_eq0 addrC E.
Qed.
End Bad.
