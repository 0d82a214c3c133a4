(** Compressed lookup columns: prover and verifier. *)
From mathcomp Require Import all_ssreflect all_algebra zify.
From Coq Require Import String Lia.
From Verif Require Import Base ModelPoly ModelVO ModelOracle ModelLookup
  Spec SpecProtocol ProofBase ProofPoly ProofDomain ProofVO ProofOracle ProofPermutation ProofPermArg ProofPermute ProofLookup.

Set Implicit Arguments.
Unset Strict Implicit.
Unset Printing Implicit Defensive.

Import GRing.Theory.
Local Open Scope ring_scope.

Lemma sum_zip_ord (V : zmodType) A B (g : A * B -> V) (s : seq A) (t : seq B) a0 b0 : size s = size t ->
  \sum_(x <- zip s t) g x = \sum_(j < size s) g (nth a0 s j, nth b0 t j).
Proof.
elim: s t => [|a s IH] [|b t] //=; first by rewrite big_nil big_ord0.
by case=> st; rewrite big_cons big_ord_recl /= IH.
Qed.

Lemma occurs_zip1 A B (s : seq A) (t : seq B) x : occurs x (zip s t) -> occurs x.1 s.
Proof.
elim: s t => [|a s IH] [|b t] //= [->|/IH]; by [left|right].
Qed.

Section Compress.
Variable F : fieldType.

Lemma compress_ok A (theta : F) (f : A -> res F) g (xs : seq A) :
  (forall x, occurs x xs -> f x = Ok (g x)) -> compress theta f xs = Ok (compressed theta (map g xs)).
Proof.
move=> H; rewrite /compress (@rfoldM_sum _ _ _ (fun xt => g xt.1 * xt.2)).
  rewrite add0r; congr Ok; case: xs {H} => [|x0 xs]; first by rewrite big_nil /compressed big_ord0.
  rewrite (sum_zip_ord _ x0 0) ?size_powers // /compressed size_map; apply: eq_bigr => j _.
  by rewrite nth_powers // mul1r mulrC (nth_map x0).
by move=> st xt Hx; rewrite H //; apply: occurs_zip1 Hx.
Qed.

Lemma compress_inv A (theta : F) (f : A -> res F) (xs : seq A) v : compress theta f xs = Ok v ->
  forall x, occurs x xs -> exists y, f x = Ok y.
Proof.
rewrite /compress; move: (0 : F) {1}(1 : F) => st b.
elim: xs st b v => [|x xs IH] st b v //= H y.
have [st' H1 H2] := rbind_ok H; have [w Hw _] := rbind_ok H1.
by case=> [->|Hy]; [exists w|apply: IH H2 y Hy].
Qed.

Lemma compressed_horner (theta x : F) (ps : seq {poly F}) :
  (compressed theta%:P ps).[x] = compressed theta [seq p.[x] | p <- ps].
Proof.
rewrite /compressed horner_sum size_map; apply: eq_bigr => j _.
by rewrite hornerM horner_exp hornerC (nth_map 0).
Qed.

Lemma compressed_ext (theta : F) (s t : seq F) : s = t -> compressed theta s = compressed theta t.
Proof. by move->. Qed.

Lemma expr_polyE ws ins fs (w : F) e : expr_poly ws ins fs w e = pmeaning (query_poly ws ins fs w) e.
Proof. by rewrite /expr_poly; elim: e => //= [a ->|a -> b ->|a -> b ->|a -> c]. Qed.

Lemma query_poly_at ws ins fs (w x : F) q : (query_poly ws ins fs w q).[x] = point_value ws ins fs w x q.
Proof.
rewrite /query_poly /point_value horner_comp hornerZ hornerX -pevalE; congr peval.
by rewrite /rot_point; case: ifP; rewrite mul1r mulrC.
Qed.

Lemma expr_poly_at ws ins fs (w x : F) e : (expr_poly ws ins fs w e).[x] = meaning (point_value ws ins fs w x) e.
Proof. by rewrite expr_polyE pmeaning_at; apply: eq_meaning => q _; rewrite query_poly_at. Qed.

Lemma lookup_poly_at ws ins fs (w x : F) es theta :
  (lookup_poly ws ins fs w es theta).[x] = compressed theta [seq meaning (point_value ws ins fs w x) e | e <- es].
Proof.
rewrite compressed_horner -map_comp; apply: compressed_ext; apply: eq_map => e.
by rewrite /= expr_poly_at.
Qed.
End Compress.

Lemma named_idx P (os : seq (oracle P)) j o : uniq (map (@o_label P) os) -> idx os j = Ok o ->
  named os (o_label o) = Some o.
Proof.
rewrite /named; elim: os j => [|a os IH] [|j] //= /andP[na uo]; first by case=> ->; rewrite eqxx.
move=> Hj; case: eqP => [E|_]; last exact: IH Hj.
case/negP: na; rewrite E; have [lt Hn] := idx_ok Hj.
by rewrite -(Hn a) -(nth_map a EmptyString) // mem_nth // size_map.
Qed.

Lemma named_resolve P (os : seq (oracle P)) l e : uniq (map (@o_label P) os) -> l \in map (@o_label P) os ->
  exists o j, [/\ idx os j = Ok o, resolve os l e = Ok o, named os l = Some o & o_label o = l].
Proof.
move=> u Hl; have lt : (seq.index l (map (@o_label P) os) < size os)%N by rewrite -(size_map (@o_label P)) index_mem.
have [o Ho] := idx_some lt; exists o, (seq.index l (map (@o_label P) os)).
have E : o_label o = l.
  have [_ Hn] := idx_ok Ho; rewrite -(Hn o) -(nth_map o EmptyString) // nth_index //.
by split=> //; rewrite -E; [apply: resolve_label Ho|apply: named_idx Ho].
Qed.

Section Prover.
Variables (F : fieldType) (env : fenv F).
Hypothesis eok : fenv_ok env.
Variables (d ext : domain F).
Hypothesis sd : std_domain env d.
Hypothesis se : std_domain env ext.
Hypothesis le : (dsize d <= dsize ext)%N.

Lemma size_po_poly o : interpolates d o -> (size (po_poly o) <= dsize d)%N.
Proof. by case=> _ ->; rewrite size_ptrim size_Poly_ifft. Qed.

Lemma well_formed_at os j o : well_formed env d ext os -> idx os j = Ok o ->
  interpolates d o /\ compute_extended_evals env ext o = o.
Proof. by case=> _ H Hj; apply: H; apply: occurs_idx Hj. Qed.

Variables (ws ins fs : seq (poracle F)).
Hypothesis wfw : well_formed env d ext ws.
Hypothesis wfi : well_formed env d ext ins.
Hypothesis wff : well_formed env d ext fs.

(** Resolution of a query to an oracle of its kind. *)
Lemma query_leaf_resolves A (qr : poracle F -> rotation -> res A) q : query_resolves ws ins fs q ->
  exists o, [/\ query_leaf ws ins fs qr qr qr q = qr o (oq_rot q),
    named (oracles_of ws ins fs q) (oq_label q) = Some o & interpolates d o /\ compute_extended_evals env ext o = o].
Proof.
rewrite /query_resolves /query_leaf /oracles_of; case: (oq_type q) => /= Hl.
- have [o [j [Hj -> Hn _]]] := named_resolve (MissingWitnessOracle (oq_label q)) wfw.1 Hl.
  by exists o; split=> //; exact: well_formed_at Hj.
- have [o [j [Hj -> Hn _]]] := named_resolve (MissingInstanceOracle (oq_label q)) wfi.1 Hl.
  by exists o; split=> //; exact: well_formed_at Hj.
- have [o [j [Hj -> Hn _]]] := named_resolve (MissingFixedOracle (oq_label q)) wff.1 Hl.
  by exists o; split=> //; exact: well_formed_at Hj.
Qed.

Lemma row_leaf_ok i q : (i < dsize d)%N -> query_ok ws ins fs (dsize d) q ->
  let row o r := query_at_omega_in_original_domain o i r in
  query_leaf ws ins fs row row row q = Ok (row_value ws ins fs (dsize d) i q).
Proof.
move=> Hi /andP[Hq Hr] row; have [o [-> Hn [io eo]]] := query_leaf_resolves row Hq.
have [so _] := io.
rewrite /row query_row_in_bounds ?so // /row_value /column_named Hn //=.
Qed.

Lemma coset_leaf_ok i q : (i < dsize ext)%N -> query_ok ws ins fs (dsize d) q ->
  let cos o r := query_in_coset o i r in
  query_leaf ws ins fs cos cos cos q = Ok (point_value ws ins fs (dgen d) (coset_point env ext i) q).
Proof.
move=> Hi /andP[Hq Hr] cos; have [o [-> Hn [io eo]]] := query_leaf_resolves cos Hq.
have [so _] := io.
rewrite /cos -{1}eo (query_coset_in_bounds eok sd se) //; last by rewrite (leq_trans (size_po_poly io)).
by rewrite /point_value /poly_named Hn.
Qed.

(** On the rows of the domain the column and the polynomial agree. *)
Lemma row_point_value i q : (i < dsize d)%N -> query_resolves ws ins fs q ->
  row_value ws ins fs (dsize d) i q = point_value ws ins fs (dgen d) (element d i) q.
Proof.
move=> Hi Hq; have [o [_ Hn [[so po] _]]] := query_leaf_resolves (fun o _ => Ok o) Hq.
by rewrite /row_value /point_value /column_named /poly_named Hn /= (query_row_poly eok _ sd).
Qed.

Lemma expr_row_ok i e : (i < dsize d)%N -> (forall q, occurs q (leaves e) -> query_ok ws ins fs (dsize d) q) ->
  let row o r := query_at_omega_in_original_domain o i r in
  eval_res e (query_leaf ws ins fs row row row) = Ok (expr_poly ws ins fs (dgen d) e).[element d i] /\
  (expr_poly ws ins fs (dgen d) e).[element d i] = meaning (row_value ws ins fs (dsize d) i) e.
Proof.
move=> Hi He row.
have E : (expr_poly ws ins fs (dgen d) e).[element d i] = meaning (row_value ws ins fs (dsize d) i) e.
  rewrite expr_poly_at; apply: eq_meaning => q /He/andP[Hq _]; by rewrite row_point_value.
by rewrite E; split=> //; apply: eval_res_ok => q /He Hq; exact: row_leaf_ok.
Qed.

Lemma expr_coset_ok i e : (i < dsize ext)%N -> (forall q, occurs q (leaves e) -> query_ok ws ins fs (dsize d) q) ->
  let cos o r := query_in_coset o i r in
  eval_res e (query_leaf ws ins fs cos cos cos) = Ok (expr_poly ws ins fs (dgen d) e).[coset_point env ext i].
Proof.
move=> Hi He cos; rewrite expr_poly_at; apply: eval_res_ok => q /He Hq; exact: coset_leaf_ok.
Qed.

Lemma expr_polys_ok i (es : seq (expr F oquery)) theta : exprs_ok ws ins fs (dsize d) es -> (i < dsize ext)%N ->
  let cos o r := query_in_coset o i r in
  compress theta (fun e => eval_res e (query_leaf ws ins fs cos cos cos)) es =
  Ok (lookup_poly ws ins fs (dgen d) es theta).[coset_point env ext i].
Proof.
move=> He Hi cos; rewrite (@compress_ok _ _ _ _ (fun e => (expr_poly ws ins fs (dgen d) e).[coset_point env ext i])).
  by rewrite compressed_horner -map_comp.
by move=> e Oe; apply: expr_coset_ok => // q; apply: He.
Qed.

Lemma expr_rows_ok i (es : seq (expr F oquery)) theta : exprs_ok ws ins fs (dsize d) es -> (i < dsize d)%N ->
  let row o r := query_at_omega_in_original_domain o i r in
  compress theta (fun e => eval_res e (query_leaf ws ins fs row row row)) es =
  Ok (lookup_poly ws ins fs (dgen d) es theta).[element d i] /\
  (lookup_poly ws ins fs (dgen d) es theta).[element d i] = lookup_row ws ins fs (dsize d) es theta i.
Proof.
move=> He Hi row; rewrite compressed_horner -map_comp.
have H e : occurs e es -> eval_res e (query_leaf ws ins fs row row row) = Ok (expr_poly ws ins fs (dgen d) e).[element d i] /\
  (expr_poly ws ins fs (dgen d) e).[element d i] = meaning (row_value ws ins fs (dsize d) i) e.
  by move=> Oe; apply: expr_row_ok => // q; apply: He.
split; first by apply: compress_ok => e /H[].
apply: compressed_ext; elim: es {He} H => //= e es IH H; congr cons; first by case: (H e (or_introl erefl)).
by apply: IH => e' O; apply: H; right.
Qed.

Variable ts : seq (poracle F).
Hypothesis wft : well_formed env d ext ts.

Definition table_poly (tqs : seq oquery) (theta : F) : {poly F} :=
  compressed theta%:P [seq Poly (poly_named ts (oq_label q)) | q <- tqs].

Lemma table_leaf_named A (qr : poracle F -> res A) q : oq_type q = Fixed /\ oq_label q \in map (@o_label _) ts ->
  exists o, [/\ table_leaf ts qr q = qr o, named ts (oq_label q) = Some o & interpolates d o /\ compute_extended_evals env ext o = o].
Proof.
case=> Ht Hl; rewrite /table_leaf Ht.
have [o [j [Hj -> Hn _]]] := named_resolve (MissingFixedOracle (oq_label q)) wft.1 Hl.
by exists o; split=> //; exact: well_formed_at Hj.
Qed.

Lemma table_rows_ok tqs theta i : table_queries_ok ts tqs -> (i < dsize d)%N ->
  compress theta (table_leaf ts (fun o => idx (po_evals o) i)) tqs = Ok (table_row ts tqs theta i) /\
  (table_poly tqs theta).[element d i] = table_row ts tqs theta i.
Proof.
move=> Ht Hi.
have H q : occurs q tqs -> table_leaf ts (fun o => idx (po_evals o) i) q = Ok (column_named ts (oq_label q))`_i /\
   (Poly (poly_named ts (oq_label q))).[element d i] = (column_named ts (oq_label q))`_i.
  move=> Oq; have [o [-> Hn [[so po] _]]] := table_leaf_named (fun o => idx (po_evals o) i) (Ht q Oq).
  rewrite /column_named /poly_named Hn /= -pevalE po peval_trim (ifft_eval eok) //.
  by rewrite (idx_nth 0) ?so.
split; first by apply: compress_ok => q /H[].
rewrite compressed_horner -map_comp; apply: compressed_ext; elim: tqs {Ht} H => //= q tqs IH H.
congr cons; first by case: (H q (or_introl erefl)).
by apply: IH => e' O; apply: H; right.
Qed.

Lemma query_coset_curr o i : (i < dsize ext)%N -> interpolates d o -> compute_extended_evals env ext o = o ->
  query_in_coset o i curr = Ok (peval (po_poly o) (coset_point env ext i)).
Proof.
move=> Hi io eo; have [so _] := io.
rewrite -{1}eo (query_coset_in_bounds eok sd se) //; last 2 first.
- by rewrite (leq_trans (size_po_poly io)).
- exact: dsize_gt0 (std_domain_ok eok sd).
by rewrite /rot_point /= expr0 mulr1.
Qed.

Lemma table_coset_ok tqs theta i : table_queries_ok ts tqs -> (i < dsize ext)%N ->
  compress theta (table_leaf ts (fun o => query_in_coset o i curr)) tqs = Ok (table_poly tqs theta).[coset_point env ext i].
Proof.
move=> Ht Hi; rewrite (@compress_ok _ _ _ _ (fun q => (Poly (poly_named ts (oq_label q))).[coset_point env ext i])).
  by rewrite compressed_horner -map_comp.
move=> q Oq; have [o [-> Hn [io eo]]] := table_leaf_named (fun o => query_in_coset o i curr) (Ht q Oq).
by rewrite query_coset_curr // /poly_named Hn pevalE.
Qed.

Lemma size_compressed n (theta : F) (ps : seq {poly F}) : (forall p, p \in ps -> size p <= n)%N ->
  (size (compressed theta%:P ps) <= n)%N.
Proof.
move=> H; rewrite /compressed; apply: (leq_trans (size_sum _ _ _)); apply/bigmax_leqP => j _.
by rewrite -polyC_exp mul_polyC; apply: (leq_trans (size_scale_leq _ _)); apply: H; rewrite mem_nth.
Qed.

Lemma size_table_poly tqs theta : table_queries_ok ts tqs -> (size (table_poly tqs theta) <= dsize d)%N.
Proof.
move=> Ht; apply: size_compressed => p Hp.
have /occurs_map[q Oq ->] : occurs p [seq Poly (poly_named ts (oq_label q)) | q <- tqs] by apply/occurs_mem.
have [o [_ Hn [io _]]] := table_leaf_named (fun o => Ok o) (Ht q Oq).
by rewrite /poly_named Hn /= (leq_trans (size_Poly _)) // size_po_poly.
Qed.

(** The consistency assertion on extended evaluations. *)
Lemma coset_assert (A : {poly F}) : (size A <= dsize ext)%N ->
  let evals := [seq A.[element d i] | i <- iota 0 (dsize d)] in
  let coset := [seq A.[coset_point env ext i] | i <- iota 0 (dsize ext)] in
  (coset == coset_fft env ext (ptrim (ifft d evals))) = (size A <= dsize d)%N /\
  ((size A <= dsize d)%N -> Poly (ptrim (ifft d evals)) = A).
Proof.
move=> sA evals coset.
have nE i : (i < dsize d)%N -> evals`_i = A.[element d i].
  by move=> Hi; rewrite (nth_map 0%N) ?size_iota // nth_iota.
have PE : (size A <= dsize d)%N -> Poly (ptrim (ifft d evals)) = A.
  by move=> s; rewrite Poly_trim; apply: (ifft_unique eok) => // i Hi; rewrite nE.
split=> //; apply/eqP/idP => [E|s].
  have -> : A = Poly (ptrim (ifft d evals)).
    apply: (@poly_eq_on _ _ _ (coset_points env ext)).
    - exact: coset_points_uniq.
    - by rewrite size_coset_points.
    - rewrite size_coset_points Poly_trim; apply: leq_trans le; exact: size_Poly_ifft.
    move=> x /mapP[i]; rewrite mem_iota add0n => /andP[_ Hi] ->.
    have := congr1 (fun c => c`_i) E; rewrite /= (nth_map 0%N) ?size_iota // nth_iota // add0n => ->.
    rewrite nth_coset_fft // take_oversize ?pevalE //.
    by rewrite size_ptrim (leq_trans _ le) // size_Poly_ifft.
  by rewrite Poly_trim size_Poly_ifft.
apply: (@eq_from_nth _ 0); first by rewrite size_map size_iota size_coset_fft.
move=> i; rewrite size_map size_iota => Hi.
rewrite (nth_map 0%N) ?size_iota // nth_iota // add0n nth_coset_fft // take_oversize ?pevalE ?PE //.
by rewrite size_ptrim (leq_trans _ le) // size_Poly_ifft.
Qed.

Section Construct.
Variables (Z : Type) (zk_rand : Z -> F * Z).
Variables (u k : nat) (es : seq (expr F oquery)) (tqs : seq oquery) (theta : F).
Hypothesis Hes : exprs_ok ws ins fs (dsize d) es.
Hypothesis Hts : table_queries_ok ts tqs.
Let A := lookup_poly ws ins fs (dgen d) es theta.
Let T := table_poly tqs theta.
Let arow i := lookup_row ws ins fs (dsize d) es theta i.
Let srow i := table_row ts tqs theta i.
Let n := dsize d.
Hypothesis sA : (size A <= dsize ext)%N.

Definition lookup_columns (lo : lookup_oracles (poracle F)) : Prop :=
  [/\ [/\ interpolates d (lo_a lo), interpolates d (lo_s lo), interpolates d (lo_a' lo) & interpolates d (lo_s' lo)],
      [/\ compute_extended_evals env ext (lo_a lo) = lo_a lo, compute_extended_evals env ext (lo_s lo) = lo_s lo,
         compute_extended_evals env ext (lo_a' lo) = lo_a' lo & compute_extended_evals env ext (lo_s' lo) = lo_s' lo],
      [/\ forall i, (i < n)%N -> (po_evals (lo_a lo))`_i = arow i & forall i, (i < n)%N -> (po_evals (lo_s lo))`_i = srow i],
      (Poly (po_poly (lo_a lo)) = A /\ Poly (po_poly (lo_s lo)) = T) /\ (o_rots (lo_a' lo) = [:: curr; prev] /\ o_rots (lo_s' lo) = [:: curr]) &
      permute_for_lookup env (map arow (iota 0 u)) (map srow (iota 0 u)) = Ok (take u (po_evals (lo_a' lo)), take u (po_evals (lo_s' lo)))].

Lemma size_draw_pairs m (zk : Z) : size (draw_pairs zk_rand m zk).1.1 = m /\ size (draw_pairs zk_rand m zk).1.2 = m.
Proof.
elim: m zk => [|m IH] zk //=; case: (zk_rand zk) => x z1; case: (zk_rand z1) => y z2.
by case: (IH z2); case: (draw_pairs zk_rand m z2) => [[xs ys] z3] /= -> ->.
Qed.

Lemma permute_size (a s a1 s1 : seq F) m : size a = m -> permute_for_lookup env a s = Ok (a1, s1) -> size a1 = m /\ size s1 = m.
Proof.
move=> sa H.
have [b|b] := boolP ((size a == size s) && all (mem s) a); last by have [p E] := @permute_panic _ _ eok a s b; rewrite E in H.
case/andP: b => /eqP ss /allP sub; have [s2 [E ps _]] := permute_ok eok ss sub.
move: H; rewrite E => -[<- <-]; by rewrite size_sort (perm_size ps) -ss.
Qed.

Lemma slice_toE B (s : seq B) m : slice_to s m = if (m <= size s)%N then Ok (take m s) else Panic PIndex.
Proof. by []. Qed.

Lemma construct_columnsE zk :
  construct_a_and_s_polys_prover env zk_rand ws ins fs ts u k es tqs theta d ext zk =
  (_ <- rassert (size es == size tqs) ;;
   _ <- rassert (size A <= dsize d)%N ;;
   let aev := map arow (iota 0 n) in let sev := map srow (iota 0 n) in
   _ <- (if (u <= n)%N then Ok tt else Panic PIndex) ;;
   '(a1, s1) <- permute_for_lookup env (map arow (iota 0 u)) (map srow (iota 0 u)) ;;
   let: (ra, rs, zk') := draw_pairs zk_rand (n - u) zk in
   let name s := ("lookup_" ++ s ++ show_nat k ++ "_poly")%string in
   let mk l r ev := Oracle (name l) r (PData Witness (ptrim (ifft d ev)) ev (Some (coset_fft env ext (ptrim (ifft d ev)))) false) in
   _ <- rassert (size (a1 ++ ra) == n) ;; _ <- rassert (size (s1 ++ rs) == n) ;;
   Ok (LookupOracles (mk "a_"%string [:: curr] aev) (mk "s_"%string [:: curr] sev) (mk "a_prime_"%string [:: curr; prev] (a1 ++ ra)) (mk "s_prime_"%string [:: curr] (s1 ++ rs)), zk')).
Proof.
rewrite /construct_a_and_s_polys_prover; case: (rassert _) => //= _.
have Hra : rmapM (fun i => compress theta (fun e => eval_res e
                (query_leaf ws ins fs (fun o => query_at_omega_in_original_domain o i) (fun o => query_at_omega_in_original_domain o i)
                   (fun o => query_at_omega_in_original_domain o i))) es) (iota 0 (dsize d)) = Ok [seq A.[element d i] | i <- iota 0 n].
  apply: rmapM_map => i a0; rewrite size_iota => Hi; rewrite nth_iota // add0n.
  by have [-> _] := expr_rows_ok theta Hes Hi.
rewrite Hra rbind_Ok.
have Hca : rmapM (fun i => compress theta (fun e => eval_res e
                (query_leaf ws ins fs (fun o => query_in_coset o i) (fun o => query_in_coset o i)
                   (fun o => query_in_coset o i))) es) (iota 0 (dsize ext)) = Ok [seq A.[coset_point env ext i] | i <- iota 0 (dsize ext)].
  apply: rmapM_map => i a0; rewrite size_iota => Hi; rewrite nth_iota // add0n.
  exact: expr_polys_ok.
rewrite Hca rbind_Ok.
have [-> PE] := coset_assert sA.
have Ea : [seq A.[element d i] | i <- iota 0 n] = map arow (iota 0 n).
  apply/eq_in_map => i; rewrite mem_iota add0n => Hi; by have [_ ->] := expr_rows_ok theta Hes Hi.
rewrite /rassert; case: leqP => // sAn; rewrite !rbind_Ok.
have Ec := coset_assert sA; rewrite sAn in Ec; case: Ec => /eqP Ec _; rewrite Ec Ea.
have Hrs : rmapM (fun i => compress theta (table_leaf ts (fun o => idx (po_evals o) i)) tqs) (iota 0 (dsize d)) = Ok [seq T.[element d i] | i <- iota 0 n].
  apply: rmapM_map => i a0; rewrite size_iota => Hi; rewrite nth_iota // add0n.
  by have [-> ->] := table_rows_ok theta Hts Hi.
rewrite Hrs rbind_Ok.
have Hcs : rmapM (fun i => compress theta (table_leaf ts (fun o => query_in_coset o i curr)) tqs) (iota 0 (dsize ext)) = Ok [seq T.[coset_point env ext i] | i <- iota 0 (dsize ext)].
  apply: rmapM_map => i a0; rewrite size_iota => Hi; rewrite nth_iota // add0n.
  exact: table_coset_ok.
rewrite Hcs rbind_Ok.
have sT : (size T <= dsize d)%N by exact: size_table_poly.
have [] := coset_assert (leq_trans sT le); rewrite sT => /eqP Ec' _; rewrite Ec' eqxx rbind_Ok.
have Es : [seq T.[element d i] | i <- iota 0 n] = map srow (iota 0 n).
  apply/eq_in_map => i; rewrite mem_iota add0n => Hi; by have [_ ->] := table_rows_ok theta Hts Hi.
rewrite Es !slice_toE !size_map !size_iota; case: leqP => // un; rewrite !rbind_Ok.
by rewrite -!map_take take_iota (minn_idPl un).
Qed.

Lemma construct_columns_inv zk lo zk' :
  construct_a_and_s_polys_prover env zk_rand ws ins fs ts u k es tqs theta d ext zk = Ok (lo, zk') ->
  [/\ lookup_columns lo, (u <= n)%N, (size A <= n)%N & size es = size tqs].
Proof.
rewrite construct_columnsE => H.
have [_ /rassert_ok/eqP st H1] := rbind_ok H; have [_ /rassert_ok sAn H2] := rbind_ok H1.
have [t un H3] := rbind_ok H2; have {}un : (u <= n)%N by move: un; case: leqP.
have [[a1 s1] Hp H4] := rbind_ok H3.
move: H4; case: draw_pairs => [[ra rs] zk1] H5.
have [_ /rassert_ok/eqP sa H6] := rbind_ok H5; have [_ /rassert_ok/eqP ss [<- _]] := rbind_ok H6.
split=> //.
have Ea : Poly (ptrim (ifft d (map arow (iota 0 n)))) = A.
  have [_ PE] := coset_assert sA; rewrite -(PE sAn); congr (Poly (ptrim (ifft d _))).
  apply/eq_in_map => i; rewrite mem_iota add0n => Hi; by have [_ ->] := expr_rows_ok theta Hes Hi.
have Es : Poly (ptrim (ifft d (map srow (iota 0 n)))) = T.
  have sT : (size T <= dsize d)%N by exact: size_table_poly.
  have [_ PE] := coset_assert (leq_trans sT le); rewrite -(PE sT); congr (Poly (ptrim (ifft d _))).
  apply/eq_in_map => i; rewrite mem_iota add0n => Hi; by have [_ ->] := table_rows_ok theta Hts Hi.
have [szs sz1] : size a1 = u /\ size s1 = u by apply: permute_size Hp; rewrite size_map size_iota.
split=> //.
- by split; split=> //=; rewrite /po_evals /= size_map size_iota.
- by split=> i Hi; rewrite /po_evals /= (nth_map 0%N) ?size_iota // nth_iota.
- by rewrite /po_evals /= !take_size_cat.
Qed.

Lemma construct_columns_ok zk : size es = size tqs -> (u <= n)%N -> (size A <= n)%N ->
  (forall i, (i < u)%N -> exists2 j, (j < u)%N & arow i = srow j) ->
  exists lo zk', construct_a_and_s_polys_prover env zk_rand ws ins fs ts u k es tqs theta d ext zk = Ok (lo, zk').
Proof.
move=> st un sAn mem; rewrite construct_columnsE st eqxx /rassert rbind_Ok sAn rbind_Ok un rbind_Ok.
have [||s1 [-> ps _]] := permute_ok eok (a := map arow (iota 0 u)) (s := map srow (iota 0 u)).
- by rewrite !size_map.
- move=> x /mapP[i]; rewrite mem_iota add0n => /andP[_ Hi] ->; have [j Hj ->] := mem i Hi.
  by apply: (map_f srow); rewrite mem_iota.
rewrite rbind_Ok; have [] := size_draw_pairs (n - u) zk; case: draw_pairs => [[ra rs] zk1] /= sra srs.
rewrite !size_cat sra srs size_sort (perm_size ps) !size_map !size_iota subnKC // eqxx !rbind_Ok.
by eexists; eexists.
Qed.

Lemma construct_columns_panic zk : size es = size tqs -> (u <= n)%N -> (size A <= n)%N ->
  (exists2 i, (i < u)%N & forall j, (j < u)%N -> arow i <> srow j) ->
  exists p, construct_a_and_s_polys_prover env zk_rand ws ins fs ts u k es tqs theta d ext zk = Panic p.
Proof.
move=> st un sAn [i Hi bad]; rewrite construct_columnsE st eqxx /rassert rbind_Ok sAn rbind_Ok un rbind_Ok.
have [|p ->] := @permute_panic _ _ eok (map arow (iota 0 u)) (map srow (iota 0 u)); last by exists p.
rewrite !size_map eqxx /= -has_predC; apply/hasP; exists (arow i).
  by apply: (map_f arow); rewrite mem_iota.
by apply/negP => /mapP[j]; rewrite mem_iota add0n => /andP[_ Hj]; exact: bad.
Qed.

Lemma construct_columns_assert zk : size es = size tqs -> (n < size A)%N ->
  construct_a_and_s_polys_prover env zk_rand ws ins fs ts u k es tqs theta d ext zk = Panic PAssert.
Proof. by move=> st sAn; rewrite construct_columnsE st eqxx /rassert rbind_Ok leqNgt sAn. Qed.

(** The whole lookup round for one lookup: columns, then grand product. *)
Variables (beta gamma : F).
Section Rows.
Variables (lo : lookup_oracles (poracle F)).
Hypothesis un : (u < n)%N.
Hypothesis H0u : (0 < u)%N.
Hypothesis Hlo : lookup_columns lo.
Let a'row i := (po_evals (lo_a' lo))`_i.
Let s'row i := (po_evals (lo_s' lo))`_i.

Let sizes : [&& u <= size (po_evals (lo_a lo)), u <= size (po_evals (lo_s lo)),
    u <= size (po_evals (lo_a' lo)) & u <= size (po_evals (lo_s' lo))]%N.
Proof. by case: Hlo => [[[-> _] [-> _] [-> _] [-> _]] _ _ _ _]; rewrite (ltnW un). Qed.

Let take_rows (s : seq F) (f : nat -> F) : (u <= size s)%N -> (forall i, (i < n)%N -> s`_i = f i) -> take u s = map f (iota 0 u).
Proof.
move=> us E; apply: (@eq_from_nth _ 0); first by rewrite size_takel // size_map size_iota.
move=> i; rewrite size_takel // => Hi; rewrite nth_take // (nth_map 0%N) ?size_iota // nth_iota //.
by rewrite E // (ltn_trans Hi).
Qed.

Lemma permuted_rows : [/\ perm_eq (take u (po_evals (lo_a' lo))) (take u (po_evals (lo_a lo))),
    perm_eq (take u (po_evals (lo_s' lo))) (take u (po_evals (lo_s lo))),
    a'row 0 = s'row 0 & forall i, (0 < i)%N -> (i < u)%N -> a'row i = s'row i \/ a'row i = a'row i.-1].
Proof.
case: Hlo => _ _ [Ea Es] _ Hp; case/and4P: sizes => h1 h2 h3 h4.
have sub : {subset map arow (iota 0 u) <= map srow (iota 0 u)}.
  move=> x Hx; apply/negbNE/negP => Hn.
  have [|p] := @permute_panic _ _ eok (map arow (iota 0 u)) (map srow (iota 0 u)); last by rewrite Hp.
  by rewrite !size_map eqxx /= -has_predC; apply/hasP; exists x.
have [|//|s1 [E ps rel]] := permute_ok eok (a := map arow (iota 0 u)) (s := map srow (iota 0 u)); first by rewrite !size_map.
move: E; rewrite Hp => -[E1 E2].
have rE i : (i < u)%N -> a'row i = (sort (fle env) (map arow (iota 0 u)))`_i.
  by move=> Hi; rewrite -E1 nth_take.
have sE i : (i < u)%N -> s'row i = s1`_i by move=> Hi; rewrite -E2 nth_take.
split.
- by rewrite E1 perm_sort (take_rows h1 Ea).
- by rewrite E2 (take_rows h2 Es).
- rewrite rE // sE //; have := rel 0%N; rewrite size_map size_iota => /(_ H0u)[//|[]//].
- move=> i i0 Hi; rewrite !rE ?sE //; last by apply: leq_ltn_trans Hi; exact: leq_pred.
  have := rel i; rewrite size_map size_iota => /(_ Hi)[->|[_ ->]]; first by left.
  by right.
Qed.

Lemma subset_rows zk z zk' :
  se_construct_agg_poly env zk_rand lo beta gamma k u d ext zk = Ok (z, zk') ->
  [/\ interpolates d z, compute_extended_evals env ext z = z, o_rots z = [:: curr; next] &
      lookup_rows_hold n u beta gamma arow srow a'row s'row (fun i => (po_evals z)`_i)].
Proof.
move=> H; have [iz ez rz [z0 zu tr] _] := se_construct_inv sizes H.
split=> //; case: Hlo => _ _ [Ea Es] _ _; have [_ _ r0 rel] := permuted_rows.
apply/lookup_rowsP => //; split=> //.
- by rewrite zu mulr1 subrr.
- by move=> i Hi; rewrite -Ea ?(ltn_trans Hi) // -Es ?(ltn_trans Hi) //; apply: tr.
- move=> i /andP[i0 Hi]; case: (rel i i0 Hi) => ->; by rewrite subrr ?mul0r ?mulr0.
Qed.

Lemma subset_ok zk :
  (forall i, (i < u)%N -> (a'row i + beta) * (s'row i + gamma) != 0) ->
  exists z zk', se_construct_agg_poly env zk_rand lo beta gamma k u d ext zk = Ok (z, zk').
Proof. by move=> nz; have [pa ps _ _] := permuted_rows; apply: se_construct_ok. Qed.
End Rows.
End Construct.
End Prover.
