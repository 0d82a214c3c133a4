(** The permutation and lookup formulas of prover and verifier are the same polynomials. *)
From mathcomp Require Import all_ssreflect all_algebra zify.
From Coq Require Import String Lia.
From Verif Require Import Base ModelPoly ModelVO ModelOracle ModelPermutation ModelLookup
  Spec SpecProtocol ProofBase ProofPoly ProofDomain ProofVO ProofOracle ProofPermutation ProofPermArg ProofPermute ProofLookup ProofColumns.

Set Implicit Arguments.
Unset Strict Implicit.
Unset Printing Implicit Defensive.

Import GRing.Theory.
Local Open Scope ring_scope.

Section Lookup.
Variable F : fieldType.
Add Field Ffield3 : (F_field_theory F).

Lemma combination5 (R : comRingType) (al : seq R) (c0 c1 c2 c3 c4 : R) : size al = 5%N ->
  combination al [:: c0; c1; c2; c3; c4] = al`_0 * c0 + al`_1 * c1 + al`_2 * c2 + al`_3 * c3 + al`_4 * c4.
Proof. by move=> s; rewrite /combination s !big_ord_recl big_ord0 /= addr0 !addrA. Qed.

Lemma lookup_instantiate_ok l0c qlc qbo lo zo beta gamma i al l0 ql qb a s a' s' ap z zn :
  size al = 5%N -> idx l0c i = Ok l0 -> idx qlc i = Ok ql -> query_in_coset qbo i curr = Ok qb ->
  query_in_coset (lo_a lo) i curr = Ok a -> query_in_coset (lo_s lo) i curr = Ok s ->
  query_in_coset (lo_a' lo) i curr = Ok a' -> query_in_coset (lo_s' lo) i curr = Ok s' ->
  query_in_coset (lo_a' lo) i prev = Ok ap -> query_in_coset zo i curr = Ok z -> query_in_coset zo i next = Ok zn ->
  lookup_instantiate l0c qlc qbo lo zo beta gamma i al =
  Ok (combination al (lookup_constraints l0 ql qb beta gamma a s a' s' ap z zn) : F).
Proof.
move=> s5 h1 h2 h3 h4 h5 h6 h7 h8 h9 h10.
case: al s5 => [|x0 [|x1 [|x2 [|x3 [|x4 [|]]]]]] // _.
rewrite /lookup_instantiate /se_instantiate /= h1 h2 h3 h4 h5 h6 h7 h8 h9 h10 /=.
congr Ok; rewrite combination5 //=; f_conv F; ring.
Qed.

Variable C : Type.
Lemma lookup_open_ok l0 ql (qbo : voracle F C) lo zo beta gamma xi d al qb a s a' s' ap z zn :
  size al = 5%N -> element d 1 != 0 -> vo_query qbo xi = Ok qb ->
  vo_query (lo_a lo) xi = Ok a -> vo_query (lo_s lo) xi = Ok s ->
  vo_query (lo_a' lo) xi = Ok a' -> vo_query (lo_s' lo) xi = Ok s' ->
  vo_query (lo_a' lo) ((element d 1)^-1 * xi) = Ok ap -> vo_query zo xi = Ok z -> vo_query zo (element d 1 * xi) = Ok zn ->
  lookup_open l0 ql qbo lo zo beta gamma xi d al =
  Ok (combination al (lookup_constraints l0 ql qb beta gamma a s a' s' ap z zn) : F).
Proof.
move=> s5 w0 h3 h4 h5 h6 h7 h8 h9 h10.
case: al s5 => [|x0 [|x1 [|x2 [|x3 [|x4 [|]]]]]] // _.
rewrite /lookup_open /se_open /= /finv (negPf w0) /= h3 h4 h5 h6 h7 h8 h9 h10 /=.
congr Ok; rewrite combination5 //=; f_conv F; ring.
Qed.
End Lookup.

Section Morph.
Variables (R S : comRingType) (f : {rmorphism R -> S}).
Lemma map_lookup_constraints l0 ql qb beta gamma a s a' s' ap z zn :
  map f (lookup_constraints l0 ql qb beta gamma a s a' s' ap z zn) =
  lookup_constraints (f l0) (f ql) (f qb) (f beta) (f gamma) (f a) (f s) (f a') (f s') (f ap) (f z) (f zn).
Proof. by rewrite /lookup_constraints /= !(rmorphM, rmorphB, rmorphD, rmorphN, rmorph1). Qed.

Lemma map_combination al cs : (size al <= size cs)%N -> f (combination al cs) = combination (map f al) (map f cs).
Proof.
move=> le; rewrite /combination rmorph_sum size_map; apply: eq_bigr => j _.
by rewrite rmorphM !(nth_map 0) // (leq_trans _ le).
Qed.
End Morph.

Section Poly.
Variable F : fieldType.

Lemma scaled_arg_at (c x : F) p : (scaled_arg c p).[x] = p.[c * x].
Proof. by rewrite /scaled_arg horner_comp hornerZ hornerX. Qed.

Lemma map_zip3 A B C A' B' (f : A -> A') (g : B -> B') (s : seq A) (t : seq B) (u : seq C) T (h : A' -> B' -> C -> T) :
  [seq h (f x.1.1) (g x.1.2) x.2 | x <- zip (zip s t) u] = [seq h x.1.1 x.1.2 x.2 | x <- zip (zip (map f s) (map g t)) u].
Proof. by elim: s t u => [|a s IH] [|b t] [|c u] //=; rewrite IH. Qed.

Lemma map_Ok_at A B (f : A -> res B) (s : seq A) (t : seq B) x0 : map f s = map Ok t ->
  (forall x, occurs x s -> f x = Ok (ok_or x0 (f x))) /\ map (fun x => ok_or x0 (f x)) s = t.
Proof.
elim: s t => [|a s IH] [|b t] //= [Ha /IH[H ->]]; rewrite Ha; split=> // x [->|]; by [rewrite Ha|apply: H].
Qed.

Lemma idx_zip A B (s : seq A) (t : seq B) k a b : idx (zip s t) k = Ok (a, b) -> idx s k = Ok a /\ idx t k = Ok b.
Proof. by elim: s t k => [|x s IH] [|y t] [|k] //=; [case=> -> ->|apply: IH]. Qed.

Lemma rbind_rmap A B D (f : A -> B) (x : res A) (k : B -> res D) : rbind (rmap f x) k = rbind x (fun a => k (f a)).
Proof. by case: x. Qed.
Lemma eq_rbind A B (x : res A) (k k' : A -> res B) : (forall a, k a = k' a) -> rbind x k = rbind x k'.
Proof. by move=> E; case: x => //= a. Qed.
Lemma last_unwrap_map A B (f : A -> B) s : last_unwrap (map f s) = rmap f (last_unwrap s).
Proof. by case: s => //= a s; rewrite last_map. Qed.

Lemma perm_generic_map O1 O2 O3 O3' (f : O3' -> O3) m deltas (l0 ql : F) qb qz qzn qzu (qw : O1 -> res F) (qs : O2 -> res F) x aggs sigmas ws beta gamma alphas :
  perm_generic m deltas l0 ql qb qz qzn qzu qw qs x (map f aggs) sigmas ws beta gamma alphas =
  perm_generic m deltas l0 ql qb (fun o => qz (f o)) (fun o => qzn (f o)) (fun o => qzu (f o)) qw qs x aggs sigmas ws beta gamma alphas.
Proof.
rewrite /perm_generic size_map last_unwrap_map.
do 9!(apply: eq_rbind => ?); apply: eq_rbind => a0; rewrite idx_map rbind_rmap; apply: eq_rbind => z0.
apply: eq_rbind => z0e; rewrite (@eq_rfoldM _ _ _ (fun acc kc => let: (k, (w, s, ds)) := kc in
    a <- idx alphas (k + 1) ;; z <- idx aggs k ;;
    g <- gp_expr ql qb (qzn (f z)) (qz (f z)) qw qs s w ds beta gamma x ;; Ok (acc + a * g))); last first.
  by move=> st [k [[w1 s1] d1]]; apply: eq_rbind => a; rewrite idx_map rbind_rmap.
apply: eq_rbind => e1; apply: eq_rbind => m1.
rewrite (@eq_rfoldM _ _ _ (fun acc k => a <- idx alphas (k + (1 + size aggs)) ;;
          zk1 <- idx aggs k.+1 ;; x <- qz (f zk1) ;; zk <- idx aggs k ;; y <- qzu (f zk) ;; Ok (acc + a * l0 * (x - y)))).
  by apply: eq_rbind => e2; rewrite rbind_rmap.
move=> st k; apply: eq_rbind => a; rewrite idx_map rbind_rmap; apply: eq_rbind => zk1.
by apply: eq_rbind => y; rewrite idx_map rbind_rmap.
Qed.

Lemma perm_generic_poly O1 O2 O3 m deltas (l0 ql qb : {poly F}) (qbr : res F)
    (qz qzn qzu : O3 -> res F) (qw : O1 -> res F) (qs : O2 -> res F) (x w : F) u
    (aggs : seq O3) (sigmas : seq O2) (ws : seq O1) (beta gamma : F) (alphas : seq F) (wp sp zp : seq {poly F}) :
  (0 < m)%N -> (0 < size ws)%N -> size sigmas = size ws -> size deltas = size ws ->
  size aggs = size (chunks m ws) -> size alphas = (2 * size aggs + 1)%N ->
  map qw ws = [seq Ok v | v <- [seq p.[x] | p <- wp]] -> map qs sigmas = [seq Ok v | v <- [seq p.[x] | p <- sp]] ->
  map qz aggs = [seq Ok v | v <- [seq p.[x] | p <- zp]] -> map qzn aggs = [seq Ok v | v <- [seq p.[w * x] | p <- zp]] ->
  (forall k o, (k.+1 < size aggs)%N -> idx aggs k = Ok o -> qzu o = Ok (zp`_k).[w ^+ u * x]) ->
  qbr = Ok qb.[x] ->
  perm_generic m deltas l0.[x] ql.[x] qbr qz qzn qzu qw qs x aggs sigmas ws beta gamma alphas =
  Ok (perm_identity w u m deltas l0 ql qb beta gamma wp sp zp alphas).[x].
Proof.
move=> m0 ws0 ss sdl sag sal Hw Hs Hz Hzn Hzu ->.
have [Hw1 Hw2] := map_Ok_at 0 Hw; have [Hs1 Hs2] := map_Ok_at 0 Hs.
have szp : size zp = size aggs by have := congr1 size Hz; rewrite !size_map => ->.
have Ez : aggs = map fst (zip aggs zp) by rewrite -/(unzip1 _) unzip1_zip // szp.
have nz k o p := @idx_zip _ _ aggs zp k o p.
have ev (f : O3 -> res F) (h : {poly F} -> F) : map f aggs = [seq Ok v | v <- map h zp] ->
    forall op, occurs op (zip aggs zp) -> f op.1 = Ok (h op.2).
  move=> E [o p] /occurs_nth[k lt Hn]; have [|Ho Hp] := @nz k o p; first by rewrite -(Hn (o, p)) -idx_nth.
  have := congr1 (fun s => idx s k) E; rewrite /= !idx_map Ho Hp /=; by case.
have szz : size (zip aggs zp) = size aggs by rewrite size_zip szp minnn.
rewrite Ez perm_generic_map (@perm_generic_ok _ _ _ _ _ _ _ _ _ _ _ _ _ _ _ (fun op => op.2.[x]) (fun op => op.2.[w * x]) (fun op => op.2.[w ^+ u * x])
   (fun o => ok_or 0 (qw o)) (fun o => ok_or 0 (qs o))) ?szz //; last 3 first.
- by move=> op Oo; exact: (ev qz (fun p => p.[x])).
- by move=> op Oo; exact: (ev qzn (fun p => p.[w * x])).
- move=> k [o p] lt /nz[Ho Hp]; rewrite (Hzu k) //=.
  by rewrite (idx_ok_nth 0 Hp).
congr Ok; rewrite /perm_identity -[RHS]/(horner_eval x _).
have swp : size wp = size ws by have := congr1 size Hw; rewrite !size_map => ->.
have ssp : size sp = size ws by have := congr1 size Hs; rewrite !size_map => <-.
set cols := [seq _ | t <- zip (zip wp sp) deltas].
have scols : size cols = size ws by rewrite size_map !size_zip swp ssp sdl !minnn.
set zps := [seq (z, _, _) | z <- zp].
have scs : size (perm_chunks m cols zps) = size aggs.
  by rewrite /perm_chunks size_map size_zip size_chunks // scols size_map szp sag size_chunks // minnn.
rewrite (map_combination [rmorphism of horner_eval x]) /=; last first.
  by rewrite size_map size_perm_constraints scs ?sal // sag chunks_cons.
have -> : [seq horner_eval x i | i <- [seq i%:P | i <- alphas]] = alphas.
  by rewrite -map_comp -[RHS]map_id; apply: eq_map => c; rewrite /= /horner_eval hornerC.
rewrite (map_perm_constraints [rmorphism of horner_eval x]) /= map_perm_chunks //.
have hC c : horner_eval x c%:P = c by rewrite /horner_eval hornerC.
rewrite !hC; congr (combination _ (perm_constraints _ _ _ _ _ (perm_chunks _ _ _))).
  rewrite /perm_cols /cols -map_comp.
  have -> := map_zip3 (fun o => ok_or 0 (qw o)) (fun o => ok_or 0 (qs o)) ws sigmas deltas (fun a b c => (a, b, c * x)).
  rewrite Hw2 Hs2.
  have <- := map_zip3 (fun p : {poly F} => p.[x]) (fun p : {poly F} => p.[x]) wp sp deltas (fun a b c => (a, b, c * x)).
  by apply: eq_map => -[[a b] c] /=; rewrite /map_col /= /horner_eval hornerZ hornerX.
rewrite /perm_zs /zps -map_comp -[zp in RHS](@unzip2_zip _ _ aggs) ?szp // /unzip2 -map_comp.
by apply: eq_map => -[o p] /=; rewrite /map_col /= /horner_eval !scaled_arg_at.
Qed.

Lemma lookup_identity_at (w x : F) l0 ql qb beta gamma a s a' s' z alphas : size alphas = 5%N ->
  (lookup_identity w l0 ql qb beta gamma a s a' s' z alphas).[x] =
  combination alphas (lookup_constraints l0.[x] ql.[x] qb.[x] beta gamma a.[x] s.[x] a'.[x] s'.[x] a'.[w^-1 * x] z.[x] z.[w * x]).
Proof.
move=> s5; rewrite /lookup_identity -[LHS]/(horner_eval x _) (map_combination [rmorphism of horner_eval x]) /=; last first.
  by rewrite size_map s5.
have -> : [seq horner_eval x i | i <- [seq i%:P | i <- alphas]] = alphas.
  by rewrite -map_comp -[RHS]map_id; apply: eq_map => c; rewrite /= /horner_eval hornerC.
rewrite -[[:: _; _; _; _; _]]/(map (horner_eval x) (lookup_constraints l0 ql qb beta%:P gamma%:P a s a' s' (scaled_arg w^-1 a') z (scaled_arg w z))).
by rewrite (map_lookup_constraints [rmorphism of horner_eval x]) /= /horner_eval !hornerC !scaled_arg_at.
Qed.
End Poly.

Section Coset.
Variables (F : fieldType) (env : fenv F).
Hypothesis eok : fenv_ok env.
Variables (d ext : domain F).
Hypothesis sd : std_domain env d.
Hypothesis se : std_domain env ext.
Hypothesis le : (dsize d <= dsize ext)%N.
Let cp i := coset_point env ext i.
Definition pp (o : poracle F) : {poly F} := Poly (po_poly o).
Definition ready (o : poracle F) : Prop := interpolates d o /\ compute_extended_evals env ext o = o.

Lemma coset_query o i r : ready o -> (i < dsize ext)%N -> (r.1 < dsize d)%N ->
  query_in_coset o i r = Ok (pp o).[rot_point (dgen d) r (cp i)].
Proof.
move=> [io eo] Hi Hr; have [so _] := io.
by rewrite -{1}eo (query_coset_in_bounds eok sd se) ?pevalE // (leq_trans (size_po_poly io)).
Qed.
Lemma rot_curr (w x : F) : rot_point w curr x = x. Proof. by rewrite /rot_point /= expr0 mulr1. Qed.
Lemma rot_next (w x : F) : rot_point w next x = w * x. Proof. by rewrite /rot_point /= expr1 mulrC. Qed.
Lemma rot_prev (w x : F) : rot_point w prev x = w^-1 * x. Proof. by rewrite /rot_point /= expr1 mulrC. Qed.
Lemma rot_plus (w x : F) u : rot_point w (u, Plus) x = w ^+ u * x. Proof. by rewrite /rot_point /= mulrC. Qed.

Lemma idx_coset_fft (p : lpoly F) i : (size p <= dsize ext)%N -> (i < dsize ext)%N ->
  idx (coset_fft env ext p) i = Ok (Poly p).[cp i].
Proof. by move=> sp Hi; rewrite (idx_nth 0) ?size_coset_fft // nth_coset_fft // take_oversize // pevalE. Qed.

Lemma map_query (qs : seq (poracle F)) i r : (forall o, occurs o qs -> ready o) -> (i < dsize ext)%N -> (r.1 < dsize d)%N ->
  [seq query_in_coset o i r | o <- qs] = [seq Ok v | v <- [seq p.[rot_point (dgen d) r (cp i)] | p <- map pp qs]].
Proof.
move=> Hq Hi Hr; elim: qs Hq => //= o qs IH Hq; rewrite coset_query //; last by apply: Hq; left.
by rewrite IH // => o' Ho; apply: Hq; right.
Qed.

Lemma perm_instantiate_poly pa (l0 lu : lpoly F) qb ws sigmas zs i beta gamma alphas :
  (i < dsize ext)%N -> (pa_usable_rows pa < dsize d)%N -> (1 < dsize d)%N -> (size l0 <= dsize ext)%N -> (size lu <= dsize ext)%N ->
  ready qb -> (forall o, occurs o ws -> ready o) -> (forall o, occurs o sigmas -> ready o) -> (forall o, occurs o zs -> ready o) ->
  (0 < pa_max_cols pa)%N -> (0 < size ws)%N -> size sigmas = size ws -> size (pa_deltas pa) = size ws ->
  size zs = size (chunks (pa_max_cols pa) ws) -> size alphas = (2 * size zs + 1)%N ->
  perm_instantiate env pa (coset_fft env ext l0) (coset_fft env ext lu) qb ws sigmas zs i (element ext i) beta gamma alphas =
  Ok (perm_identity (dgen d) (pa_usable_rows pa) (pa_max_cols pa) (pa_deltas pa) (Poly l0) (Poly lu) (pp qb) beta gamma
        (map pp ws) (map pp sigmas) (map pp zs) alphas).[cp i].
Proof.
move=> Hi un n1 sl0 slu rqb rws rsg rzs m0 ws0 ss sdl sz sal.
rewrite (@perm_instantiateE _ _ _ _ _ (Poly l0).[cp i] (Poly lu).[cp i]) ?idx_coset_fft //.
have n0 : (0 < dsize d)%N by apply: ltn_trans n1.
rewrite -/(coset_point env ext i) -/(cp i).
rewrite (@perm_generic_poly _ _ _ _ _ _ _ _ (pp qb) _ _ _ _ _ _ _ (dgen d) (pa_usable_rows pa) _ _ _ _ _ _ (map pp ws) (map pp sigmas) (map pp zs)) //.
- by rewrite map_query // rot_curr.
- by rewrite map_query // rot_curr.
- by rewrite map_query // rot_curr.
- by rewrite map_query // rot_next.
- move=> k o _ Hk; rewrite coset_query ?rot_plus //; last by apply: rzs; apply: occurs_idx Hk.
  have [lt E] := idx_ok Hk; by rewrite (nth_map o) // E.
- by rewrite coset_query // rot_curr.
Qed.

Lemma lookup_instantiate_poly (l0 lu : lpoly F) qb lo z i beta gamma alphas :
  (i < dsize ext)%N -> (1 < dsize d)%N -> (size l0 <= dsize ext)%N -> (size lu <= dsize ext)%N -> size alphas = 5%N ->
  ready qb -> ready (lo_a lo) -> ready (lo_s lo) -> ready (lo_a' lo) -> ready (lo_s' lo) -> ready z ->
  lookup_instantiate (coset_fft env ext l0) (coset_fft env ext lu) qb lo z beta gamma i alphas =
  Ok (lookup_identity (dgen d) (Poly l0) (Poly lu) (pp qb) beta gamma (pp (lo_a lo)) (pp (lo_s lo)) (pp (lo_a' lo)) (pp (lo_s' lo)) (pp z) alphas).[cp i].
Proof.
move=> Hi n1 sl0 slu s5 rqb ra rs ra' rs' rz; have n0 : (0 < dsize d)%N by apply: ltn_trans n1.
rewrite lookup_identity_at //; apply: lookup_instantiate_ok => //; rewrite ?idx_coset_fft //;
  by rewrite coset_query // ?rot_curr ?rot_next ?rot_prev.
Qed.

Section Verifier.
Variables (C : Type) (x : F).

Lemma all_answer_map y (vs : seq (voracle F C)) ps : all_answer y vs ps ->
  [seq vo_query v y | v <- vs] = [seq Ok v | v <- [seq p.[y] | p <- map pp ps]].
Proof.
case; elim: vs ps => [|v vs IH] [|p ps] //= [ss] H; rewrite (H 0%N v p) // pevalE (IH ps) // => j; exact: (H j.+1).
Qed.

Lemma perm_open_poly pa (l0 lu : lpoly F) qb ws sigmas zs (vqb : voracle F C) vws vsigmas vzs beta gamma alphas :
  answers x vqb qb -> all_answer x vws ws -> all_answer x vsigmas sigmas -> all_answer x vzs zs -> all_answer (dgen d * x) vzs zs ->
  (forall k v p, (k.+1 < size zs)%N -> idx vzs k = Ok v -> idx zs k = Ok p -> answers (dgen d ^+ pa_usable_rows pa * x) v p) ->
  (0 < pa_max_cols pa)%N -> (0 < size ws)%N -> size sigmas = size ws -> size (pa_deltas pa) = size ws ->
  size zs = size (chunks (pa_max_cols pa) ws) -> size alphas = (2 * size zs + 1)%N ->
  perm_open pa (peval l0 x) (peval lu x) vqb vzs vsigmas vws beta gamma d x alphas =
  Ok (perm_identity (dgen d) (pa_usable_rows pa) (pa_max_cols pa) (pa_deltas pa) (Poly l0) (Poly lu) (pp qb) beta gamma
        (map pp ws) (map pp sigmas) (map pp zs) alphas).[x].
Proof.
move=> aqb aw asg az azn azu m0 ws0 ss sdl sz sal.
have sw := aw.1; have szz := az.1; have ssg := asg.1.
rewrite perm_openE !pevalE.
rewrite (@perm_generic_poly _ _ _ _ _ _ _ _ (pp qb) _ _ _ _ _ _ _ (dgen d) (pa_usable_rows pa) _ _ _ _ _ _ (map pp ws) (map pp sigmas) (map pp zs)) ?sw ?ssg ?szz //.
- by rewrite sz !size_chunks // sw.
- by rewrite (all_answer_map aw).
- by rewrite (all_answer_map asg).
- by rewrite (all_answer_map az).
- by rewrite /element expr1 (all_answer_map azn).
- move=> k v lt Hk; have [p Hp] := idx_some (ltnW lt).
  rewrite /element (azu k v p) // pevalE; have [lt' E] := idx_ok Hp; by rewrite (nth_map p) // E.
- by rewrite aqb pevalE.
Qed.

Lemma lookup_open_poly (l0 lu : lpoly F) qb lo z (vqb : voracle F C) vlo vz beta gamma alphas :
  size alphas = 5%N -> answers x vqb qb -> answers x (lo_a vlo) (lo_a lo) -> answers x (lo_s vlo) (lo_s lo) ->
  answers x (lo_a' vlo) (lo_a' lo) -> answers ((dgen d)^-1 * x) (lo_a' vlo) (lo_a' lo) -> answers x (lo_s' vlo) (lo_s' lo) ->
  answers x vz z -> answers (dgen d * x) vz z ->
  lookup_open (peval l0 x) (peval lu x) vqb vlo vz beta gamma x d alphas =
  Ok (lookup_identity (dgen d) (Poly l0) (Poly lu) (pp qb) beta gamma (pp (lo_a lo)) (pp (lo_s lo)) (pp (lo_a' lo)) (pp (lo_s' lo)) (pp z) alphas).[x].
Proof.
move=> s5 h1 h2 h3 h4 h5 h6 h7 h8; rewrite lookup_identity_at // !pevalE.
have w0 : element d 1 != 0 by apply: element_neq0 (std_domain_ok eok sd).
apply: lookup_open_ok => //; rewrite /element ?expr1; by rewrite ?h1 ?h2 ?h3 ?h4 ?h5 ?h6 ?h7 ?h8 pevalE.
Qed.
End Verifier.
End Coset.
