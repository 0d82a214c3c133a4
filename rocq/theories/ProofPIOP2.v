(** Vanishing of the combined constraints: completeness and soundness of the quotient check. *)
From mathcomp Require Import all_ssreflect all_algebra zify.
From Coq Require Import String Lia.
From Verif Require Import Base ModelPoly ModelVO ModelOracle ModelPC ModelPermutation ModelLookup
  ModelIndexer ModelMultiproof ModelProtocol Spec SpecProtocol SpecPIOP
  ProofBase ProofPoly ProofDomain ProofVO ProofOracle ProofPermutation ProofIndexer ProofLookup ProofColumns ProofOpen
  ProofVerifierCols ProofPIOP.

Set Implicit Arguments.
Unset Strict Implicit.
Unset Printing Implicit Defensive.

Import GRing.Theory.
Local Open Scope ring_scope.

Section Vanish.
Variables (F : fieldType) (env : fenv F).
Hypothesis eok : fenv_ok env.
Variables (d : domain F).
Hypothesis sd : std_domain env d.
Variables (vk : verifier_key F) (es : seq (expr F oquery)) (beta gamma : F) (A : assignment F).
Let pa := ix_perm (vk_index vk).
Let nl := size (ix_lookups (vk_index vk)).
Let n := dsize d.
Let u := pa_usable_rows pa.
Hypothesis shape : shape_ok d pa A nl.
Let ev (r : F) (p : {poly F}) := p.[r].
Let vs r := map (ev r) (vo_polys d es A).
Let ps r := map (ev r) (perm_polys d pa beta gamma A).
Let ls r := map (map (ev r)) (lookup_polys d pa beta gamma A).

Lemma numerator_at_point alpha r : (numerator d pa es beta gamma A alpha).[r] = aggregate alpha (size (as_zs A)) (vs r) (ps r) (ls r).
Proof.
rewrite -[LHS]/(horner_eval r _) /numerator (map_aggregate [rmorphism of horner_eval r]) /=.
by rewrite /horner_eval hornerC.
Qed.
Lemma compressed0 (R : comRingType) (a : R) (cs : seq R) : (forall c, c \in cs -> c = 0) -> compressed a cs = 0.
Proof. by move=> H; rewrite /compressed big1 // => j _; rewrite (H cs`_j) ?mulr0 // mem_nth. Qed.
Lemma values_cat r : [seq ev r p | p <- constraint_polys d pa es beta gamma A] = vs r ++ ps r ++ flatten (ls r).
Proof. by rewrite /constraint_polys !map_cat map_flatten. Qed.
Lemma numerator_root alpha r : (forall p, p \in constraint_polys d pa es beta gamma A -> p.[r] = 0) ->
  (numerator d pa es beta gamma A alpha).[r] = 0.
Proof.
move=> H; rewrite numerator_at_point /aggregate !compressed0 ?mulr0 ?addr0 //.
all: move=> c Hc; suff : c \in [seq ev r p | p <- constraint_polys d pa es beta gamma A] by move/mapP => [p /H E ->].
all: rewrite values_cat !mem_cat; move: Hc; rewrite ?mem_cat.
- by move=> ->; rewrite !orbT.
- by case/orP => ->; rewrite ?orbT.
Qed.

Lemma last_row r (a q : {poly F}) s t : last 0 [seq ev r i | i <- a :: s ++ t ++ [:: q]] = ev r q.
Proof. by rewrite map_cons !map_cat last_cons !last_cat. Qed.
(** The two constraints that share a power of alpha are never non-zero on the same row, unless
    the usable rows are declared empty. *)
Lemma shared_zero i : (i < n)%N -> (0 < u)%N \/ copied (as_ws A) = [::] \/ nl = 0%N ->
  last 0 (ps (dgen d ^+ i)) = 0 \/ (flatten (ls (dgen d ^+ i)))`_0 = 0.
Proof.
move=> Hi; have [n1 un sl slz shp] := shape; case=> [u0|[c0|l0]].
- case: (eqVneq i 0%N) => [->|i0]; [left|right].
    rewrite /ps /perm_polys; case: ifP => // nn; rewrite /perm_constraints; case: perm_chunks => // c cs.
    rewrite last_row /ev hornerM.
    by rewrite -[X in X * _]/((row_selector d u).[element d 0]) (row_selector_at eok sd) ?(ltnW n1) // eq_sym gtn_eqF // mul0r.
  rewrite /ls /lookup_polys; case: (zip _ _) => //= t ts; rewrite /ev hornerM.
  by rewrite -[X in X * _]/((row_selector d 0).[element d i]) (row_selector_at eok sd) ?(ltnW n1) // (negbTE i0) mul0r.
- by left; rewrite /ps /perm_polys c0.
- by right; rewrite /ls /lookup_polys (size0nil (etrans sl l0)); case: (as_lzs A).
Qed.
Lemma perm_sizes r : ps r = [::] /\ size (as_zs A) = 0%N \/ size (ps r) = (2 * size (as_zs A) + 1)%N.
Proof.
have [_ _ _ _ shp] := shape; case: (boolP (nilp (copied (as_ws A)))) => nn.
  by left; have [E ->] := perm_polys_nil shape beta gamma nn; rewrite /ps E.
by right; rewrite size_map (size_perm_polys shape).
Qed.

(** Soundness. *)
Lemma at_most_roots (P : {poly F}) K (Q : F -> Prop) : P != 0 -> (size P <= K.+1)%N -> (forall x, Q x -> P.[x] = 0) -> at_most K Q.
Proof.
move=> P0 sP H s us Hs; rewrite -ltnS; apply: leq_trans sP; apply: max_poly_roots => //.
by apply/allP => x Hx; apply/eqP; apply: H; apply: Hs.
Qed.
Lemma bad_alphas i p : (i < n)%N -> (0 < u)%N \/ copied (as_ws A) = [::] \/ nl = 0%N ->
  p \in constraint_polys d pa es beta gamma A -> p.[dgen d ^+ i] != 0 ->
  at_most (size es + 2 * size (as_zs A) + 5 * nl) (fun alpha => (numerator d pa es beta gamma A alpha).[dgen d ^+ i] = 0).
Proof.
move=> Hi sh Hp np; set r := dgen d ^+ i.
have fl : size (flatten (ls r)) = (5 * nl)%N.
  have <- : size (ls r) = nl by rewrite size_map (size_lookup_polys shape).
  have : all (fun l => size l == 5%N) (ls r).
    by rewrite all_map lookup_polysE all_map; elim: (zip (as_los A) (as_lzs A)).
  by elim: (ls r) => //= l t IH /andP[/eqP s5 /IH]; rewrite size_cat s5 mulnS => ->.
apply: (@at_most_roots (agg_coefs (size (as_zs A)) (vs r) (ps r) (ls r))).
- apply: (@agg_coefs_neq0 _ _ _ _ _ p.[r]) => //; [exact: perm_sizes|exact: shared_zero|].
  by rewrite -values_cat; apply/mapP; exists p.
- apply: leq_trans (size_agg_coefs _ _ _) _; last by rewrite !size_map fl.
  by case: (perm_sizes r) => [[-> _]|->].
- by move=> alpha; rewrite numerator_at_point aggregateE.
Qed.

(** Size of the numerator. *)
Lemma size_sum_le (I : Type) (s : seq I) (G : I -> {poly F}) K : (forall i, occurs i s -> (size (G i) <= K)%N) ->
  (size (\sum_(i <- s) G i)%R <= K)%N.
Proof.
elim: s => [|i s IH] H; first by rewrite big_nil size_poly0.
rewrite big_cons; apply: leq_trans (size_add _ _) _; rewrite geq_max H /=; last by left.
by apply: IH => j Hj; apply: H; right.
Qed.
Lemma size_compressed_le (a : F) (cs : seq {poly F}) K : (forall c, c \in cs -> (size c <= K)%N) -> (size (compressed a%:P cs) <= K)%N.
Proof.
move=> H; rewrite /compressed; apply: leq_trans (size_sum _ _ _) _; apply/bigmax_leqP => j _.
by rewrite -rmorphX mul_polyC; apply: leq_trans (size_scale_leq _ _) _; apply: H; apply: mem_nth.
Qed.
Lemma size_numerator_le alpha K : (forall p, p \in constraint_polys d pa es beta gamma A -> (size p <= K)%N) ->
  (size (numerator d pa es beta gamma A alpha) <= K)%N.
Proof.
move=> H; rewrite /numerator /aggregate; apply: leq_trans (size_add _ _) _; rewrite geq_max; apply/andP; split.
  apply: size_compressed_le => c Hc; apply: H; rewrite /constraint_polys catA mem_cat Hc //.
rewrite -rmorphX mul_polyC; apply: leq_trans (size_scale_leq _ _) _.
by apply: size_compressed_le => c Hc; apply: H; rewrite /constraint_polys !mem_cat Hc !orbT.
Qed.

(** Divisibility by a product of distinct linear factors. *)
Lemma divides_rows (N : {poly F}) c (R : seq nat) (z : {poly F}) : c != 0 -> uniq R -> (forall i, i \in R -> (i < n)%N) ->
  z = c *: \prod_(i <- R) ('X - (dgen d ^+ i)%:P) -> (forall i, i \in R -> N.[dgen d ^+ i] = 0) ->
  exists2 Q : {poly F}, N = Q * z & (size N = (size Q + size R)%N \/ Q = 0).
Proof.
move=> c0 uR HR -> H0; set rs := [seq dgen d ^+ i | i <- R].
have urs : uniq rs.
  rewrite map_inj_in_uniq // => i j Hi Hj E; apply/eqP; rewrite -(modn_small (HR _ Hi)) -(modn_small (HR _ Hj)).
  by rewrite -element_eq ?(std_domain_ok eok sd) // /element E.
have ar : all (root N) rs by apply/allP => x /mapP [i Hi ->]; apply/eqP; apply: H0.
have ur : uniq_roots rs by rewrite uniq_rootsE.
have [q Eq] := uniq_roots_prod_XsubC ar ur.
rewrite big_map in Eq; exists (c^-1 *: q).
  by rewrite -scalerAl -scalerAr scalerA mulVf // scale1r.
case: (eqVneq q 0) => [->|q0]; [by right; rewrite scaler0|left].
rewrite size_scale ?invr_neq0 // Eq size_mul //; last first.
  by rewrite prodf_seq_neq0; apply/allP => i _; rewrite polyXsubC_eq0.
by rewrite size_prod_XsubC addnS.
Qed.
End Vanish.

Section Extra.
Variables (F : fieldType) (env : fenv F).
Hypothesis eok : fenv_ok env.
Lemma std_domain_dvd (d ext : domain F) : std_domain env d -> std_domain env ext -> (dsize d <= dsize ext)%N -> (dsize d %| dsize ext)%N.
Proof.
move=> sd se; have [a -> _] := std_domain_pow eok sd; have [b -> _] := std_domain_pow eok se.
by rewrite leq_exp2l // => ab; rewrite dvdn_exp2l.
Qed.
Lemma in_map_occurs (A : Type) (B : eqType) (f : A -> B) s y : y \in map f s -> exists2 x, occurs x s & y = f x.
Proof.
elim: s => //= x s IH; rewrite inE => /orP[/eqP ->|/IH [z Hz ->]]; first by exists x => //; left.
by exists z => //; right.
Qed.
Lemma rows_nonzero_on_coset (d ext : domain F) c (rows : seq nat) i : std_domain env d -> std_domain env ext -> (dsize d <= dsize ext)%N ->
  c != 0 -> (c *: \prod_(j <- rows) ('X - (dgen d ^+ j)%:P)).[coset_point env ext i] != 0.
Proof.
move=> sd se le c0; rewrite hornerZ mulf_neq0 // horner_prod prodf_seq_neq0; apply/allP => j _; rewrite hornerXsubC subr_eq0.
apply: contra (coset_not_in eok i sd se le) => /eqP ->.
by rewrite -[_ ^+ j]/(element d j) element_exp // (std_domain_ok eok sd).
Qed.
End Extra.
