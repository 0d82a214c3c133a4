(** Property theorems C26-C34: lookups. The vocabulary is in Spec.v and SpecProtocol.v; the proofs
    are in ProofPermute.v, ProofLookup.v, ProofColumns.v, ProofOpen.v and ProofVerifierCols.v. *)
From mathcomp Require Import all_ssreflect all_algebra zify.
From Coq Require Import String Lia.
From Verif Require Import Base ModelPoly ModelVO ModelOracle ModelPC ModelPermutation ModelLookup
  ModelIndexer ModelMultiproof ModelProtocol Spec SpecProtocol
  ProofBase ProofPoly ProofDomain ProofVO ProofOracle ProofPermutation ProofPermute ProofLookup ProofColumns ProofOpen
  ProofVerifierCols.

Set Implicit Arguments.
Unset Strict Implicit.
Unset Printing Implicit Defensive.

Import GRing.Theory.
Local Open Scope ring_scope.

(** ** C26 *)
Theorem c26_permute_for_lookup (F : fieldType) (env : fenv F) (a s : seq F) :
  fenv_ok env -> size a = size s -> {subset a <= s} ->
  exists a' s', [/\ permute_for_lookup env a s = Ok (a', s'), perm_eq a' a, perm_eq s' s,
    (0 < size a)%N -> a'`_0 = s'`_0 &
    forall i, (0 < i < size a)%N -> a'`_i = a'`_i.-1 \/ a'`_i = s'`_i].
Proof.
move=> eok ss sub; have [s' [E P H]] := permute_ok eok ss sub.
exists (sort (fle env) a), s'; split=> //; first by rewrite perm_sort.
  by move=> s0; case: (H 0%N s0) => // -[].
by move=> i /andP[i0 Hi]; case: (H i Hi) => [->|[_ ->]]; [right|left].
Qed.
Print Assumptions c26_permute_for_lookup.

(** ** C27 *)
(** The function either succeeds or panics; it panics exactly when the lengths differ (the first
    assertion) or a value is missing from the table (the explicit panic). No other panic (underflow,
    unwrap, final assertion) is possible. *)
Theorem c27_permute_panics_iff (F : fieldType) (env : fenv F) (a s : seq F) : fenv_ok env ->
  let good := (size a == size s) && all (mem s) a in
  (good -> exists r, permute_for_lookup env a s = Ok r) /\
  (~~ good -> permute_for_lookup env a s = Panic (if size a == size s then PExplicit else PAssert)).
Proof.
move=> eok good; split=> [/andP[/eqP ss sub]|]; last exact: permute_panicE.
have [|s' [E _ _]] := permute_ok eok ss; last by eexists; exact: E.
by move=> x /(allP sub).
Qed.
Print Assumptions c27_permute_panics_iff.

(** ** C28 *)
(** Columns, polynomials and extended evaluations are consistent ([well_formed]); the expressions and
    table queries resolve; every usable row of the compressed expressions occurs among the usable
    rows of the compressed table; the compressed expression has degree below [n]. Then the lookup
    round succeeds, and for all beta, gamma without a vanishing denominator the second round
    succeeds, and all lookup constraints hold on all [n] rows, whatever the blinding randomness. *)
Theorem c28_lookup_completeness (F : fieldType) (env : fenv F) (Z : Type) (zk_rand : Z -> F * Z)
    (d ext : domain F) (ws ins fs ts : seq (poracle F)) (u k : nat) (es : seq (expr F oquery))
    (tqs : seq oquery) (theta : F) (zk : Z) :
  fenv_ok env -> std_domain env d -> std_domain env ext -> (dsize d <= dsize ext)%N ->
  well_formed env d ext ws -> well_formed env d ext ins -> well_formed env d ext fs -> well_formed env d ext ts ->
  exprs_ok ws ins fs (dsize d) es -> table_queries_ok ts tqs -> size es = size tqs ->
  (0 < u < dsize d)%N -> (size (lookup_poly ws ins fs (dgen d) es theta) <= dsize d)%N ->
  let a := lookup_row ws ins fs (dsize d) es theta in let s := table_row ts tqs theta in
  (forall i, (i < u)%N -> exists2 j, (j < u)%N & a i = s j) ->
  exists lo zk1, construct_a_and_s_polys_prover env zk_rand ws ins fs ts u k es tqs theta d ext zk = Ok (lo, zk1) /\
    let a' i := (po_evals (lo_a' lo))`_i in let s' i := (po_evals (lo_s' lo))`_i in
    [/\ interpolates d (lo_a' lo), interpolates d (lo_s' lo) &
     forall beta gamma zk2, (forall i, (i < u)%N -> (a' i + beta) * (s' i + gamma) != 0) ->
     exists z zk3, [/\ se_construct_agg_poly env zk_rand lo beta gamma k u d ext zk2 = Ok (z, zk3),
       interpolates d z & lookup_rows_hold (dsize d) u beta gamma a s a' s' (fun i => (po_evals z)`_i)]].
Proof.
move=> eok sd se le wfw wfi wff wft He Ht ss /andP[u0 un] sA a s sub.
have sA' := leq_trans sA le.
have [lo [zk1 E]] := construct_columns_ok eok sd se le wfw wfi wff wft zk_rand k He Ht sA' zk ss (ltnW un) sA sub.
exists lo, zk1; split=> // a' s'.
have [lc _ _ _] := construct_columns_inv eok sd se le wfw wfi wff wft He Ht sA' E.
have [[_ _ i3 i4] _ _ _ _] := lc; split=> // beta gamma zk2 nz.
have [z [zk3 Ez]] := subset_ok eok zk_rand k un u0 lc zk2 nz.
have [iz _ _ Hz] := subset_rows eok un u0 lc Ez.
by exists z, zk3.
Qed.
Print Assumptions c28_lookup_completeness.

(** Whenever both rounds return, the constraints hold, without assuming anything about the rows. *)
Theorem c28_constructed_rows_hold (F : fieldType) (env : fenv F) (Z : Type) (zk_rand : Z -> F * Z)
    (d ext : domain F) (ws ins fs ts : seq (poracle F)) (u k : nat) (es : seq (expr F oquery))
    (tqs : seq oquery) (theta beta gamma : F) (zk zk1 zk2 zk3 : Z) lo z :
  fenv_ok env -> std_domain env d -> std_domain env ext -> (dsize d <= dsize ext)%N ->
  well_formed env d ext ws -> well_formed env d ext ins -> well_formed env d ext fs -> well_formed env d ext ts ->
  exprs_ok ws ins fs (dsize d) es -> table_queries_ok ts tqs ->
  (0 < u < dsize d)%N -> (size (lookup_poly ws ins fs (dgen d) es theta) <= dsize ext)%N ->
  construct_a_and_s_polys_prover env zk_rand ws ins fs ts u k es tqs theta d ext zk = Ok (lo, zk1) ->
  se_construct_agg_poly env zk_rand lo beta gamma k u d ext zk2 = Ok (z, zk3) ->
  lookup_rows_hold (dsize d) u beta gamma (lookup_row ws ins fs (dsize d) es theta) (table_row ts tqs theta)
    (fun i => (po_evals (lo_a' lo))`_i) (fun i => (po_evals (lo_s' lo))`_i) (fun i => (po_evals z)`_i).
Proof.
move=> eok sd se le wfw wfi wff wft He Ht /andP[u0 un] sA E Ez.
have [lc _ _ _] := construct_columns_inv eok sd se le wfw wfi wff wft He Ht sA E.
by have [] := subset_rows eok un u0 lc Ez.
Qed.
Print Assumptions c28_constructed_rows_hold.

(** ** C29 *)
(** [a], [s] are the compressed expression and table on each row; row [bad] is not in the table.
    Whatever permuted columns [a'], [s'] are committed to: except for at most [2u] values of beta
    there are at most [2u] values of gamma for which any grand product column [z] whatsoever makes
    all constraints hold. *)
Theorem c29_lookup_soundness (F : fieldType) (n u : nat) (a s a' s' : nat -> F) (bad : nat) :
  (u < n)%N -> (bad < u)%N -> (forall j, (j < u)%N -> a bad <> s j) ->
  at_most (2 * u) (fun beta : F => ~ at_most (2 * u)
    (fun gamma => exists z, lookup_rows_hold n u beta gamma a s a' s' z)).
Proof. exact: lookup_sound. Qed.
Print Assumptions c29_lookup_soundness.

(** ** C30 *)
(** Refutation. An index built with [PermutationInfo::dummy()] (or [empty()]) puts the "last row"
    selector of the lookup argument on row 0. Then for arbitrary columns [a], [s] - no row of [a]
    need be in the table - a cheating prover commits to the constant columns a' = s' = c, and the
    grand product [z] makes every constraint vanish on every row. *)
Theorem c30_dummy_permutation_refuted (F : fieldType) (env : fenv F) (PW PI PF : Type) (permute : PW -> bool)
    vos lookups (ws : seq (oracle PW)) (ins : seq (oracle PI)) (fs : seq (oracle PF))
    (d : domain F) z_h (usable_rows : nat) vk :
  ModelIndexer.index env permute vos lookups ws ins fs d z_h (permutation_info_dummy F) usable_rows = Ok vk ->
  (usable_rows.+1 < dsize d)%N ->
  forall (a s : nat -> F) (beta gamma c : F), c + beta != 0 -> c + gamma != 0 ->
  exists z, lookup_rows_with (dsize d) (pa_usable_rows (ix_perm (vk_index vk))) (ix_usable_rows (vk_index vk))
              beta gamma a s (fun _ => c) (fun _ => c) z.
Proof.
rewrite /ModelIndexer.index => H un a s beta gamma c cb cg.
have [qd _ {}H] := rbind_ok H; have [e0 _ {}H] := rbind_ok H; case: ifP H => // _ H.
have [s0 _ {}H] := rbind_ok H; have [pa Hpa {}H] := rbind_ok H; have [e1 _ {}H] := rbind_ok H.
have [zh _ [<-]] := rbind_ok H; have [mc _ [<-]] := rbind_ok Hpa.
by apply: forged_rows.
Qed.
Print Assumptions c30_dummy_permutation_refuted.
(** What does hold: when the permutation info carries the same number of usable rows as the index
    (its deltas are irrelevant, there may be no copy constraints), membership is enforced. *)
Theorem c30_matching_usable_rows_partial (F : fieldType) (env : fenv F) (PW PI PF : Type) (permute : PW -> bool)
    vos lookups (ws : seq (oracle PW)) (ins : seq (oracle PI)) (fs : seq (oracle PF))
    (d : domain F) z_h info (usable_rows : nat) vk (a s a' s' : nat -> F) (bad : nat) :
  ModelIndexer.index env permute vos lookups ws ins fs d z_h info usable_rows = Ok vk ->
  pi_u info = usable_rows -> (usable_rows < dsize d)%N ->
  (bad < usable_rows)%N -> (forall j, (j < usable_rows)%N -> a bad <> s j) ->
  at_most (2 * usable_rows) (fun beta : F => ~ at_most (2 * usable_rows) (fun gamma => exists z,
    lookup_rows_with (dsize d) (pa_usable_rows (ix_perm (vk_index vk))) (ix_usable_rows (vk_index vk)) beta gamma a s a' s' z)).
Proof.
rewrite /ModelIndexer.index => H iu un bu viol.
have [qd _ {}H] := rbind_ok H; have [e0 _ {}H] := rbind_ok H; case: ifP H => // _ H.
have [s0 _ {}H] := rbind_ok H; have [pa Hpa {}H] := rbind_ok H; have [e1 _ {}H] := rbind_ok H.
have [zh _ [<-]] := rbind_ok H; have [mc _ [<-]] := rbind_ok Hpa; rewrite /= iu.
exact: lookup_sound un bu viol.
Qed.
Print Assumptions c30_matching_usable_rows_partial.

(** ** C31 *)
(** Row [i]'s tuple of expression values differs from each of the [u] table tuples. Then at most
    [u * (k - 1)] values of theta ([k] the number of columns) make its compression equal to a
    compressed table row. *)
Theorem c31_theta_separates (F : fieldType) (ws ins fs ts : seq (poracle F)) (n u : nat)
    (es : seq (expr F oquery)) (tqs : seq oquery) (i : nat) :
  size es = size tqs ->
  (forall j, (j < u)%N -> [seq meaning (row_value ws ins fs n i) e | e <- es]
                          <> [seq (column_named ts (oq_label q))`_j | q <- tqs]) ->
  at_most (u * (size es).-1)
    (fun theta => exists2 j, (j < u)%N & lookup_row ws ins fs n es theta i = table_row ts tqs theta j).
Proof.
move=> ss H; pose rows := [seq [seq (column_named ts (oq_label q))`_j | q <- tqs] | j <- iota 0 u].
have := @theta_separates F (size es) [seq meaning (row_value ws ins fs n i) e | e <- es] rows.
rewrite !size_map size_iota => /(_ erefl) S; move=> rs ur Hr; apply: S ur _.
  move=> r /mapP[j]; rewrite mem_iota add0n /= => Hj ->; rewrite size_map ss; split=> // E; exact: (H j Hj).
move=> theta /Hr[j Hj E]; exists [seq (column_named ts (oq_label q))`_j | q <- tqs]; last exact: E.
by apply/mapP; exists j; rewrite ?mem_iota.
Qed.
Print Assumptions c31_theta_separates.

(** ** C32 *)
(** The exact value the verifier computes: the rotation of fixed and instance queries is dropped. *)
Theorem c32_verifier_columns (F : fieldType) (C : Type) (d : domain F) (xi theta : F)
    (ws ins fs ts : seq (poracle F)) (vws vfs vts : seq (voracle F C)) (vins : seq (ioracle F))
    (k : nat) (es : seq (expr F oquery)) (tqs : seq oquery) :
  domain_ok d -> let w := dgen d in
  truthful w xi vws ws -> truthful w xi vfs fs -> truthful w xi vts ts -> same_instances vins ins ->
  uniq (map (@o_label _) ws) -> uniq (map (@o_label _) ins) -> uniq (map (@o_label _) fs) -> uniq (map (@o_label _) ts) ->
  size es = size tqs -> exprs_ok ws ins fs (dsize d) es ->
  (forall e q, occurs e es -> occurs q (leaves e) -> declared ws fs (unrotated q)) ->
  table_queries_ok ts tqs -> tables_declared ts tqs ->
  exists a s, [/\ construct_a_and_s_verifier vws vins vfs vts k es tqs theta xi (elements d) = Ok (a, s),
    vo_query a xi = Ok (compressed theta [seq meaning (fun q => point_value ws ins fs w xi (unrotated q)) e | e <- es]) &
    vo_query s xi = Ok (table_point ts tqs theta xi)].
Proof.
move=> dok w tw tf tt ti uw ui uf ut ss He Hd Ht Hdt.
exact: (verifier_columns_ok dok tw tf ti uw ui uf tt ut).
Qed.
Print Assumptions c32_verifier_columns.
(** So prover and verifier agree when fixed and instance queries in lookup expressions are
    unrotated: both columns of the verifier answer with the prover's polynomials at xi. *)
Theorem c32_same_columns_partial (F : fieldType) (env : fenv F) (C Z : Type) (zk_rand : Z -> F * Z)
    (d ext : domain F) (xi theta : F) (u : nat)
    (ws ins fs ts : seq (poracle F)) (vws vfs vts : seq (voracle F C)) (vins : seq (ioracle F))
    (k : nat) (es : seq (expr F oquery)) (tqs : seq oquery) (zk zk1 : Z) lo :
  fenv_ok env -> std_domain env d -> std_domain env ext -> (dsize d <= dsize ext)%N ->
  well_formed env d ext ws -> well_formed env d ext ins -> well_formed env d ext fs -> well_formed env d ext ts ->
  truthful (dgen d) xi vws ws -> truthful (dgen d) xi vfs fs -> truthful (dgen d) xi vts ts -> same_instances vins ins ->
  exprs_ok ws ins fs (dsize d) es -> exprs_declared ws fs es ->
  table_queries_ok ts tqs -> tables_declared ts tqs ->
  (forall e q, occurs e es -> occurs q (leaves e) -> oq_type q <> Witness -> oq_rot q = curr) ->
  (size (lookup_poly ws ins fs (dgen d) es theta) <= dsize ext)%N ->
  construct_a_and_s_polys_prover env zk_rand ws ins fs ts u k es tqs theta d ext zk = Ok (lo, zk1) ->
  exists a s, [/\ construct_a_and_s_verifier vws vins vfs vts k es tqs theta xi (elements d) = Ok (a, s),
    answers xi a (lo_a lo) & answers xi s (lo_s lo)].
Proof.
move=> eok sd se le wfw wfi wff wft tw tf tt ti He Hd Ht Hdt Hc sA E.
have [lc _ _ ss] := construct_columns_inv eok sd se le wfw wfi wff wft He Ht sA E.
have [a [s [Ev Ea Es]]] := verifier_columns_eq (std_domain_ok eok sd) tw tf ti wfw.1 wfi.1 wff.1 tt wft.1 k theta ss He Hd Hc Ht Hdt.
exists a, s; have [_ _ _ [[pa ps] _] _] := lc.
split=> //; first by rewrite /answers Ea pevalE pa.
rewrite /answers Es pevalE ps compressed_horner -map_comp; congr (Ok (compressed _ _)).
by apply: eq_map => q /=; rewrite pevalE.
Qed.
Print Assumptions c32_same_columns_partial.

(** ** C33 *)
(** Refutation: whenever the compressed expression has degree at least [n] (and is represented
    faithfully on the extended domain) the prover panics, even if every row is in the table. *)
Theorem c33_high_degree_panics_refuted (F : fieldType) (env : fenv F) (Z : Type) (zk_rand : Z -> F * Z)
    (d ext : domain F) (ws ins fs ts : seq (poracle F)) (u k : nat) (es : seq (expr F oquery))
    (tqs : seq oquery) (theta : F) (zk : Z) :
  fenv_ok env -> std_domain env d -> std_domain env ext -> (dsize d <= dsize ext)%N ->
  well_formed env d ext ws -> well_formed env d ext ins -> well_formed env d ext fs -> well_formed env d ext ts ->
  exprs_ok ws ins fs (dsize d) es -> table_queries_ok ts tqs -> size es = size tqs ->
  (dsize d < size (lookup_poly ws ins fs (dgen d) es theta) <= dsize ext)%N ->
  construct_a_and_s_polys_prover env zk_rand ws ins fs ts u k es tqs theta d ext zk = Panic PAssert.
Proof.
move=> eok sd se le wfw wfi wff wft He Ht ss /andP[lt sA].
exact: (construct_columns_assert eok sd se le wfw wfi wff wft).
Qed.
Print Assumptions c33_high_degree_panics_refuted.
(** What does hold: linear expressions are supported. *)
Theorem c33_linear_expressions_partial (F : fieldType) (env : fenv F) (Z : Type) (zk_rand : Z -> F * Z)
    (d ext : domain F) (ws ins fs ts : seq (poracle F)) (u k : nat) (es : seq (expr F oquery))
    (tqs : seq oquery) (theta : F) (zk : Z) :
  fenv_ok env -> std_domain env d -> std_domain env ext -> (dsize d <= dsize ext)%N ->
  well_formed env d ext ws -> well_formed env d ext ins -> well_formed env d ext fs -> well_formed env d ext ts ->
  exprs_ok ws ins fs (dsize d) es -> table_queries_ok ts tqs -> size es = size tqs -> (u <= dsize d)%N ->
  (forall e, occurs e es -> (expr_degree 1 e <= 1)%N) ->
  (forall i, (i < u)%N -> exists2 j, (j < u)%N & lookup_row ws ins fs (dsize d) es theta i = table_row ts tqs theta j) ->
  exists lo zk1, construct_a_and_s_polys_prover env zk_rand ws ins fs ts u k es tqs theta d ext zk = Ok (lo, zk1).
Proof.
move=> eok sd se le wfw wfi wff wft He Ht ss un lin sub.
have n0 := dsize_gt0 (std_domain_ok eok sd).
have sA := size_lookup_poly_linear n0 wfw wfi wff (dgen d) theta He lin.
exact: (construct_columns_ok eok sd se le wfw wfi wff wft zk_rand k He Ht (leq_trans sA le) zk ss un sA sub).
Qed.
Print Assumptions c33_linear_expressions_partial.

(** ** C34 *)
(** Both formulas of the permutation argument are the value of one polynomial [perm_identity]: the
    prover's at the coset point of index [i], the verifier's at any point [x] where its oracles
    answer with the prover's polynomials. At [x] the coset point they are equal. *)
Theorem c34_permutation_same_identity (F : fieldType) (env : fenv F) (C : Type) (d ext : domain F)
    (pa : permutation_argument F) (l0 lu : lpoly F) (qb : poracle F) (ws sigmas zs : seq (poracle F))
    (vqb : voracle F C) (vws vsigmas vzs : seq (voracle F C)) (i : nat) (beta gamma : F) (alphas : seq F) :
  let x := coset_point env ext i in let u := pa_usable_rows pa in let m := pa_max_cols pa in
  let pp o := Poly (po_poly o) : {poly F} in
  fenv_ok env -> std_domain env d -> std_domain env ext -> (dsize d <= dsize ext)%N -> (i < dsize ext)%N ->
  (u < dsize d)%N -> (1 < dsize d)%N -> (size l0 <= dsize ext)%N -> (size lu <= dsize ext)%N ->
  (forall o, occurs o (qb :: ws ++ sigmas ++ zs) -> interpolates d o /\ compute_extended_evals env ext o = o) ->
  answers x vqb qb -> all_answer x vws ws -> all_answer x vsigmas sigmas -> all_answer x vzs zs ->
  all_answer (dgen d * x) vzs zs ->
  (forall k v p, (k.+1 < size zs)%N -> idx vzs k = Ok v -> idx zs k = Ok p -> answers (dgen d ^+ u * x) v p) ->
  (0 < m)%N -> (0 < size ws)%N -> size sigmas = size ws -> size (pa_deltas pa) = size ws ->
  size zs = size (chunks m ws) -> size alphas = (2 * size zs + 1)%N ->
  let id := perm_identity (dgen d) u m (pa_deltas pa) (Poly l0) (Poly lu) (pp qb) beta gamma
              (map pp ws) (map pp sigmas) (map pp zs) alphas in
  perm_instantiate env pa (coset_fft env ext l0) (coset_fft env ext lu) qb ws sigmas zs i (element ext i) beta gamma alphas
    = Ok id.[x] /\
  perm_open pa (peval l0 x) (peval lu x) vqb vzs vsigmas vws beta gamma d x alphas = Ok id.[x].
Proof.
move=> x u m pp' eok sd se le Hi un n1 s0 su rdy aq aw asg az azn azu m0 w0 ss sdl sz sal id; split.
  apply: perm_instantiate_poly => //.
  - by apply: rdy; left.
  - by move=> o Ho; apply: rdy; right; apply/occurs_cat; left.
  - by move=> o Ho; apply: rdy; right; apply/occurs_cat; right; apply/occurs_cat; left.
  - by move=> o Ho; apply: rdy; right; apply/occurs_cat; right; apply/occurs_cat; right.
exact: perm_open_poly.
Qed.
Print Assumptions c34_permutation_same_identity.

Theorem c34_lookup_same_identity (F : fieldType) (env : fenv F) (C : Type) (d ext : domain F)
    (l0 lu : lpoly F) (qb : poracle F) (lo : lookup_oracles (poracle F)) (z : poracle F)
    (vqb : voracle F C) (vlo : lookup_oracles (voracle F C)) (vz : voracle F C) (i : nat) (beta gamma : F) (alphas : seq F) :
  let x := coset_point env ext i in let w := dgen d in
  let pp o := Poly (po_poly o) : {poly F} in
  fenv_ok env -> std_domain env d -> std_domain env ext -> (dsize d <= dsize ext)%N -> (i < dsize ext)%N ->
  (1 < dsize d)%N -> (size l0 <= dsize ext)%N -> (size lu <= dsize ext)%N -> size alphas = 5%N ->
  (forall o, occurs o [:: qb; lo_a lo; lo_s lo; lo_a' lo; lo_s' lo; z] ->
     interpolates d o /\ compute_extended_evals env ext o = o) ->
  answers x vqb qb -> answers x (lo_a vlo) (lo_a lo) -> answers x (lo_s vlo) (lo_s lo) ->
  answers x (lo_a' vlo) (lo_a' lo) -> answers (w^-1 * x) (lo_a' vlo) (lo_a' lo) -> answers x (lo_s' vlo) (lo_s' lo) ->
  answers x vz z -> answers (w * x) vz z ->
  let id := lookup_identity w (Poly l0) (Poly lu) (pp qb) beta gamma (pp (lo_a lo)) (pp (lo_s lo)) (pp (lo_a' lo))
              (pp (lo_s' lo)) (pp z) alphas in
  lookup_instantiate (coset_fft env ext l0) (coset_fft env ext lu) qb lo z beta gamma i alphas = Ok id.[x] /\
  lookup_open (peval l0 x) (peval lu x) vqb vlo vz beta gamma x d alphas = Ok id.[x].
Proof.
move=> x w pp' eok sd se le Hi n1 s0 su s5 rdy h1 h2 h3 h4 h5 h6 h7 h8 id; split.
  apply: lookup_instantiate_poly => //; apply: rdy => /=; tauto.
exact: (lookup_open_poly eok sd).
Qed.
Print Assumptions c34_lookup_same_identity.

(** ** Non-vacuity *)
From Coq Require Import NArith.
From Verif Require Import ModelGates Field97 Concrete ProofConcrete ProofIndexerExamples ProofTools.
Local Close Scope ring_scope.

Example ex_c26 : let a := col [:: 5; 2; 2; 9]%nat in let s := col [:: 2; 9; 5; 7]%nat in
  [/\ fenv_ok env97, size a = size s, {subset a <= s} &
      permute_for_lookup env97 a s = Ok (col [:: 2; 2; 5; 9]%nat, col [:: 2; 7; 5; 9]%nat)].
Proof.
split; [exact: env97_ok|by []| |by apply: ok_isP; vm_compute].
by apply/allP; vm_compute.
Qed.
Example ex_c27 : ~~ ((size (col [:: 5; 2]%nat) == size (col [:: 2; 2]%nat)) && all (mem (col [:: 2; 2]%nat)) (col [:: 5; 2]%nat)).
Proof. by vm_compute. Qed.

(** A two-column lookup on four rows, two of them usable: (a, f) in (t, t2). *)
Definition lx_ws := [:: xorc Witness 4 16 "a"%string [:: curr] (col [:: 2; 3; 7; 9]%nat) false].
Definition lx_fs := [:: xorc Fixed 4 16 "f"%string [:: curr; next] (col [:: 1; 1; 5; 8]%nat) false].
Definition lx_ts := [:: xorc Fixed 4 16 "t"%string [:: curr] (col [:: 3; 2; 5; 6]%nat) false;
                        xorc Fixed 4 16 "t2"%string [:: curr] (col [:: 1; 1; 4; 4]%nat) false].
Definition lx_ins : seq (poracle f97_fieldType) := [::].
Definition lx_a : expr f97_fieldType oquery := Orc (OQuery "a"%string curr Witness).
Definition lx_f : expr f97_fieldType oquery := Orc (OQuery "f"%string curr Fixed).
Definition lx_t1 := OQuery "t"%string curr Fixed.
Definition lx_t2 := OQuery "t2"%string curr Fixed.

Lemma lx_wf : [/\ well_formed env97 (dom97 4) (dom97 16) lx_ws, well_formed env97 (dom97 4) (dom97 16) lx_ins,
  well_formed env97 (dom97 4) (dom97 16) lx_fs & well_formed env97 (dom97 4) (dom97 16) lx_ts].
Proof.
split; (split; first by []) => o.
- by case=> [->|[]]; apply: xorc_ok; vm_compute.
- by case.
- by case=> [->|[]]; apply: xorc_ok; vm_compute.
- by case=> [->|[->|[]]]; apply: xorc_ok; vm_compute.
Qed.
Lemma lx_dom : [/\ fenv_ok env97, std_domain env97 (dom97 4), std_domain env97 (dom97 16) &
  dsize (dom97 4) = 4 /\ dsize (dom97 16) = 16].
Proof. by split; [exact: env97_ok|exact: dom97_4|exact: dom97_16|split; apply/eqP; vm_compute]. Qed.
Lemma lx_exprs : exprs_ok lx_ws lx_ins lx_fs (dsize (dom97 4)) [:: lx_a; lx_f].
Proof. by move=> e q [->|[->|[]]] [->|[]]; vm_compute. Qed.
Lemma lx_tables : table_queries_ok lx_ts [:: lx_t1; lx_t2].
Proof. by move=> q [->|[->|[]]]. Qed.

Example ex_c28 : let theta := n97 5 in
  [/\ exprs_ok lx_ws lx_ins lx_fs (dsize (dom97 4)) [:: lx_a; lx_f], table_queries_ok lx_ts [:: lx_t1; lx_t2],
      0 < 2 < dsize (dom97 4),
      size (lookup_poly lx_ws lx_ins lx_fs (dgen (dom97 4)) [:: lx_a; lx_f] theta) <= dsize (dom97 4) &
      forall i, i < 2 -> exists2 j, j < 2 & lookup_row lx_ws lx_ins lx_fs (dsize (dom97 4)) [:: lx_a; lx_f] theta i
                                         = table_row lx_ts [:: lx_t1; lx_t2] theta j].
Proof.
have [_ _ _ [-> _]] := lx_dom; have [w1 w2 w3 _] := lx_wf.
split; [exact: lx_exprs|exact: lx_tables|by []| |].
- apply: (@size_lookup_poly_linear _ env97 (dom97 4) (dom97 16)) => //.
  + exact: lx_exprs.
  + by move=> e [->|[->|[]]].
- case=> [|[|]] // _; [exists 1 => //|exists 0 => //]; rewrite lookup_row2 table_row2; apply/eqP; by vm_compute.
Qed.
(** The denominators do not vanish for the columns the prover builds. *)
Definition lx_lo := ok_or (LookupOracles (xorc Witness 4 16 "a"%string [:: curr] [::] false) (xorc Witness 4 16 "a"%string [:: curr] [::] false)
    (xorc Witness 4 16 "a"%string [:: curr] [::] false) (xorc Witness 4 16 "a"%string [:: curr] [::] false), 0%num)
  (construct_a_and_s_polys_prover env97 lcg_rand lx_ws lx_ins lx_fs lx_ts 2 0 [:: lx_a; lx_f] [:: lx_t1; lx_t2]
     (n97 5) (dom97 4) (dom97 16) 11%num).
Example ex_c28_denominators : all (fun i => ((nth 0 (po_evals (lo_a' lx_lo.1)) i + n97 3) * (nth 0 (po_evals (lo_s' lx_lo.1)) i + n97 4) != 0)%R) (iota 0 2).
Proof. by vm_compute. Qed.

Example ex_c29 : let a i := nth 0%R (col [:: 2; 4]%nat) i in let s i := nth 0%R (col [:: 3; 2]%nat) i in
  2 < 4 /\ 1 < 2 /\ forall j, j < 2 -> a 1 <> s j.
Proof. by split=> //; split=> //; case=> [|[|]] // _; apply/eqP; vm_compute. Qed.

(** An index with a lookup, built with the dummy permutation info. *)
Definition lx_gl : generic_lookup_vo f97_fieldType := gl_init ([:: Orc (wq 0 curr)], [:: wq 0 curr], [:: fq 0 curr]).
Example ex_c30 : ok_any (ModelIndexer.index env97 (fun o : pdata f97_fieldType => pd_permute o) [:: pow4_conf.1] [:: lx_gl]
   pow4_conf.2.1.1 ([::] : seq (poracle f97_fieldType)) ([::] : seq (poracle f97_fieldType)) (dom97 4)
   (vanishing_dense (dom97 4)) (permutation_info_dummy f97_fieldType) 2) /\ 3 < dsize (dom97 4).
Proof. by split; vm_compute. Qed.
Example ex_c30_matching : ok_any (ModelIndexer.index env97 (fun o : pdata f97_fieldType => pd_permute o) [:: pow4_conf.1] [:: lx_gl]
   pow4_conf.2.1.1 ([::] : seq (poracle f97_fieldType)) ([::] : seq (poracle f97_fieldType)) (dom97 4)
   (vanishing_dense (dom97 4)) (PermutationInfo 2 ([::] : seq f97_fieldType)) 2).
Proof. by vm_compute. Qed.

(** Row 2 of (a, f) is not in the table. *)
Example ex_c31 : forall j, j < 2 ->
  [seq meaning (row_value lx_ws lx_ins lx_fs 4 2) e | e <- [:: lx_a; lx_f]]
  <> [seq nth 0%R (column_named lx_ts (oq_label q)) j | q <- [:: lx_t1; lx_t2]].
Proof. by case=> [|[|]] // _; apply/eqP; vm_compute. Qed.

Example ex_c32 : let xi := n97 20 in let w := dgen (dom97 4) in let cp := map (vcopy (dom97 4) xi (@None nat)) in
  [/\ truthful w xi (cp lx_ws) lx_ws, truthful w xi (cp lx_fs) lx_fs, truthful w xi (cp lx_ts) lx_ts,
      same_instances ([::] : seq (ioracle f97_fieldType)) lx_ins &
  [/\ exprs_declared lx_ws lx_fs [:: lx_a; lx_f], tables_declared lx_ts [:: lx_t1; lx_t2] &
      forall e q, occurs e [:: lx_a; lx_f] -> occurs q (leaves e) -> oq_type q <> Witness -> oq_rot q = curr]].
Proof.
split; [exact: vcopy_truthful|exact: vcopy_truthful|exact: vcopy_truthful|by []|split].
- by move=> e q [->|[->|[]]] [->|[]].
- by move=> q [->|[->|[]]].
- by move=> e q [->|[->|[]]] [->|[]].
Qed.

(** Refutation of C32 in general: the fixed column "f" is queried at the next row. Everything is
    well formed, both sides succeed, but the verifier's value is not the prover's polynomial at xi. *)
Definition lx_fn : expr f97_fieldType oquery := Orc (OQuery "f"%string next Fixed).
Definition lx_ts3 := [:: xorc Fixed 4 16 "t"%string [:: curr] (col [:: 5; 1; 5; 6]%nat) false].
Definition lx_run := ok_or lx_lo
  (construct_a_and_s_polys_prover env97 lcg_rand lx_ws lx_ins lx_fs lx_ts3 2 0 [:: lx_fn] [:: lx_t1]
     (n97 5) (dom97 4) (dom97 16) 11%num).
Definition lx_vcp (os : seq (poracle f97_fieldType)) := map (vcopy (dom97 4) (n97 20) (@None nat)) os.
Definition lx_vdef := vo_new f97_fieldType Witness ""%string (@None nat) false.
Definition lx_ver := ok_or (lx_vdef, lx_vdef)
  (construct_a_and_s_verifier (lx_vcp lx_ws) ([::] : seq (ioracle f97_fieldType)) (lx_vcp lx_fs) (lx_vcp lx_ts3) 0 [:: lx_fn] [:: lx_t1]
     (n97 5) (n97 20) (elements (dom97 4))).
Lemma lx_verE : construct_a_and_s_verifier (lx_vcp lx_ws) ([::] : seq (ioracle f97_fieldType)) (lx_vcp lx_fs) (lx_vcp lx_ts3) 0 [:: lx_fn] [:: lx_t1]
     (n97 5) (n97 20) (elements (dom97 4)) = Ok lx_ver.
Proof. by apply: ok_anyP; vm_compute. Qed.
Lemma lx_verN : ~~ ok_is (vo_query lx_ver.1 (n97 20)) (peval (po_poly (lo_a lx_run.1)) (n97 20)).
Proof. by vm_compute. Qed.
Theorem c32_rotated_fixed_query_refuted : let xi := n97 20 in let w := dgen (dom97 4) in
  let cp := map (vcopy (dom97 4) xi (@None nat)) in let es := [:: lx_fn] in let tqs := [:: lx_t1] in
  [/\ [/\ fenv_ok env97, std_domain env97 (dom97 4), std_domain env97 (dom97 16) & dsize (dom97 4) <= dsize (dom97 16)],
      [/\ well_formed env97 (dom97 4) (dom97 16) lx_ws, well_formed env97 (dom97 4) (dom97 16) lx_ins,
          well_formed env97 (dom97 4) (dom97 16) lx_fs & well_formed env97 (dom97 4) (dom97 16) lx_ts3],
      [/\ truthful w xi (cp lx_ws) lx_ws, truthful w xi (cp lx_fs) lx_fs, truthful w xi (cp lx_ts3) lx_ts3,
          exprs_ok lx_ws lx_ins lx_fs (dsize (dom97 4)) es & exprs_declared lx_ws lx_fs es],
      construct_a_and_s_polys_prover env97 lcg_rand lx_ws lx_ins lx_fs lx_ts3 2 0 es tqs (n97 5) (dom97 4) (dom97 16) 11%num
        = Ok lx_run &
      exists a s, construct_a_and_s_verifier (cp lx_ws) ([::] : seq (ioracle f97_fieldType)) (cp lx_fs) (cp lx_ts3) 0 es tqs
         (n97 5) xi (elements (dom97 4)) = Ok (a, s) /\ ~ answers xi a (lo_a lx_run.1)].
Proof.
have [e1 e2 e3 [d1 d2]] := lx_dom; have [w1 w2 w3 _] := lx_wf.
split.
- by split=> //; rewrite d1 d2.
- split; [exact: w1|exact: w2|exact: w3|]; split; first by []. by move=> o [->|[]]; apply: xorc_ok; vm_compute.
- split; [exact: vcopy_truthful|exact: vcopy_truthful|exact: vcopy_truthful| |].
  + by move=> e q [->|[]] [->|[]]; vm_compute.
  + by move=> e q [->|[]] [->|[]]; vm_compute.
- by apply: ok_anyP; vm_compute.
- exists lx_ver.1, lx_ver.2; split; first by rewrite -surjective_pairing; exact: lx_verE.
  by move=> H; have := lx_verN; rewrite H /ok_is eqxx.
Qed.
Print Assumptions c32_rotated_fixed_query_refuted.

(** Squaring a witness cell: every row is in the table, yet the prover panics. *)
Definition lx_sq : expr f97_fieldType oquery := Prod lx_a lx_a.
Definition lx_ts4 := [:: xorc Fixed 4 16 "t"%string [:: curr] (col [:: 4; 9; 49; 81]%nat) false].
Example ex_c33 : [/\ forall i, i < 2 -> exists2 j, j < 2 &
    lookup_row lx_ws lx_ins lx_fs (dsize (dom97 4)) [:: lx_sq] (n97 5) i = table_row lx_ts4 [:: lx_t1] (n97 5) j,
  exprs_ok lx_ws lx_ins lx_fs (dsize (dom97 4)) [:: lx_sq], table_queries_ok lx_ts4 [:: lx_t1] &
  construct_a_and_s_polys_prover env97 lcg_rand lx_ws lx_ins lx_fs lx_ts4 2 0 [:: lx_sq] [:: lx_t1]
    (n97 5) (dom97 4) (dom97 16) 11%num = Panic PAssert].
Proof.
split.
- case=> [|[|]] // _; [exists 0 => //|exists 1 => //]; rewrite lookup_row1 table_row1; apply/eqP; by vm_compute.
- by move=> e q [->|[]] [->|[->|[]]]; vm_compute.
- by move=> q [->|[]].
- by apply: panicsP; vm_compute.
Qed.
Example ex_c33_linear : forall e, occurs e [:: lx_a; lx_f] -> expr_degree 1 e <= 1.
Proof. by move=> e [->|[->|[]]]. Qed.
