(** C24, C25, C28, C29, C31 on the formulas the verifier evaluates ([open_argument] of the permutation and
    lookup arguments), read on the rows of the table. *)
From mathcomp Require Import all_ssreflect all_algebra zify.
From Verif Require Import Base ModelPoly ModelVO ModelOracle ModelPermutation ModelLookup Spec SpecProtocol SpecRows
  ProofBase ProofDomain ProofOracle ProofPermutation ProofLookup ProofColumns ProofOpen ProofEach ProofMultiopen2 ProofSound ProofRows PropsPermutation PropsLookup.

Set Implicit Arguments.
Unset Strict Implicit.
Unset Printing Implicit Defensive.

Import GRing.Theory.
Local Open Scope ring_scope.

(** ** C24 *)
(** The grand products the prover constructs make the verifier's formula vanish on every row, for all
    alphas and all blinding randomness. *)
Theorem c24_open_vanishes (F : fieldType) (env : fenv F) (Z : Type) (zk_rand : Z -> F * Z)
    (d ext : domain F) (pa : permutation_argument F) (qb : poracle F) (ws sigmas : seq (poracle F))
    (tau : nat * nat -> nat * nat) (beta gamma : F) (zk : Z) :
  let u := pa_usable_rows pa in let k := size ws in
  let w := cell_value ws in let sigma := cell_value sigmas in
  let id j i := (pa_deltas pa)`_j * dgen d ^+ i in
  domain_ok d -> (u < dsize d)%N -> (0 < pa_max_cols pa)%N -> (0 < k)%N -> size sigmas = k -> size (pa_deltas pa) = k ->
  (forall o, occurs o ws \/ occurs o sigmas -> size (po_evals o) = dsize d) -> blinds d u qb ->
  (forall c, is_cell k u c -> is_cell k u (tau c)) ->
  (forall c c', is_cell k u c -> is_cell k u c' -> tau c = tau c' -> c = c') ->
  (forall c, is_cell k u c -> sigma c.1 c.2 = id (tau c).1 (tau c).2) ->
  (forall c, is_cell k u c -> w c.1 c.2 = w (tau c).1 (tau c).2) ->
  (forall c, is_cell k u c -> w c.1 c.2 + beta * sigma c.1 c.2 + gamma != 0) ->
  exists zs zk', construct_agg_polys env zk_rand pa ws sigmas beta gamma d ext zk = Ok (zs, zk') /\
    perm_vanishes d pa qb ws sigmas zs beta gamma.
Proof.
move=> u k w sigma id dok un m0 k0 ss sd Hsz bl tc ti sgE cp nz.
have [zs [zk' [E sz _ H]]] := c24_permutation_completeness env zk_rand ext zk un m0 k0 ss sd Hsz tc ti sgE cp nz.
by exists zs, zk'; split=> //; apply/perm_vanishesP.
Qed.
Print Assumptions c24_open_vanishes.

(** ** C25 *)
(** A violated copy constraint: except for at most [k u] betas there are at most [2 k u] gammas for
    which some grand product columns make the verifier's formula vanish on every row for all alphas. *)
Theorem c25_open_soundness (F : fieldType) (d : domain F) (pa : permutation_argument F) (qb : poracle F)
    (ws sigmas : seq (poracle F)) (tau : nat * nat -> nat * nat) (bad : nat * nat) :
  let u := pa_usable_rows pa in let k := size ws in let deltas := pa_deltas pa in
  domain_ok d -> (u < dsize d)%N -> blinds d u qb ->
  (forall j j', (j < k)%N -> (j' < k)%N -> deltas`_j' != 0 /\ ((deltas`_j / deltas`_j') ^+ dsize d = 1 -> j = j')) ->
  (forall c, is_cell k u c -> is_cell k u (tau c)) ->
  (forall c, is_cell k u c -> cell_value sigmas c.1 c.2 = deltas`_(tau c).1 * dgen d ^+ (tau c).2) ->
  is_cell k u bad -> cell_value ws bad.1 bad.2 <> cell_value ws (tau bad).1 (tau bad).2 ->
  at_most (k * u) (fun beta : F => ~ at_most (2 * (k * u)) (fun gamma =>
    exists zs, perm_vanishes d pa qb ws sigmas zs beta gamma)).
Proof.
move=> u k deltas dok un bl dd tc sgE bc viol.
have sizes zs beta gamma : perm_vanishes d pa qb ws sigmas zs beta gamma ->
    [/\ (0 < pa_max_cols pa)%N, size sigmas = k, size deltas = k & size zs = size (chunks (pa_max_cols pa) ws)].
  have n0 : (0 < dsize d)%N by apply: leq_ltn_trans un.
  move=> /(_ 0%N (nseq (number_of_alphas (size zs)) 0) n0); rewrite size_nseq => /(_ erefl).
  move=> /(@perm_open_sizes F d); rewrite !size_map => -[m0 s1 s2 s3]; split=> //.
  by rewrite s3 !size_chunks // size_map.
have k0 : (0 < k)%N by move: bc => /andP[H _]; apply: leq_ltn_trans H.
case: (leqP (pa_max_cols pa) 0) => [m0|m0].
  apply: at_most_none => beta; apply; apply: at_most_none => gamma [zs /sizes[]]; by rewrite ltnNge m0.
case: (altP (size deltas =P k)) => [sD|nD]; last first.
  by apply: at_most_none => beta; apply; apply: at_most_none => gamma [zs /sizes[_ _ E _]]; rewrite E eqxx in nD.
have lab := @c25_identity_labels F d deltas k u dok (ltnW un) sD dd.
have := @c25_permutation_soundness F (dsize d) u (pa_max_cols pa) k (cell_value ws) (cell_value sigmas) (fun j i => deltas`_j * dgen d ^+ i) tau bad m0 un lab tc sgE bc viol.
apply: at_most_sub => beta nb ng; apply: nb; apply: at_most_sub ng => gamma [zs H]; have [_ s1 s2 s3] := sizes _ _ _ H.
by exists (cell_value zs); apply (perm_vanishesP dok beta gamma m0 k0 s1 s2 s3 bl).
Qed.
Print Assumptions c25_open_soundness.

(** ** C28 *)
(** Whenever both prover rounds return, the verifier's formula vanishes on every row. *)
Theorem c28_open_vanishes (F : fieldType) (env : fenv F) (Z : Type) (zk_rand : Z -> F * Z)
    (d ext : domain F) (ws ins fs ts : seq (poracle F)) (qb : poracle F) (u k : nat) (es : seq (expr F oquery))
    (tqs : seq oquery) (theta beta gamma : F) (zk zk1 zk2 zk3 : Z) lo z :
  fenv_ok env -> std_domain env d -> std_domain env ext -> (dsize d <= dsize ext)%N ->
  well_formed env d ext ws -> well_formed env d ext ins -> well_formed env d ext fs -> well_formed env d ext ts ->
  exprs_ok ws ins fs (dsize d) es -> table_queries_ok ts tqs ->
  (0 < u < dsize d)%N -> (size (lookup_poly ws ins fs (dgen d) es theta) <= dsize ext)%N -> blinds d u qb ->
  construct_a_and_s_polys_prover env zk_rand ws ins fs ts u k es tqs theta d ext zk = Ok (lo, zk1) ->
  se_construct_agg_poly env zk_rand lo beta gamma k u d ext zk2 = Ok (z, zk3) ->
  [/\ forall i, (i < dsize d)%N -> (po_evals (lo_a lo))`_i = lookup_row ws ins fs (dsize d) es theta i,
      forall i, (i < dsize d)%N -> (po_evals (lo_s lo))`_i = table_row ts tqs theta i &
      lookup_vanishes d u qb lo z beta gamma].
Proof.
move=> eok sd se le wfw wfi wff wft He Ht un sA bl E Ez.
have [lc _ _ _] := construct_columns_inv eok sd se le wfw wfi wff wft He Ht sA E.
have H := c28_constructed_rows_hold eok sd se le wfw wfi wff wft He Ht un sA E Ez.
have [_ _ [Ea Es] _ _] := lc; split=> //; apply/(lookup_vanishesP (std_domain_ok eok sd)) => // i Hi c.
by rewrite Ea // Es //; exact: H.
Qed.
Print Assumptions c28_open_vanishes.

(** ** C29 *)
(** [lo] holds the compressed columns and whatever permuted columns were committed to; row [bad] is not in
    the table. Except for at most [2u] betas there are at most [2u] gammas for which some grand product
    column makes the verifier's formula vanish on every row for all alphas. *)
Theorem c29_open_soundness (F : fieldType) (d : domain F) (u : nat) (qb : poracle F) (lo : lookup_oracles (poracle F)) (bad : nat) :
  domain_ok d -> (u < dsize d)%N -> blinds d u qb -> (bad < u)%N ->
  (forall j, (j < u)%N -> (po_evals (lo_a lo))`_bad <> (po_evals (lo_s lo))`_j) ->
  at_most (2 * u) (fun beta : F => ~ at_most (2 * u) (fun gamma => exists z, lookup_vanishes d u qb lo z beta gamma)).
Proof.
move=> dok un bl Hb viol.
have := @c29_lookup_soundness F (dsize d) u (fun i => (po_evals (lo_a lo))`_i) (fun i => (po_evals (lo_s lo))`_i)
  (fun i => (po_evals (lo_a' lo))`_i) (fun i => (po_evals (lo_s' lo))`_i) bad un Hb viol.
apply: at_most_sub => beta nb ng; apply: nb; apply: at_most_sub ng => gamma [z H].
by exists (fun i => (po_evals z)`_i); apply (lookup_vanishesP dok lo beta gamma bl).
Qed.
Print Assumptions c29_open_soundness.

(** ** C31 *)
(** The prover's lookup round on a row whose tuple is no usable row of the table: at most [u (k - 1)]
    thetas ([k] columns) let it return. *)
Theorem c31_prover_refuses (F : fieldType) (env : fenv F) (Z : Type) (zk_rand : Z -> F * Z)
    (d ext : domain F) (ws ins fs ts : seq (poracle F)) (u k : nat) (es : seq (expr F oquery)) (tqs : seq oquery) (bad : nat) :
  fenv_ok env -> std_domain env d -> std_domain env ext -> (dsize d <= dsize ext)%N ->
  well_formed env d ext ws -> well_formed env d ext ins -> well_formed env d ext fs -> well_formed env d ext ts ->
  exprs_ok ws ins fs (dsize d) es -> table_queries_ok ts tqs ->
  (forall theta, (size (lookup_poly ws ins fs (dgen d) es theta) <= dsize ext)%N) ->
  size es = size tqs -> (bad < u)%N ->
  (forall j, (j < u)%N -> [seq meaning (row_value ws ins fs (dsize d) bad) e | e <- es]
                          <> [seq (column_named ts (oq_label q))`_j | q <- tqs]) ->
  at_most (u * (size es).-1) (fun theta => exists zk lo zk1,
    construct_a_and_s_polys_prover env zk_rand ws ins fs ts u k es tqs theta d ext zk = Ok (lo, zk1)).
Proof.
move=> eok sd se le wfw wfi wff wft He Ht sA ss Hb viol.
have := c31_theta_separates ss viol; apply: at_most_sub => theta [zk [lo [zk1 E]]].
have [lc _ _ _] := construct_columns_inv eok sd se le wfw wfi wff wft He Ht (sA theta) E.
have [_ _ _ _ P] := lc.
set a := map _ _ in P; set s := map _ _ in P.
have [_ bad_] := c27_permute_panics_iff a s eok.
case G: ((size a == size s) && all (mem s) a); last by have := bad_ (negbT G); rewrite P; case: ifP.
have /andP[_ /allP sub] := G; have := sub (lookup_row ws ins fs (dsize d) es theta bad).
rewrite /a map_f ?mem_iota // => /(_ isT) /mapP[j]; rewrite mem_iota add0n => /= Hj Ej; by exists j.
Qed.
Print Assumptions c31_prover_refuses.

(** ** Concrete cases *)
From Coq Require Import NArith String.
From Verif Require Import ProofVerifierCols Field97 Concrete ProofConcrete ProofTools.
Local Close Scope ring_scope.

Definition ro_qb : poracle f97_fieldType := porc Fixed 4 "qb" (col [:: 0; 0; 0; 1]%nat) false.
Lemma ro_dom : domain_ok (dom97 4) /\ dsize (dom97 4) = 4.
Proof. by split; [exact (std_domain_ok env97_ok dom97_4)|apply/eqP; vm_compute]. Qed.
Lemma ro_blinds : blinds (dom97 4) 2 ro_qb.
Proof. by move=> i; rewrite ro_dom.2; case: i => [|[|[|[|]]]] // _; apply/eqP; vm_compute. Qed.

(** The columns of ex_c24. *)
Example ex_c24_open : exists zs zk',
  construct_agg_polys env97 lcg_rand pe_pa pe_ws pe_sigmas (n97 3) (n97 4) (dom97 4) (dom97 16) 11%num = Ok (zs, zk') /\
  perm_vanishes (dom97 4) pe_pa ro_qb pe_ws pe_sigmas zs (n97 3) (n97 4).
Proof.
have [h1 [h2 h3] h4 h5 [h6 h7 h8]] := ex_c24.
apply: (c24_open_vanishes env97 lcg_rand (dom97 16) 11%num (proj1 ro_dom) h1 _ _ h2 h3 _ ro_blinds h4 h5 h6 h7 h8) => //.
by move=> o [[->|[->|[]]]|[->|[->|[]]]]; rewrite ro_dom.2; vm_compute.
Qed.
(** The columns of ex_c25, where 7 and 8 should be equal. *)
Example ex_c25_open : at_most (2 * 2) (fun beta : f97_fieldType => ~ at_most (2 * (2 * 2)) (fun gamma =>
    exists zs, perm_vanishes (dom97 4) pe_pa ro_qb pe_bad pe_sigmas zs beta gamma)).
Proof.
have [_ _ h3 _ [h5 _ _]] := ex_c24; have [_ h1 h2] := ex_c25.
exact: (@c25_open_soundness _ (dom97 4) pe_pa ro_qb pe_bad pe_sigmas pe_tau (0, 0)%nat (proj1 ro_dom) isT ro_blinds ex_c25_labels h3 h5 h1 h2).
Qed.
(** The columns of ex_c28: both rounds return and the formula vanishes on all rows. *)
Definition ro_z := ok_or (ro_qb, 0%num)
  (se_construct_agg_poly env97 lcg_rand lx_lo.1 (n97 3) (n97 4) 0 2 (dom97 4) (dom97 16) lx_lo.2).
Example ex_c28_open : lookup_vanishes (dom97 4) 2 ro_qb lx_lo.1 ro_z.1 (n97 3) (n97 4).
Proof.
have [e1 e2 e3 [d1 d2]] := lx_dom; have [w1 w2 w3 w4] := lx_wf.
have [h1 h2 h3 h4 _] := ex_c28.
have Elo : construct_a_and_s_polys_prover env97 lcg_rand lx_ws lx_ins lx_fs lx_ts 2 0 [:: lx_a; lx_f] [:: lx_t1; lx_t2]
     (n97 5) (dom97 4) (dom97 16) 11%num = Ok (lx_lo.1, lx_lo.2) by rewrite -surjective_pairing; apply: ok_anyP; vm_compute.
have Ez : se_construct_agg_poly env97 lcg_rand lx_lo.1 (n97 3) (n97 4) 0 2 (dom97 4) (dom97 16) lx_lo.2 = Ok (ro_z.1, ro_z.2).
  by rewrite -surjective_pairing; apply: ok_anyP; vm_compute.
have le : dsize (dom97 4) <= dsize (dom97 16) by rewrite d1 d2.
by case: (c28_open_vanishes e1 e2 e3 le w1 w2 w3 w4 h1 h2 h3 (leq_trans h4 le) ro_blinds Elo Ez).
Qed.
(** A row that is not in the table, with arbitrary permuted columns. *)
Definition ro_col (s : seq nat) : poracle f97_fieldType := porc Witness 4 "x" (col s) false.
Example ex_c29_open : let lo := LookupOracles (ro_col [:: 2; 4; 0; 0]) (ro_col [:: 3; 2; 0; 0]) (ro_col [:: 2; 2; 9; 9]) (ro_col [:: 2; 3; 8; 8]) in
  at_most 4 (fun beta : f97_fieldType => ~ at_most 4 (fun gamma => exists z, lookup_vanishes (dom97 4) 2 ro_qb lo z beta gamma)).
Proof.
apply: (@c29_open_soundness _ (dom97 4) 2 ro_qb _ 1 (proj1 ro_dom) _ ro_blinds) => //.
by case=> [|[|]] // _; apply/eqP; vm_compute.
Qed.
(** With three usable rows row 2 of ex_c28's columns is not in the table: at most three thetas let the prover go on. *)
Example ex_c31_prover : at_most (3 * 1) (fun theta : f97_fieldType => exists zk lo zk1,
  construct_a_and_s_polys_prover env97 lcg_rand lx_ws lx_ins lx_fs lx_ts 3 0 [:: lx_a; lx_f] [:: lx_t1; lx_t2] theta
    (dom97 4) (dom97 16) zk = Ok (lo, zk1)).
Proof.
have [e1 e2 e3 [d1 d2]] := lx_dom; have [w1 w2 w3 w4] := lx_wf.
have le : dsize (dom97 4) <= dsize (dom97 16) by rewrite d1 d2.
apply: (@c31_prover_refuses _ env97 _ lcg_rand (dom97 4) (dom97 16) lx_ws lx_ins lx_fs lx_ts 3 0 [:: lx_a; lx_f] [:: lx_t1; lx_t2] 2
  e1 e2 e3 le w1 w2 w3 w4 lx_exprs lx_tables) => //.
- move=> theta; apply: leq_trans le; apply: (@size_lookup_poly_linear _ env97 (dom97 4) (dom97 16)) => //.
  + exact: lx_exprs.
  + by move=> e [->|[->|[]]].
- by rewrite d1; case=> [|[|[|]]] // _; apply/eqP; vm_compute.
Qed.
