(** C45, C56: soundness of prove/verify. *)
From mathcomp Require Import all_ssreflect all_algebra.
From mathcomp Require Import zify.
From Coq Require Import String.
From Verif Require Import Base ModelPoly ModelVO ModelOracle ModelPC ModelPermutation
  ModelLookup ModelIndexer ModelMultiproof ModelProtocol Spec SpecProtocol SpecPIOP SpecMultiopen SpecCircuit SpecSound
  ProofBase ProofPoly ProofDomain ProofEach ProofVerifierCols ProofPIOP ProofFront ProofMultiopen2 ProofRounds ProofHonest ProofComplete ProofSound ProofSound2
  PropsPermutation PropsLookup PropsPIOP PropsMultiopen.

Set Implicit Arguments.
Unset Strict Implicit.
Unset Printing Implicit Defensive.

Import GRing.Theory.
Local Open Scope ring_scope.

(** ** C56 *)
(** Public-coin soundness of the whole protocol. [op] sends a commitment to the polynomial it binds the prover
    to ([pcs_binding]: openings and linear combinations are those of that polynomial). The polynomials
    committed to before alpha break some constraint at row [i], where z_h vanishes. Then, with challenges
    drawn one after the other, verify rarely accepts ([rarely_accepted] lists the moves and the bounds). *)
Theorem c56_interactive_soundness (F : fieldType) (env : fenv F) (PC : pcs F) (pvk : pc_vk PC) (op : pc_com PC -> {poly F})
    (S : vinput PC) (es : seq (expr F oquery)) (cm : commitments PC) (theta beta gamma : F) (B D i : nat) (p : {poly F}) :
  let d := s_d S in let w := dgen d in
  let constraints := constraint_polys d (s_perm S) es beta gamma (bound op S theta cm) in
  fenv_ok env -> pcs_binding pvk op -> std_domain env d ->
  verifiable S es -> well_counted S cm -> small op S cm B ->
  (forall q, q \in constraints -> (size q <= D.+1)%N) ->
  (i < dsize d)%N -> (Poly (s_zh S)).[w ^+ i] = 0 -> p \in constraints -> p.[w ^+ i] != 0 ->
  rarely_accepted env pvk op S cm B D theta beta gamma.
Proof.
move=> d w cs eok bind sd rdy cnt sml HD Hi zi Hp np.
rewrite /rarely_accepted; have [v0 ev eqok dec] := rd_gates rdy; have [lw li lf lt] := rd_labels rdy.
have sh : (0 < pa_usable_rows (s_perm S))%N \/ copied (as_ws (bound op S theta cm)) = [::] \/ size (s_lookups S) = 0%N.
  have [H|H|H] := rd_usable rdy; [by left| |by right; right; rewrite H].
  by right; left; apply: size0nil; rewrite size_copied H.
have -> : size (cm_z cm) = size (as_zs (bound op S theta cm)) by rewrite size_map.
apply: at_most_sub (@c38_piop_soundness F env PC d (s_vk S) (s_vos S) es (bound op S theta cm) (s_zh S) beta gamma D i p eok sd ev v0
  (bound_exprs_ok op cm eqok) (bound_declared op cm dec) (bound_shape op theta rdy cnt) _ _ _ sh HD Hi zi Hp np).
- move=> alpha [Q Qs H]; exists (map (unnamed op d) Q).
  have <- : recombined (dsize d) (map op Q) = recombined (dsize d) (map (@opoly F) (map (unnamed op d) Q)).
    by rewrite -map_comp (_ : map _ _ = map op Q) //; apply: eq_map => c; rewrite /= /opoly /= polyseqK.
  move=> a; apply: H; apply: at_most_sub a => xi [base car nb].
  have nested : ~ (forall x1 x2 x3 x4 qe fc pi, ~ convinces env pvk S theta beta gamma alpha xi base x1 x2 x3 x4 qe fc pi).
    move=> none; apply: nb; apply: at_most_none => x1; apply; apply: at_most_none => x2 [fc _]; apply.
    by apply: at_most_none => x3 [qe _]; apply; apply: at_most_none => x4 [pi]; exact: none.
  have [VT Ef] : exists VT, verify_front env (s_vk S) (s_pre S) base (s_ws S) (s_ins S) (dsize d) theta xi = Ok VT.
    case E: (verify_front env (s_vk S) (s_pre S) base (s_ws S) (s_ins S) (dsize d) theta xi) => [VT|e|e]; [by exists VT| |];
      by case: nested => x1 x2 x3 x4 qe fc pi /convincesE [VT []]; rewrite E.
  have Ec : vt_check (s_vk S) (s_ins S) (s_vos S) (dsize d) (s_zh S) beta gamma alpha xi VT = Ok tt.
    case E: (vt_check (s_vk S) (s_ins S) (s_vos S) (dsize d) (s_zh S) beta gamma alpha xi VT) => [[]|e|e] //;
      by case: nested => x1 x2 x3 x4 qe fc pi /convincesE [VT' [Ef' Ec' _]]; move: Ec'; rewrite -(Ok_inj (etrans (esym Ef) Ef')) E.
  case Et: (claims_true op S xi (vt_oracles VT)).
    exists (front_view (s_ins S) VT), (vt_pre VT).
    split=> //; first exact: (sees_bound eok sd rdy cnt car Ef (claims_trueP Et)).
    by move: Ec; rewrite /vt_check (ff_d (facts eok sd rdy cnt car Ef)).
  case: nb; have [v [r [Hv Hr ne]]] := claims_falseP Et.
  have [cl [c Hc _]] := vt_claimed eok sd rdy cnt car Ef Hv; have [e He] := cl r Hr.
  have rE := vt_rots eok sd rdy cnt car Ef.
  have smv v' c' : occurs v' (vt_oracles VT) -> get_commitment v' = Ok c' -> (size (op c') <= B)%N.
    move=> Hv' Hc'; have [_ [c2]] := vt_claimed eok sd rdy cnt car Ef Hv'; rewrite Hc' => Hcc; rewrite (Ok_inj Hcc).
    have [s1 s2] := sml; case=> [||[v2 Hv2 Hc2]]; [exact: s1|exact: Qs|exact: s2 Hv2 Hc2].
  have := @c42_claims_bound F env PC pvk op (dsize d) d xi (vt_oracles VT) B v c e r eok bind sd smv Hv Hr Hc He.
  rewrite (_ : e != _) ?rE; last by have := ne _ He; rewrite /value_of Hc.
  move=> /(_ isT); rewrite -(size_map (@o_rots _)) rE.
  apply: at_most_sub => x1 n1 n2; apply: n1; apply: at_most_sub n2 => x2 [fc Bf n1]; exists fc => // n2; apply: n1.
  apply: at_most_weaken (at_most_sub _ n2).
    by rewrite -!subn1; apply: leq_sub2r; rewrite leq_add2l; apply: leq_trans (size_undup _) _; rewrite size_map.
  move=> x3 [qe sq n1]; exists qe => // n3; apply: n1; apply: at_most_sub n3 => x4 [pi H]; exists pi.
  by have [VT' [Ef' _ Hm]] := convincesE H; rewrite (Ok_inj (etrans (esym Ef) Ef')).
- by rewrite -(mirrors_labels (ws_mirrors op S cm)).
- by rewrite -ins_labels.
- by rewrite -(mirrors_labels (committed_mirrors op S _)).
Qed.
Print Assumptions c56_interactive_soundness.

(** ** C57 *)
Section Statements.
Variables (F : fieldType) (env : fenv F) (PC : pcs F) (pvk : pc_vk PC) (op : pc_com PC -> {poly F}).
Variables (S : vinput PC) (es : seq (expr F oquery)) (B : nat).
Hypothesis eok : fenv_ok env.
Hypothesis bind : pcs_binding pvk op.
Hypothesis sd : std_domain env (s_d S).
Hypothesis rdy : verifiable S es.
Hypothesis smi : forall o, occurs o (s_ins S) -> (size (o_data o) <= B)%N.
Let d := s_d S.
Let n := dsize d.
Let w := dgen d.
Let u := pa_usable_rows (s_perm S).
Notation rare cm := (rarely_accepted env pvk op S cm B (constraint_degree S es B)).

Lemma bad_row cm theta beta gamma i p : well_counted S cm -> small op S cm B ->
  (i < n)%N -> (Poly (s_zh S)).[w ^+ i] = 0 -> p \in constraint_polys d (s_perm S) es beta gamma (bound op S theta cm) -> p.[w ^+ i] != 0 ->
  rare cm theta beta gamma.
Proof.
move=> cnt sml Hi zi Hp np; apply: (c56_interactive_soundness eok bind sd rdy cnt sml _ Hi zi Hp np) => q; exact: (constraint_size rdy cnt sml smi).
Qed.
Lemma tab_ws W o : occurs o (bound_ws op S W) -> tabulates d o.
Proof. by move=> Ho; have [v _ ->] := occurs_map Ho; exact: tabulates_column. Qed.
Lemma tab_ins o : occurs o (bound_ins S) -> tabulates d o.
Proof. by move=> Ho; have [v _ ->] := occurs_map Ho; exact: tabulates_column. Qed.
Lemma tab_committed vs o : occurs o (map (committed op d) vs) -> tabulates d o.
Proof. by move=> Ho; have [v _ ->] := occurs_map Ho; exact: tabulates_column. Qed.

Lemma gate_poly cm theta beta gamma i e : (i < n)%N -> occurs e es ->
  meaning (row_value (bound_ws op S (cm_w cm)) (bound_ins S) (bound_fs op S) n i) e != 0 ->
  exists2 p, p \in constraint_polys d (s_perm S) es beta gamma (bound op S theta cm) & p.[w ^+ i] != 0.
Proof.
move=> Hi He; rewrite -(expr_poly_row eok sd) //; try exact: tab_ws; try exact: tab_ins; try exact: tab_committed.
move=> ne; eexists; last exact: ne; rewrite /constraint_polys mem_cat; apply/orP; left.
by elim: (es) He => //= a s IH [<-|/IH H]; rewrite inE ?eqxx // H orbT.
Qed.
Lemma gate cm theta beta gamma i e : well_counted S cm -> small op S cm B ->
  (i < n)%N -> (Poly (s_zh S)).[w ^+ i] = 0 -> occurs e es ->
  meaning (row_value (bound_ws op S (cm_w cm)) (bound_ins S) (bound_fs op S) n i) e != 0 ->
  rare cm theta beta gamma.
Proof. by move=> cnt sml Hi zi He /(gate_poly theta beta gamma Hi He)[p Hp np]; exact: (bad_row cnt sml Hi zi Hp np). Qed.

Lemma copies cm theta beta gamma : well_counted S cm -> small op S cm B ->
  (forall i, (i < n)%N -> (Poly (s_zh S)).[w ^+ i] = 0) ->
  (forall i, (i < n)%N -> (po_evals (committed op d (vp_q_blind (s_pre S))))`_i = (u < i)%N%:R) ->
  ~ rare cm theta beta gamma -> (0 < size (copied (bound_ws op S (cm_w cm))))%N ->
  perm_rows_hold n u (pa_max_cols (s_perm S)) (size (copied (bound_ws op S (cm_w cm)))) beta gamma
    (cell_value (copied (bound_ws op S (cm_w cm)))) (cell_value (map (committed op d) (vp_perm (s_pre S))))
    (fun j i => (pa_deltas (s_perm S))`_j * w ^+ i) (cell_value (map (unnamed op d) (cm_z cm))).
Proof.
move=> cnt sml zh bl nr K0 i Hi c.
have nn : ~~ nilp (copied (as_ws (bound op S theta cm))) by rewrite /nilp -lt0n.
have := @perm_polys_row F env eok d sd (s_vk S) beta gamma (bound op S theta cm) _ (bound_shape op theta rdy cnt) _ bl i nn Hi.
move=> /(_ _) <- => [/mapP[p Hp ->]|].
  apply/eqP; case E: (p.[w ^+ i] == 0) => //; case: nr; apply: (bad_row cnt sml Hi (zh _ Hi) _ (negbT E)).
  by rewrite /constraint_polys !mem_cat Hp orbT.
move=> o; rewrite !occurs_cat /= => -[Ho|[Ho|[Ho|[->|//]]]].
- by apply: (@tab_ws (cm_w cm)); exact: occurs_filter Ho.
- exact: tab_committed Ho.
- by have [c' _ ->] := occurs_map Ho; exact: tabulates_column.
- exact: tabulates_column.
Qed.

Lemma lookup_holds cm theta beta gamma j l xs tqs : well_counted S cm -> small op S cm B ->
  (forall i, (i < n)%N -> (Poly (s_zh S)).[w ^+ i] = 0) ->
  (forall i, (i < n)%N -> (po_evals (committed op d (vp_q_blind (s_pre S))))`_i = (u < i)%N%:R) ->
  idx (s_lookups S) j = Ok l -> gl_get_expressions l = Ok xs -> gl_get_table_queries l = Ok tqs ->
  ~ rare cm theta beta gamma ->
  exists z, lookup_rows_hold n u beta gamma (lookup_row (bound_ws op S (cm_w cm)) (bound_ins S) (bound_fs op S) n xs theta)
    (table_row (bound_ts op S) tqs theta)
    (fun i => (po_evals (unnamed op d (nth (pc_zero PC) (nth [::] (chunks 2 (cm_l cm)) j) 0)))`_i)
    (fun i => (po_evals (unnamed op d (nth (pc_zero PC) (nth [::] (chunks 2 (cm_l cm)) j) 1)))`_i) z.
Proof.
move=> cnt sml zh bl Hl Ex Eq nr; have [_ _ slz _] := cnt; have [cc Ec [_ sc]] := l_pairs cnt.
have [cs Hcs] : exists cs, idx (chunks 2 (cm_l cm)) j = Ok cs by apply: (idx_size2 _ Hl); rewrite Ec size_map sc.
have [z Hz] := idx_size2 (esym slz) Hl; rewrite -(idx_ok_nth [::] Hcs).
exists (fun i => (po_evals (unnamed op d z))`_i) => i Hi c.
have Hzo : idx (as_lzs (bound op S theta cm)) j = Ok (unnamed op d z) by rewrite (idx_map_ok _ Hz).
set lo := LookupOracles (column d ""%string [::] (bound_a op S theta (cm_w cm) l) false) (column d ""%string [::] (bound_s op S theta l) false)
  (unnamed op d (nth (pc_zero PC) cs 0)) (unnamed op d (nth (pc_zero PC) cs 1)).
have Hlo : idx (as_los (bound op S theta cm)) j = Ok lo by exact: (idx_map_ok _ (idx_zip_ok Hl Hcs)).
have := @lookup_polys_row F env eok d sd (s_vk S) beta gamma (bound op S theta cm) _ (bound_shape op theta rdy cnt) bl
  (lookup_row (bound_ws op S (cm_w cm)) (bound_ins S) (bound_fs op S) n xs theta i) (table_row (bound_ts op S) tqs theta i) i lo (unnamed op d z).
move=> /(_ _ _ _ _ _ _ Hi) <-; first last.
- rewrite [lo_s _]/= opoly_op /bound_s Eq; apply: (table_poly_row eok sd) => //; exact: tab_committed.
- rewrite [lo_a _]/= opoly_op /bound_a Ex; apply: (lookup_poly_row eok sd) => //; [exact: tab_ws|exact: tab_ins|exact: tab_committed].
- exact: tabulates_column.
- exact: tabulates_column.
- exact: tabulates_column.
- exact: tabulates_column.
move=> /mapP[p Hp ->]; apply/eqP; case E0: (p.[w ^+ i] == 0) => //; case: nr; apply: (bad_row cnt sml Hi (zh _ Hi) _ (negbT E0)).
rewrite /constraint_polys !mem_cat; apply/orP; right; apply/orP; right; apply/flattenP.
exists (lcons d (s_vk S) (bound op S theta cm) beta gamma (lo, unnamed op d z)); last exact: Hp.
by apply/ProofVO.occurs_mem; apply: (occurs_map_in (lcons d (s_vk S) (bound op S theta cm) beta gamma)); apply: (ProofPermutation.occurs_idx (idx_zip_ok Hlo Hzo)).
Qed.
End Statements.

(** A witness that breaks a gate on a row of z_h: whatever follows, verify rarely accepts. *)
Theorem c57_gate_soundness (F : fieldType) (env : fenv F) (PC : pcs F) (pvk : pc_vk PC) (op : pc_com PC -> {poly F})
    (S : vinput PC) (es : seq (expr F oquery)) (B : nat) (cm : commitments PC) (theta beta gamma : F) (i : nat) (e : expr F oquery) :
  let n := dsize (s_d S) in
  fenv_ok env -> pcs_binding pvk op -> std_domain env (s_d S) -> verifiable S es ->
  (forall o, occurs o (s_ins S) -> (size (o_data o) <= B)%N) ->
  (i < n)%N -> (Poly (s_zh S)).[dgen (s_d S) ^+ i] = 0 ->
  occurs e es -> meaning (row_value (bound_ws op S (cm_w cm)) (bound_ins S) (bound_fs op S) n i) e != 0 ->
  well_counted S cm -> small op S cm B ->
  rarely_accepted env pvk op S cm B (constraint_degree S es B) theta beta gamma.
Proof. by move=> n eok bind sd rdy smi Hi zi He ne cnt sml; exact (gate eok bind sd rdy smi cnt sml Hi zi He ne). Qed.
Print Assumptions c57_gate_soundness.

(** The committed permutation columns encode [tau] on the usable rows; the witness [W] breaks the copy
    constraint of cell [bad]. Whatever lookup columns [L] follow: except for at most [K u] betas there
    are at most [2 K u] gammas after which any grand products [Z], [LZ] leave verify accepting more than
    rarely. *)
Theorem c57_copy_soundness (F : fieldType) (env : fenv F) (PC : pcs F) (pvk : pc_vk PC) (op : pc_com PC -> {poly F})
    (S : vinput PC) (es : seq (expr F oquery)) (B : nat) (W L : seq (pc_com PC)) (theta : F)
    (tau : nat * nat -> nat * nat) (bad : nat * nat) :
  let d := s_d S in let n := dsize d in let u := pa_usable_rows (s_perm S) in
  let deltas := pa_deltas (s_perm S) in
  let cols := copied (bound_ws op S W) in let K := size cols in
  let sigma := cell_value (map (committed op d) (vp_perm (s_pre S))) in
  fenv_ok env -> pcs_binding pvk op -> std_domain env d -> verifiable S es ->
  (forall o, occurs o (s_ins S) -> (size (o_data o) <= B)%N) ->
  (forall i, (i < n)%N -> (Poly (s_zh S)).[dgen d ^+ i] = 0) ->
  (forall i, (i < n)%N -> (po_evals (committed op d (vp_q_blind (s_pre S))))`_i = (u < i)%N%:R) ->
  (forall j j', (j < K)%N -> (j' < K)%N -> deltas`_j' != 0 /\ ((deltas`_j / deltas`_j') ^+ n = 1 -> j = j')) ->
  (forall c, is_cell K u c -> is_cell K u (tau c)) ->
  (forall c, is_cell K u c -> sigma c.1 c.2 = deltas`_(tau c).1 * dgen d ^+ (tau c).2) ->
  is_cell K u bad -> cell_value cols bad.1 bad.2 <> cell_value cols (tau bad).1 (tau bad).2 ->
  at_most (K * u) (fun beta => ~ at_most (2 * (K * u)) (fun gamma => exists Z LZ, let cm := Commitments W L Z LZ in
    [/\ well_counted S cm, small op S cm B & ~ rarely_accepted env pvk op S cm B (constraint_degree S es B) theta beta gamma])).
Proof.
move=> d n u deltas cols K sigma eok bind sd rdy smi zh bl dd tc ts bc viol.
have dok := std_domain_ok eok sd; have [n1 un] := rd_rows rdy.
have K0 : (0 < K)%N by move: bc => /andP[H _]; apply: leq_ltn_trans H.
have [m0 _ sD] : [/\ (0 < pa_max_cols (s_perm S))%N, size (vp_perm (s_pre S)) = K & size deltas = K].
  have E : size [seq v <- s_ws S | vd_permute (o_data v)] = K by rewrite -(size_copied op S (Commitments W [::] [::] [::]) theta).
  by have := rd_perm rdy; rewrite E; apply; move: K0; case: (K).
have lab := @c25_identity_labels F d deltas K u dok (ltnW un) sD dd.
have := @c25_permutation_soundness F n u (pa_max_cols (s_perm S)) K (cell_value cols) sigma (fun j i => deltas`_j * dgen d ^+ i) tau bad m0 un lab tc ts bc viol.
apply: at_most_sub => beta nb ng; apply: nb; apply: at_most_sub ng => gamma [Z [LZ [cnt sml nr]]].
by exists (cell_value (map (unnamed op d) Z)); exact (copies eok bind sd rdy smi cnt sml zh bl nr K0).
Qed.
Print Assumptions c57_copy_soundness.

(** The tuple of expression values on usable row [bad] differs from every usable row of the table. Except
    for at most [u (k - 1)] thetas ([k] columns), whatever permuted columns [L] follow, at most [2u]
    betas have more than [2u] gammas after which any grand products leave verify accepting more than
    rarely. *)
Theorem c57_lookup_soundness (F : fieldType) (env : fenv F) (PC : pcs F) (pvk : pc_vk PC) (op : pc_com PC -> {poly F})
    (S : vinput PC) (es : seq (expr F oquery)) (B : nat) (W : seq (pc_com PC)) (l : generic_lookup_vo F)
    (xs : seq (expr F oquery)) (tqs : seq oquery) (bad : nat) :
  let d := s_d S in let n := dsize d in let u := pa_usable_rows (s_perm S) in
  fenv_ok env -> pcs_binding pvk op -> std_domain env d -> verifiable S es ->
  (forall o, occurs o (s_ins S) -> (size (o_data o) <= B)%N) ->
  (forall i, (i < n)%N -> (Poly (s_zh S)).[dgen d ^+ i] = 0) ->
  (forall i, (i < n)%N -> (po_evals (committed op d (vp_q_blind (s_pre S))))`_i = (u < i)%N%:R) ->
  occurs l (s_lookups S) -> gl_get_expressions l = Ok xs -> gl_get_table_queries l = Ok tqs ->
  (bad < u)%N ->
  (forall j, (j < u)%N -> [seq meaning (row_value (bound_ws op S W) (bound_ins S) (bound_fs op S) n bad) e | e <- xs]
     <> [seq (column_named (bound_ts op S) (oq_label q))`_j | q <- tqs]) ->
  at_most (u * (size xs).-1) (fun theta => exists L, ~ at_most (2 * u) (fun beta => ~ at_most (2 * u) (fun gamma =>
    exists Z LZ, let cm := Commitments W L Z LZ in
    [/\ well_counted S cm, small op S cm B & ~ rarely_accepted env pvk op S cm B (constraint_degree S es B) theta beta gamma]))).
Proof.
move=> d n u eok bind sd rdy smi zh bl Hl Ex Eq Hb bad_tuple; have [n1 un] := rd_rows rdy.
have [j Hj] := occurs_ex_idx Hl; have [xs' [tqs' [Ex' Eq' ss _ _]]] := rd_lookups rdy Hl.
have {Ex'} ? : xs' = xs by move: Ex'; rewrite Ex => -[].
have {Eq'} ? : tqs' = tqs by move: Eq'; rewrite Eq => -[].
subst xs' tqs'; have := c31_theta_separates ss bad_tuple.
apply: at_most_sub => theta [L nL].
case E: (has (fun k => lookup_row (bound_ws op S W) (bound_ins S) (bound_fs op S) n xs theta bad == table_row (bound_ts op S) tqs theta k) (iota 0 u)).
  by have /hasP[k] := E; rewrite mem_iota add0n => /= Hk /eqP Ek; exists k.
case: nL; have none k : (k < u)%N -> lookup_row (bound_ws op S W) (bound_ins S) (bound_fs op S) n xs theta bad <> table_row (bound_ts op S) tqs theta k.
  by move=> Hk Ek; move/negP: E; apply; apply/hasP; exists k; rewrite ?mem_iota //; apply/eqP.
have := @c29_lookup_soundness F n u (lookup_row (bound_ws op S W) (bound_ins S) (bound_fs op S) n xs theta) (table_row (bound_ts op S) tqs theta)
  (fun i => (po_evals (unnamed op d (nth (pc_zero PC) (nth [::] (chunks 2 L) j) 0)))`_i)
  (fun i => (po_evals (unnamed op d (nth (pc_zero PC) (nth [::] (chunks 2 L) j) 1)))`_i) bad un Hb none.
apply: at_most_sub => beta nb ng; apply: nb; apply: at_most_sub ng => gamma [Z [LZ [cnt sml nr]]].
exact (lookup_holds eok bind sd rdy smi cnt sml zh bl Hj Ex Eq nr).
Qed.
Print Assumptions c57_lookup_soundness.

(** ** Concrete cases *)
From Coq Require Import NArith.
From Verif Require Import ModelGates Field97 Concrete ProofPC ProofConcrete ProofTools ProofCheck ProofCheck2 Run97 PropsEndToEnd.
Local Close Scope ring_scope.

(** The circuit of Run97.v, with commitments that are the polynomials themselves (the scheme is binding). *)
Definition p_fix (o : poracle F97) : voracle F97 (pc_com PLAIN97) :=
  Oracle (o_label o) (o_rots o) (VData Fixed [::] (Some (po_poly o : pc_com PLAIN97)) false).
Definition p_wit (o : poracle F97) : voracle F97 (pc_com PLAIN97) :=
  Oracle (o_label o) (o_rots o) (@VData F97 (pc_com PLAIN97) Witness [::] None (pd_permute (o_data o))).
Definition p_S : vinput PLAIN97 :=
  VInput r_vk (VerifierPre (map p_fix r_fs) (map p_fix r_ts) (map p_fix (map flat r_sigma)) (p_fix (flat r_qblind)))
    (map p_wit r_ws) r_vins r_vos r_d r_zh.
Definition p_es := r_exprs r_C.
Lemma p_verifiable : verifiable p_S p_es.
Proof. by apply: verifiableP; [vm_compute|vm_compute|apply: (getsP (C := r_C)); vm_compute|vm_compute]. Qed.
Definition p_op : pc_com PLAIN97 -> {poly F97} := @Poly F97.
Lemma p_binding : pcs_binding (PC := PLAIN97) tt p_op. Proof. exact: plain_binding. Qed.

(** A cheating prover's witness: a0 = 4 breaks the multiplication gate on row 0 (4 * 4 = 12) and the copy a0 = b1; with
    c2 = 6 the pair (6, 4) on row 2 is not in the table. The other commitments are arbitrary. *)
Definition p_bad : seq (poracle F97) :=
  [:: porc Witness 8 "a" (col [:: 4; 12; 15; 7; 1; 31; 5; 66]) true;
      porc Witness 8 "b" (col [:: 4; 3; 2; 9; 8; 17; 2; 14]) true;
      porc Witness 8 "c" (col [:: 12; 15; 6; 6; 7; 8; 20; 90]) true;
      porc Witness 8 "d" (col [:: 2; 2; 4; 5; 1; 2; 77; 4]) true].
Definition p_W : seq (pc_com PLAIN97) := map (@po_poly F97) p_bad.
Definition p_any : pc_com PLAIN97 := col [:: 1; 2; 3].
Definition p_cm : commitments PLAIN97 := Commitments p_W [:: p_any; p_any] [:: p_any; p_any] [:: p_any].
Lemma p_counted : well_counted p_S p_cm.
Proof. by split; apply/eqP; vm_compute. Qed.
Lemma p_small : small p_op p_S p_cm 8.
Proof.
split.
  have H : all (fun c : lpoly F97 => size c <= 8) (cm_w p_cm ++ cm_l p_cm ++ cm_z p_cm ++ cm_lz p_cm) by vm_compute.
  by move=> c /(all_occurs H); apply: leq_trans; exact: size_Poly.
have H : all (fun v : voracle F97 (pc_com PLAIN97) => size (ok_or [::] (get_commitment v) : lpoly F97) <= 8)
  (vp_fixed (s_pre p_S) ++ vp_table (s_pre p_S) ++ vp_perm (s_pre p_S) ++ [:: vp_q_blind (s_pre p_S)]) by vm_compute.
move=> v c /(all_occurs H) Hv Hc; move: Hv; rewrite Hc; apply: leq_trans; exact: size_Poly.
Qed.
Lemma p_public o : occurs o (s_ins p_S) -> size (o_data o) <= 8.
Proof. have H : all (fun o : ioracle F97 => size (o_data o) <= 8) (s_ins p_S) by vm_compute. exact (all_occurs H). Qed.
Lemma p_zh i : i < dsize (s_d p_S) -> (Poly (s_zh p_S)).[dgen (s_d p_S) ^+ i]%R = 0%R.
Proof.
have H : all (fun i => peval (s_zh p_S) (dgen (s_d p_S) ^+ i)%R == 0%R) (iota 0 (dsize (s_d p_S))) by vm_compute.
by move=> Hi; rewrite -pevalE; apply/eqP; apply: (allP H); rewrite mem_iota.
Qed.
Lemma p_blind i : i < dsize (s_d p_S) ->
  nth 0%R (po_evals (committed p_op (s_d p_S) (vp_q_blind (s_pre p_S)))) i = (pa_usable_rows (s_perm p_S) < i)%:R%R.
Proof.
have H : all (fun i => nth 0%R (po_evals (raw (s_d p_S) (vp_q_blind (s_pre p_S)))) i == (pa_usable_rows (s_perm p_S) < i)%:R%R)
  (iota 0 (dsize (s_d p_S))) by vm_compute.
by move=> Hi; rewrite raw_evals; apply/eqP; apply: (allP H); rewrite mem_iota.
Qed.
Definition p_gate : expr F97 oquery := nth (Const 0%R) p_es 0.
Lemma p_gate_bad :
  (meaning (row_value (bound_ws p_op p_S p_W) (bound_ins p_S) (bound_fs p_op p_S) (dsize (s_d p_S)) 0) p_gate != 0)%R.
Proof. rewrite /bound_ws /bound_fs raw_meaning. by vm_compute. Qed.
Example ex_c57_gate (theta beta gamma : F97) :
  rarely_accepted env97 (PC := PLAIN97) tt p_op p_S p_cm 8 (constraint_degree p_S p_es 8) theta beta gamma.
Proof.
apply (@c57_gate_soundness F97 env97 PLAIN97 tt p_op p_S p_es 8 p_cm theta beta gamma 0 p_gate env97_ok p_binding dom97_8 p_verifiable p_public); last first.
- exact p_small.
- exact p_counted.
- exact p_gate_bad.
- by left.
- by apply p_zh.
- by vm_compute.
Qed.
(** Some constraint polynomial does not vanish there, whatever theta, beta and gamma are. *)
Example ex_c56 (theta beta gamma : F97) :
  (exists2 p, p \in constraint_polys (s_d p_S) (s_perm p_S) p_es beta gamma (bound p_op p_S theta p_cm) & p.[dgen (s_d p_S) ^+ 0] != 0)%R /\
  (forall q, q \in constraint_polys (s_d p_S) (s_perm p_S) p_es beta gamma (bound p_op p_S theta p_cm) -> size q <= (constraint_degree p_S p_es 8).+1).
Proof.
split; first apply (@gate_poly F97 env97 PLAIN97 p_op p_S p_es env97_ok dom97_8 p_cm theta beta gamma 0 p_gate).
- exact isT.
- by left.
- exact p_gate_bad.
move=> q; apply (constraint_size (op := p_op) (S := p_S) (cm := p_cm) p_verifiable p_counted p_small p_public).
Qed.
(** The bounds that occur there are far below 97. *)
Example ex_c57_bounds : [&& size (s_vos p_S) + 2 * size (cm_z p_cm) + 5 * size (s_lookups p_S) <= 11,
  constraint_degree p_S p_es 8 <= 35 & 8 + size (flatten (opened_rots p_S 8)) <= 44].
Proof. rewrite /constraint_degree /max_degree unlock. by vm_compute. Qed.
Definition cells45 : seq (nat * nat) := [seq (j, i) | j <- iota 0 4, i <- iota 0 5].
Lemma cells45P c : is_cell 4 5 c -> c \in cells45.
Proof. by case: c => j i /andP[Hj Hi]; apply/allpairsP; exists (j, i); split; rewrite ?mem_iota. Qed.
Definition p_xs := ok_or [::] (gl_get_expressions r_l).
Definition p_tqs := ok_or [::] (gl_get_table_queries r_l).

(** The copy a0 = b1. *)
Lemma p_copied : size (copied (bound_ws p_op p_S p_W)) = 4.
Proof. by rewrite /bound_ws raw_copied size_map; apply/eqP; vm_compute. Qed.
Example ex_c57_copy (theta : F97) (L : seq (pc_com PLAIN97)) :
  at_most 20 (fun beta => ~ at_most 40 (fun gamma => exists Z LZ, let cm := Commitments p_W L Z LZ in
    [/\ well_counted p_S cm, small p_op p_S cm 8 & ~ rarely_accepted env97 (PC := PLAIN97) tt p_op p_S cm 8 (constraint_degree p_S p_es 8) theta beta gamma])).
Proof.
have u5 : pa_usable_rows (s_perm p_S) = 5 by apply/eqP; vm_compute.
have H := @c57_copy_soundness F97 env97 PLAIN97 tt p_op p_S p_es 8 p_W L theta r_next (0, 0) env97_ok p_binding dom97_8 p_verifiable
  p_public p_zh p_blind.
cbv zeta in H; rewrite p_copied u5 in H; apply H; clear H.
- have H : all (fun j => all (fun j' => (nth 0 (pa_deltas (s_perm p_S)) j' != 0)%R &&
    (((nth 0 (pa_deltas (s_perm p_S)) j / nth 0 (pa_deltas (s_perm p_S)) j') ^+ dsize (s_d p_S) == 1)%R ==> (j == j'))) (iota 0 4)) (iota 0 4) by vm_compute.
  move=> j j' Hj Hj'; have Mj : j \in iota 0 4 by rewrite mem_iota.
  have Mj' : j' \in iota 0 4 by rewrite mem_iota.
  have /andP[h1 /implyP h2] := allP (allP H j Mj) j' Mj'; split; [exact h1|move=> E; apply/eqP; apply: h2; rewrite E; exact: eqxx].
- have H : all (fun c => is_cell 4 5 (r_next c)) cells45 by vm_compute.
  by move=> c Hc; exact (allP H c (cells45P Hc)).
- have H : all (fun c => cell_value (map (raw (s_d p_S)) (vp_perm (s_pre p_S))) c.1 c.2 ==
     (nth 0 (pa_deltas (s_perm p_S)) (r_next c).1 * dgen (s_d p_S) ^+ (r_next c).2)%R) cells45 by vm_compute.
  by move=> c Hc; rewrite raw_cell; apply/eqP; exact (allP H c (cells45P Hc)).
- by vm_compute.
- rewrite /bound_ws !raw_copied_cell; apply/eqP; by vm_compute.
Qed.

(** The pair (6, 4) on row 2 is not in the table. *)
Example ex_c57_lookup :
  at_most 5 (fun theta => exists L, ~ at_most 10 (fun beta => ~ at_most 10 (fun gamma => exists Z LZ, let cm := Commitments p_W L Z LZ in
    [/\ well_counted p_S cm, small p_op p_S cm 8 & ~ rarely_accepted env97 (PC := PLAIN97) tt p_op p_S cm 8 (constraint_degree p_S p_es 8) theta beta gamma]))).
Proof.
have u5 : pa_usable_rows (s_perm p_S) = 5 by apply/eqP; vm_compute.
have s2 : size p_xs == 2 by vm_compute.
have Hl : occurs r_l (s_lookups p_S) by rewrite /s_lookups (_ : ix_lookups _ = [:: r_l]); [left|exact (ix_lookupsE (C := r_C) env97_ok dom97_8 r_indexed)].
have Ex : gl_get_expressions r_l = Ok p_xs by exact (ok_anyP [::] (isT <: ok_any (gl_get_expressions r_l))).
have Eq : gl_get_table_queries r_l = Ok p_tqs by exact (ok_anyP [::] (isT <: ok_any (gl_get_table_queries r_l))).
have H := @c57_lookup_soundness F97 env97 PLAIN97 tt p_op p_S p_es 8 p_W r_l p_xs p_tqs 2 env97_ok p_binding dom97_8 p_verifiable
  p_public p_zh p_blind Hl Ex Eq.
cbv zeta in H.
rewrite u5 in H.
rewrite (eqP s2) in H.
apply H; clear H Hl Ex Eq.
  exact isT.
have H : all (fun j => [seq meaning (row_value (map (raw (s_d p_S)) (register_commitments (s_ws p_S) p_W)) (bound_ins p_S)
    (map (raw (s_d p_S)) (vp_fixed (s_pre p_S))) (dsize (s_d p_S)) 2) e | e <- p_xs]
  != [seq nth 0%R (column_named (map (raw (s_d p_S)) (vp_table (s_pre p_S))) (oq_label q)) j | q <- p_tqs]) (iota 0 5) by vm_compute.
move=> j Hj; have Mj : j \in iota 0 5 by rewrite mem_iota.
rewrite /bound_ws /bound_fs /bound_ts raw_tuple raw_table; exact (elimN eqP (allP H j Mj)).
Qed.
