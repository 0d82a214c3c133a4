(** The honest prover: what its run establishes about the polynomials it commits to. *)
From mathcomp Require Import all_ssreflect all_algebra.
From mathcomp Require Import zify.
From Coq Require Import String.
From Verif Require Import Base ModelPoly ModelVO ModelOracle ModelPC ModelPermutation
  ModelLookup ModelIndexer ModelMultiproof ModelProtocol Spec SpecProtocol SpecPIOP SpecMultiopen SpecCircuit
  ProofBase ProofPoly ProofDomain ProofEach ProofOracle ProofPermutation ProofPermArg ProofIndexer ProofOpen ProofPIOP ProofPIOP2 ProofPIOP3 ProofColumns
  ProofVerifierCols ProofProver ProofCounts ProofRounds.

Set Implicit Arguments.
Unset Strict Implicit.
Unset Printing Implicit Defensive.

Import GRing.Theory.
Local Open Scope ring_scope.

Section Rows.
Variables (F : fieldType) (env : fenv F).
Hypothesis eok : fenv_ok env.
Variables (d : domain F).
Hypothesis sd : std_domain env d.
Let n := dsize d.
Let w := dgen d.

Lemma interpolates_tabulates o : interpolates d o -> tabulates d o.
Proof. by case=> sz E i Hi; have := query_row_poly eok curr sd sz E Hi; rewrite rot_point_curr pevalE /rot_row /= addn0 modn_small. Qed.
Lemma opoly_row o r i : tabulates d o -> (i < n)%N -> (opoly o).[rot_point w r (w ^+ i)] = (po_evals o)`_(rot_row n r i).
Proof.
have dok := std_domain_ok eok sd; have n0 := dsize_gt0 dok.
by move=> Ho Hi; rewrite -Ho ?rot_row_lt // -/(element d _) -[rot_row _ _ _]/(rot_row (dsize d) r i) rot_row_point.
Qed.
Lemma rot_row_curr i : (i < n)%N -> rot_row n curr i = i.
Proof. by move=> Hi; rewrite /rot_row /= addn0 modn_small. Qed.
Lemma opoly_at_row o i : tabulates d o -> (i < n)%N -> (opoly o).[w ^+ i] = (po_evals o)`_i.
Proof. by move=> Ho Hi; have := opoly_row curr Ho Hi; rewrite rot_point_curr rot_row_curr. Qed.
Lemma scaled_row o k i : tabulates d o -> (i < n)%N ->
  (scaled_arg (w ^+ k) (opoly o)).[w ^+ i] = (po_evals o)`_(rot_row n (k, Plus) i).
Proof. by move=> Ho Hi; rewrite scaled_arg_at mulrC -(opoly_row (k, Plus) Ho Hi). Qed.
Lemma scaled_next o i : tabulates d o -> (i < n)%N ->
  (scaled_arg w (opoly o)).[w ^+ i] = (po_evals o)`_(rot_row n next i).
Proof. by move=> Ho Hi; rewrite -(scaled_row 1 Ho Hi) expr1. Qed.
Lemma scaled_prev o i : tabulates d o -> (i < n)%N ->
  (scaled_arg w^-1 (opoly o)).[w ^+ i] = (po_evals o)`_(rot_row n prev i).
Proof. by move=> Ho Hi; rewrite scaled_arg_at mulrC -(opoly_row prev Ho Hi). Qed.
Lemma map_iota_idx A B (g : nat -> B) (h : A -> B) (s : seq A) :
  (forall j a, idx s j = Ok a -> g j = h a) -> map g (iota 0 (size s)) = map h s.
Proof.
elim: s g => //= a s IH g H; rewrite (H 0%N a erefl) -(IH (fun j => g j.+1)) => [|j b Hj]; last exact: (H j.+1).
by rewrite -[1%N]addn0 iotaDl -map_comp.
Qed.

Variables (vk : verifier_key F) (beta gamma : F) (A : assignment F) (nl : nat).
Let pa := ix_perm (vk_index vk).
Let u := pa_usable_rows pa.
Let cp := copied (as_ws A).
Let K := size cp.
Hypothesis shape : shape_ok d pa A nl.
Hypothesis Hcols : forall o, occurs o (cp ++ as_sigmas A ++ as_zs A ++ [:: as_qb A]) -> tabulates d o.
Hypothesis blind : forall i, (i < n)%N -> (po_evals (as_qb A))`_i = (u < i)%N%:R.

Lemma cell_idx os j i (o : poracle F) : idx os j = Ok o -> cell_value os j i = (po_evals o)`_i.
Proof. by rewrite /cell_value => ->. Qed.

Lemma perm_polys_row i : ~~ nilp cp -> (i < n)%N ->
  [seq p.[w ^+ i] | p <- perm_polys d pa beta gamma A] =
  perm_constraints (i == 0%N)%:R (i == u)%:R (u < i)%N%:R beta gamma
     (perm_chunks (pa_max_cols pa) [seq (cell_value cp j i, cell_value (as_sigmas A) j i, (pa_deltas pa)`_j * w ^+ i) | j <- iota 0 K]
        [seq (cell_value (as_zs A) j i, cell_value (as_zs A) j (rot_row n next i), cell_value (as_zs A) j (rot_row n (u, Plus) i))
          | j <- iota 0 (size (chunks (pa_max_cols pa) (iota 0 K)))]).
Proof.
move=> ne Hi; case: shape => n1 un _ _; rewrite -/cp -/K.
have K0 : (0 < K)%N by rewrite lt0n.
rewrite eqn0Ngt K0 /= => -[m0 ss sdl sz].
rewrite /perm_polys -/cp (negbTE ne) -[LHS]/(map (horner_eval (w ^+ i)) _).
rewrite (map_perm_constraints [rmorphism of horner_eval (w ^+ i)]) /= map_perm_chunks //.
have hC c : horner_eval (w ^+ i) c%:P = c by rewrite /horner_eval hornerC.
rewrite !hC /horner_eval -/w !(row_selector_at eok sd) ?(ltnW n1) // opoly_at_row //; last first.
  by apply: Hcols; do !(apply/occurs_cat; right); left.
rewrite blind //; congr (perm_constraints _ _ _ _ _ (perm_chunks _ _ _)).
- have -> : iota 0 K = iota 0 (size (zip (zip cp (as_sigmas A)) (pa_deltas pa))) by rewrite !size_zip ss sdl !minnn.
  rewrite (@map_iota_idx _ _ _ (fun t => ((po_evals t.1.1)`_i, (po_evals t.1.2)`_i, t.2 * w ^+ i))); last first.
    move=> j [[a b] c] Hj; have [Hab Hc] := idx_zip Hj; have [Ha Hb] := idx_zip Hab.
    by rewrite (cell_idx _ Ha) (cell_idx _ Hb) (idx_ok_nth 0 Hc).
  have -> : zip (zip (map (@opoly F) cp) (map (@opoly F) (as_sigmas A))) (pa_deltas pa) =
       [seq (opoly t.1.1, opoly t.1.2, t.2) | t <- zip (zip cp (as_sigmas A)) (pa_deltas pa)].
    by elim: cp (as_sigmas A) (pa_deltas pa) => [|a s IH] [|b t] [|c r] //=; rewrite IH.
  rewrite -!map_comp; apply: map_occurs => -[[a b] c] Ht /=.
  have [Hab _] := occurs_zip Ht; have [Ha Hb] := occurs_zip Hab.
  rewrite /map_col /= /horner_eval hornerZ hornerX !opoly_at_row //; apply: Hcols.
    by apply/occurs_cat; right; apply/occurs_cat; left.
  by apply/occurs_cat; left.
- have -> : size (chunks (pa_max_cols pa) (iota 0 K)) = size (as_zs A) by rewrite sz !size_chunks // size_iota.
  rewrite (@map_iota_idx _ _ _ (fun z => ((po_evals z)`_i, (po_evals z)`_(rot_row n next i), (po_evals z)`_(rot_row n (u, Plus) i)))); last first.
    by move=> j z Hz; rewrite !(cell_idx _ Hz).
  rewrite -!map_comp; apply: map_occurs => z Hz /=.
  have Hp : tabulates d z by apply: Hcols; do 2!(apply/occurs_cat; right); apply/occurs_cat; left.
  by rewrite /map_col /= /horner_eval opoly_at_row // scaled_row // scaled_next.
Qed.

Lemma lookup_polys_row a s i lo z :
  tabulates d (lo_a' lo) -> tabulates d (lo_s' lo) -> tabulates d z -> tabulates d (as_qb A) ->
  (opoly (lo_a lo)).[w ^+ i] = a -> (opoly (lo_s lo)).[w ^+ i] = s -> (i < n)%N ->
  [seq p.[w ^+ i] | p <- lcons d vk A beta gamma (lo, z)] =
  lookup_constraints (i == 0%N)%:R (i == u)%:R (u < i)%N%:R beta gamma a s (po_evals (lo_a' lo))`_i (po_evals (lo_s' lo))`_i
    (po_evals (lo_a' lo))`_(rot_row n prev i) (po_evals z)`_i (po_evals z)`_(rot_row n next i).
Proof.
move=> Ha Hs Hz Hq Ea Es Hi; case: shape => n1 un _ _ _.
rewrite /lcons -[LHS]/(map (horner_eval (w ^+ i)) _) (map_lookup_constraints [rmorphism of horner_eval (w ^+ i)]) /=.
rewrite /horner_eval !hornerC -/w !(row_selector_at eok sd) ?(ltnW n1) // Ea Es !opoly_at_row //.
by rewrite scaled_next // scaled_prev // blind.
Qed.
End Rows.

Lemma expr_poly_size_wf (F : fieldType) (env : fenv F) (eok : fenv_ok env) (d ext : domain F) (ws ins fs : seq (poracle F)) e :
  (0 < dsize d)%N -> std_domain env d ->
  well_formed env d ext ws -> well_formed env d ext ins -> well_formed env d ext fs ->
  (forall q, occurs q (leaves e) -> query_ok ws ins fs (dsize d) q) ->
  (size (expr_poly ws ins fs (dgen d) e) <= (expr_degree (dsize d).-1 e).+1)%N.
Proof.
move=> n0 sd hw hi hf; rewrite /expr_poly; elim: e => [c|q|a IH|a IHa b IHb|a IHa b IHb|a IH c] /= H.
- by rewrite size_polyC_leq1.
- have /andP[qr _] := H q (or_introl erefl); rewrite prednK // /query_poly.
  have [o [_ Hn [Ho _]]] := query_leaf_resolves hw hi hf (fun o r => Ok o) qr; rewrite /poly_named Hn /=.
  have := @db_scaled F (dsize d).-1 1 (rot_point (dgen d) (oq_rot q) 1) (opoly o).
  by rewrite /db mul1n prednK //; apply; apply: leq_trans (size_Poly _) _; apply: size_po_poly.
- by rewrite size_opp; apply: IH.
- have Ha := IHa (fun q Hq => H q (proj2 (occurs_cat _ _ _) (or_introl Hq))).
  have Hb := IHb (fun q Hq => H q (proj2 (occurs_cat _ _ _) (or_intror Hq))).
  by apply: leq_trans (size_add _ _) _; rewrite geq_max -maxnSS !leq_max Ha Hb orbT.
- have Ha := IHa (fun q Hq => H q (proj2 (occurs_cat _ _ _) (or_introl Hq))).
  have Hb := IHb (fun q Hq => H q (proj2 (occurs_cat _ _ _) (or_intror Hq))).
  apply: leq_trans (size_mul_leq _ _) _; move: Ha Hb; set x := size _; set y := size _; move: x y => x y; lia.
- by apply: leq_trans (size_scale_leq _ _) _; apply: IH.
Qed.

Lemma quotient_round_inv (F : fieldType) (env : fenv F) (PC : pcs F) vk (pre : prover_pre PC) ws ins tc zs los lzs vos beta gamma alpha d cs :
  prover_quotient_round env vk pre ws ins tc zs los lzs vos beta gamma alpha d = Ok cs ->
  (0 < size vos)%N /\ (pa_usable_rows (ix_perm (vk_index vk)) < dsize d)%N.
Proof.
rewrite /prover_quotient_round /alpha_schedule; case: vos => [|v vos] //=.
case: (unit_poly _ _ 0) => [l0|//|//]; cbn [rbind].
by rewrite /unit_poly; case: ifP.
Qed.

(** The rounds before the quotient: all that is needed of a run of the prover below. *)
Section Early.
Variables (F : fieldType) (env : fenv F) (PC : pcs F).
Record early_trace (vk : verifier_key F) (pre : prover_pre PC) (ws0 ins0 : seq (poracle F)) (vos : seq (generic_vo F)) (ds : nat)
    (theta beta gamma : F) (T : ptrace PC) : Prop := EarlyTrace {
  et_d : domain_new env ds = Some (t_d T);
  et_los : prover_lookup_round env pre (vk_index vk) (ws_ext env vk ws0) (ins_ext env vk ins0) theta (t_d T)
    (enumerate (ix_lookups (vk_index vk))) (t_zk1 T) = Ok (t_los T, t_zk2 T);
  et_zs : prover_permutation_round env (ix_perm (vk_index vk)) pre (oracles_to_copy (ws_ext env vk ws0)) beta gamma (t_d T)
    (ix_ext (vk_index vk)) (t_zk3 T) = Ok (t_zs T, t_zk4 T);
  et_lzs : prover_subset_round env (vk_index vk) beta gamma (t_d T) (enumerate (t_los T)) (t_zk5 T) = Ok (t_lzs T, t_zk6 T);
  et_vos : (0 < size vos)%N;
  et_u : (pa_usable_rows (ix_perm (vk_index vk)) < dsize (t_d T))%N }.
Lemma early_of ck vk pre ws0 ins0 vos ds zk theta beta gamma alpha xi pf T :
  prover_trace env ck vk pre ws0 ins0 vos ds zk theta beta gamma alpha xi pf T ->
  early_trace vk pre ws0 ins0 vos ds theta beta gamma T.
Proof. by move=> tr; have [h1 h2] := quotient_round_inv (pt_chunks tr); case: tr. Qed.
End Early.
Coercion early_of : prover_trace >-> early_trace.

Section Run.
Variables (F : fieldType) (env : fenv F).
Hypothesis eok : fenv_ok env.
Variables (PC : pcs F) (C : circuit F) (vk : verifier_key F) (theta beta gamma : F) (T : ptrace PC).
Let ix := vk_index vk.
Let ext := ix_ext ix.
Let d := c_d C.
Let n := c_rows C.
Let w := dgen d.
Let pre := preprocessed env PC C vk.
Notation f := (compute_extended_evals env ext).
Hypothesis sd : std_domain env d.
Hypothesis ixd : indexed env C vk.
Hypothesis lay : laid_out C.
Hypothesis lks : lookups_ok C (dsize ext).
Hypothesis tr : early_trace env vk pre (c_ws C) (c_ins C) (c_vos C) n theta beta gamma T.

Lemma t_dE : t_d T = d.
Proof. by have := et_d tr; rewrite (sd : domain_new _ n = _) => -[]. Qed.
Lemma ext_std : std_domain env ext /\ (n <= dsize ext)%N.
Proof. by have [qd [_ _ [se Es] _ _]] := index_inv eok sd ixd; split=> //; rewrite -/ix -/ext in Es; rewrite Es leq_pmull. Qed.
Lemma usable : pa_usable_rows (ix_perm ix) = pi_u (c_info C) /\ ix_usable_rows ix = c_u C.
Proof. by have [-> _ ->] := index_rows ixd. Qed.
Lemma ix_lookupsE : ix_lookups ix = c_lookups C.
Proof. by have [qd [_ [_ E] _ _ _]] := index_inv eok sd ixd. Qed.
Lemma vos_pos : (0 < size (c_vos C))%N.
Proof. exact: et_vos tr. Qed.
Lemma u_lt : (pa_usable_rows (ix_perm ix) < n)%N.
Proof. by have := et_u tr; rewrite t_dE. Qed.

Definition honest : assignment F :=
  Assignment (map f (c_ws C)) (map f (c_ins C)) (map f (c_fs C)) (f (c_qb C)) (map f (c_sigmas C)) (t_zs T) (t_los T) (t_lzs T).
Lemma lay_in o : occurs o (c_ws C) \/ occurs o (c_ins C) \/ occurs o (c_fs C) \/ occurs o (c_ts C) \/ occurs o (c_sigmas C) \/ o = c_qb C ->
  interpolates d o.
Proof.
move=> H; apply: (lay_cols lay); rewrite !occurs_cat /=.
by case: H => [|[|[|[|[|]]]]]; tauto.
Qed.
Lemma wf_ws : well_formed env d ext (map f (c_ws C)).
Proof. by apply: well_formed_ext => [o Ho|]; [apply: lay_in; tauto|have [] := lay_labels lay]. Qed.
Lemma wf_ins : well_formed env d ext (map f (c_ins C)).
Proof. by apply: well_formed_ext => [o Ho|]; [apply: lay_in; tauto|have [] := lay_labels lay]. Qed.
Lemma wf_fs : well_formed env d ext (map f (c_fs C)).
Proof. by apply: well_formed_ext => [o Ho|]; [apply: lay_in; tauto|have [] := lay_labels lay]. Qed.
Lemma wf_ts : well_formed env d ext (map f (c_ts C)).
Proof. by apply: well_formed_ext => [o Ho|]; [apply: lay_in; tauto|have [] := lay_labels lay]. Qed.
Lemma copied_eq : oracles_to_copy (ws_ext env vk (c_ws C)) = copied (map f (c_ws C)).
Proof. by []. Qed.

(** The permutation round. *)
Lemma honest_perm :
  (nilp (copied (map f (c_ws C))) /\ t_zs T = [::]) \/
  [/\ ~~ nilp (copied (map f (c_ws C))), [/\ (0 < pa_max_cols (ix_perm ix))%N, size (c_sigmas C) = size (copied (map f (c_ws C))),
        size (pa_deltas (ix_perm ix)) = size (copied (map f (c_ws C))) &
        size (t_zs T) = size (chunks (pa_max_cols (ix_perm ix)) (copied (map f (c_ws C))))],
      perm_rows_hold n (pa_usable_rows (ix_perm ix)) (pa_max_cols (ix_perm ix)) (size (copied (map f (c_ws C)))) beta gamma
        (cell_value (copied (map f (c_ws C)))) (cell_value (map f (c_sigmas C)))
        (fun j i => (pa_deltas (ix_perm ix))`_j * w ^+ i) (cell_value (t_zs T)),
      map (@o_label _) (t_zs T) = [seq append "agg_permutation_" (show_nat k) | k <- iota 0 (size (t_zs T))] &
      forall k z, idx (t_zs T) k = Ok z -> prepared env d ext z /\
        o_rots z = if k.+1 == size (t_zs T) then [:: curr; next] else sinsert rot_lt (pa_usable_rows (ix_perm ix), Plus) [:: curr; next]].
Proof.
have := et_zs tr; rewrite t_dE copied_eq => H.
have Hsz o : occurs o (copied (map f (c_ws C))) \/ occurs o (pp_perm pre) -> size (po_evals o) = dsize d.
  case=> Ho; first by have [o' Ho' ->] := occurs_map (occurs_filter Ho); have [|-> //] := lay_in (o := o'); tauto.
  by have [o' Ho' ->] := occurs_map Ho; have [|-> //] := lay_in (o := o'); tauto.
have [[h1 h2]|[h1 [h2 h3 h4 h5] h6 h7 h8]] := permutation_round_inv u_lt Hsz H; first by left.
by right; split=> //; split=> //; rewrite -h3 size_map.
Qed.

(** The lookup rounds. *)
Lemma lookup_size (es : seq (expr F oquery)) :
  exprs_ok (c_ws C) (c_ins C) (c_fs C) n es -> (forall e, occurs e es -> (expr_degree n.-1 e < dsize ext)%N) ->
  (size (lookup_poly (map f (c_ws C)) (map f (c_ins C)) (map f (c_fs C)) w es theta) <= dsize ext)%N.
Proof.
move=> H1 H2; apply: size_compressed => p Hp; have [e He ->] := in_map_occurs Hp.
apply: leq_trans (H2 e He); apply: (expr_poly_size_wf eok _ sd wf_ws wf_ins wf_fs) => [|q Hq].
  exact: ltnW (lay_rows lay).
exact: (exprs_ok_ext _ _ H1) He Hq.
Qed.
Lemma lookup_pos j l : idx (c_lookups C) j = Ok l -> [/\ pi_u (c_info C) = c_u C, (0 < c_u C)%N & (c_u C < n)%N].
Proof. by case: lks => _ H Hl; apply: H; have := idx_lt Hl; case: (c_lookups C). Qed.
Lemma size_los : size (t_los T) = size (c_lookups C).
Proof. by rewrite (lookup_round_size (et_los tr)) size_enumerate ix_lookupsE. Qed.
Lemma size_lzs : size (t_lzs T) = size (c_lookups C).
Proof. by rewrite (subset_round_size (et_lzs tr)) size_enumerate size_los. Qed.
Definition lookup_cols es tqs := lookup_columns env d ext (map f (c_ws C)) (map f (c_ins C)) (map f (c_fs C)) (map f (c_ts C)) (c_u C) es tqs theta.
Lemma honest_lookup j l lo : idx (c_lookups C) j = Ok l -> idx (t_los T) j = Ok lo ->
  exists es tqs, [/\ gl_get_expressions l = Ok es, gl_get_table_queries l = Ok tqs,
    exprs_ok (c_ws C) (c_ins C) (c_fs C) n es /\ exprs_declared (c_ws C) (c_fs C) es,
    [/\ table_queries_ok (c_ts C) tqs, tables_declared (c_ts C) tqs, size es = size tqs &
     (forall e q, occurs e es -> occurs q (leaves e) -> oq_type q <> Witness -> oq_rot q = curr)] &
    lookup_cols es tqs lo].
Proof.
move=> Hl Hlo; have [se le] := ext_std.
have := each2_idx (lookup_round_inv (et_los tr)) (j := j) (x := (j, l)) (y := lo).
rewrite idx_enumerate ix_lookupsE Hl /= t_dE usable.2 => /(_ erefl Hlo)[es [tqs [zk1 [zk2 [E1 E2 E3]]]]].
case: lks => /(_ _ (occurs_idx Hl))[es' [tqs' [E1' E2' [h1 h2] [h3 h4] [h5 h6]]]] _.
have [? ?] : es = es' /\ tqs = tqs' by move: E1 E2; rewrite E1' E2' => -[->] [->].
subst es' tqs'; exists es, tqs.
have h1e := exprs_ok_ext env ext h1; have h3e := (tables_ext env ext (conj h3 h4)).1.
have [h7 h8 h9 h10] := construct_columns_inv eok sd se le wf_ws wf_ins wf_fs wf_ts h1e h3e (lookup_size h1 h6) E3.
by split=> //; split.
Qed.
Lemma honest_subset j l lo z es tqs : idx (c_lookups C) j = Ok l -> idx (t_los T) j = Ok lo -> idx (t_lzs T) j = Ok z ->
  lookup_cols es tqs lo ->
  prepared env d ext z /\ o_rots z = [:: curr; next] /\
  lookup_rows_hold n (c_u C) beta gamma (fun i => (opoly (lo_a lo)).[w ^+ i]) (fun i => (opoly (lo_s lo)).[w ^+ i])
    (fun i => (po_evals (lo_a' lo))`_i) (fun i => (po_evals (lo_s' lo))`_i) (fun i => (po_evals z)`_i).
Proof.
move=> Hl Hlo Hz Hc; have [_ u0 un] := lookup_pos Hl; have [se le] := ext_std.
have := each2_idx (subset_round_inv (et_lzs tr)) (j := j) (x := (j, lo)) (y := z).
rewrite idx_enumerate Hlo /= t_dE usable.2 => /(_ erefl Hz)[zk1 [zk2 E]].
have [h1 h2 h3 h4] := subset_rows eok un u0 Hc E; do 2!split=> //.
case: Hc => -[ia is_ _ _] _ [Ha Hs] _ _.
move=> i Hi c; rewrite !(opoly_at_row eok sd) //; try exact: (interpolates_tabulates eok sd); move=> Hin; apply: (h4 i Hi); rewrite -Ha // -Hs //.
Qed.

(** The assignment is consistent. *)
Lemma honest_shape : shape_ok d (ix_perm ix) honest (size (ix_lookups ix)).
Proof.
split=> //; rewrite ?ix_lookupsE ?size_los ?size_lzs //; first exact: lay_rows lay.
  exact: u_lt.
rewrite /honest /=; case: honest_perm => [[nn ->]|[nn [h1 h2 h3 h4] _ _ _]].
  by move/nilP: nn => ->.
by rewrite -[_ == 0%N]/(nilp _) (negbTE nn); split=> //; rewrite size_map.
Qed.
Lemma honest_zs z : occurs z (t_zs T) -> prepared env d ext z.
Proof.
move=> Hz; have [k Hk] := occurs_ex_idx Hz; case: honest_perm => [[_ E]|[_ _ _ _ H]]; first by move: Hz; rewrite E.
by have [] := H _ _ Hk.
Qed.
Lemma honest_lo lo : occurs lo (t_los T) -> exists j l es tqs, [/\ idx (c_lookups C) j = Ok l, idx (t_los T) j = Ok lo & lookup_cols es tqs lo].
Proof.
move=> Ho; have [j Hj] := occurs_ex_idx Ho; have [l Hl] := idx_size2 size_los Hj.
by have [es [tqs [_ _ _ _ H]]] := honest_lookup Hl Hj; exists j, l, es, tqs.
Qed.
Lemma honest_ok : assignment_ok env d ext honest.
Proof.
split=> /=.
- exact: wf_ws.
- exact: wf_ins.
- exact: wf_fs.
- by apply: prepared_ext; apply: lay_in; tauto.
- by move=> o Ho; have [o' Ho' ->] := occurs_map Ho; apply: prepared_ext; apply: lay_in; tauto.
- exact: honest_zs.
- move=> lo /honest_lo[j [l [es [tqs [_ _ [[a1 a2 a3 a4] [b1 b2 b3 b4] _ _ _]]]]]].
  by split.
- move=> z Hz; have [j Hj] := occurs_ex_idx Hz; have [l Hl] := idx_size2 size_lzs Hj.
  have [lo Hlo] := idx_size2 (esym size_los) Hl; have [es [tqs [_ _ _ _ Hc]]] := honest_lookup Hl Hlo.
  by have [] := honest_subset Hl Hlo Hj Hc.
Qed.
Lemma honest_blind i : ~~ nilp (copied (map f (c_ws C))) \/ ~~ nilp (c_lookups C) -> (i < n)%N ->
  (po_evals (as_qb honest))`_i = (pa_usable_rows (ix_perm ix) < i)%N%:R.
Proof.
move=> H Hi; rewrite usable.1 -(lay_blind lay) // /c_arguments; case: H => [H|->]; last by rewrite orbT.
by move: H; rewrite copied_ext /nilp size_map => ->.
Qed.
Lemma honest_rows p i : p \in perm_polys d (ix_perm ix) beta gamma honest ++ flatten (lookup_polys d (ix_perm ix) beta gamma honest) ->
  (i < n)%N -> p.[w ^+ i] = 0.
Proof.
rewrite mem_cat => /orP[Hp Hi|Hp Hi].
- case: honest_perm => [[nn _]|[nn [h1 h2 h3 h4] h5 _ h8]]; first by move: Hp; rewrite /perm_polys /= nn.
  have := @perm_polys_row F env eok d sd vk beta gamma honest _ honest_shape _ _ i nn Hi.
  move=> /(_ _ _)H; apply: (h5 i Hi); rewrite -H; first exact: (map_f (horner^~ (w ^+ i)) Hp).
    move=> o Ho; apply: (interpolates_tabulates eok sd); move: Ho; rewrite !occurs_cat /= => -[Ho|[Ho|[Ho|[->|//]]]].
    + by have [o' Ho' ->] := occurs_map (occurs_filter Ho); apply: (@lay_in o'); tauto.
    + by have [o' Ho' ->] := occurs_map Ho; apply: (@lay_in o'); tauto.
    + by have [] := honest_zs Ho.
    + by apply: (@lay_in (c_qb C)); tauto.
  by move=> k Hk; apply: honest_blind => //; left.
have [ps Hps Hin] := flattenP Hp; have [[lo z] Ht E] := in_map_occurs Hps.
have [j Hj] := occurs_ex_idx Ht; have [Hlo Hz] := idx_zip Hj.
have [l Hl] := idx_size2 size_los Hlo; have [es [tqs [_ _ _ _ Hc]]] := honest_lookup Hl Hlo.
have [[hz _] [_ Hrows]] := honest_subset Hl Hlo Hz Hc; have [Eu _ _] := lookup_pos Hl.
case: Hc => -[_ _ a3 a4] _ _ _ _.
have := @lookup_polys_row F env eok d sd vk beta gamma honest _ honest_shape _ _ _ i lo z
  (interpolates_tabulates eok sd a3) (interpolates_tabulates eok sd a4) (interpolates_tabulates eok sd hz) _ erefl erefl Hi.
move=> /(_ _ _)H; apply: (Hrows i Hi); rewrite -Eu -usable.1 -H.
- by apply: (map_f (horner^~ (w ^+ i))); rewrite E in Hin.
- move=> k Hk; apply: honest_blind => //; right; by have := idx_lt Hl; case: (c_lookups C).
- by apply: (interpolates_tabulates eok sd); apply: (@lay_in (c_qb C)); tauto.
Qed.
End Run.
