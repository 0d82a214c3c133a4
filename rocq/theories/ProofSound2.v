(** The columns behind the commitments: their values row by row, and the degrees of the constraints on them. *)
From mathcomp Require Import all_ssreflect all_algebra.
From mathcomp Require Import zify.
From Coq Require Import String.
From Verif Require Import Base ModelPoly ModelVO ModelOracle ModelPC ModelPermutation
  ModelLookup ModelIndexer ModelMultiproof ModelProtocol Spec SpecProtocol SpecPIOP SpecMultiopen SpecCircuit SpecSound
  ProofVO ProofBase ProofPoly ProofDomain ProofEach ProofOracle ProofPermutation ProofPermArg ProofIndexer ProofOpen ProofPIOP ProofPIOP2 ProofPIOP3 ProofColumns
  ProofVerifierCols ProofProver ProofFront ProofCounts ProofRounds ProofHonest ProofComplete ProofSound.

Set Implicit Arguments.
Unset Strict Implicit.
Unset Printing Implicit Defensive.

Import GRing.Theory.
Local Open Scope ring_scope.

Section Tables.
Variables (F : fieldType) (env : fenv F).
Hypothesis eok : fenv_ok env.
Variable d : domain F.
Hypothesis sd : std_domain env d.
Let n := dsize d.
Let w := dgen d.

Lemma tabulates_column l r p c : tabulates d (column d l r p c).
Proof.
by move=> i Hi; rewrite /opoly /= (nth_map 0%N) ?size_iota // nth_iota // pevalE.
Qed.
Lemma named_value os l r i : (forall o, occurs o os -> tabulates d o) -> (i < n)%N ->
  peval (poly_named os l) (rot_point w r (w ^+ i)) = (column_named os l)`_(rot_row n r i).
Proof.
move=> H Hi; rewrite /poly_named /column_named; case E: (named os l) => [o|] /=; last by rewrite nth_nil.
rewrite pevalE; apply: (opoly_row eok sd) => //; apply: H.
by move: E; rewrite /named; elim: os => //= a os IH; case: ifP => [_ [->]|_ /IH]; [left|right].
Qed.

Variables (ws ins fs ts : seq (poracle F)).
Hypothesis tw : forall o, occurs o ws -> tabulates d o.
Hypothesis ti : forall o, occurs o ins -> tabulates d o.
Hypothesis tf : forall o, occurs o fs -> tabulates d o.
Hypothesis tt : forall o, occurs o ts -> tabulates d o.
Lemma point_row i q : (i < n)%N -> point_value ws ins fs w (w ^+ i) q = row_value ws ins fs n i q.
Proof.
by move=> Hi; rewrite /point_value /row_value; apply: named_value => // o; rewrite /oracles_of; case: (oq_type q); [exact: tw|exact: ti|exact: tf].
Qed.
Lemma expr_poly_row i e : (i < n)%N -> (expr_poly ws ins fs w e).[w ^+ i] = meaning (row_value ws ins fs n i) e.
Proof. by move=> Hi; rewrite expr_poly_at; apply: eq_meaning => q _; exact: point_row. Qed.
Lemma lookup_poly_row i xs theta : (i < n)%N -> (lookup_poly ws ins fs w xs theta).[w ^+ i] = lookup_row ws ins fs n xs theta i.
Proof.
move=> Hi; rewrite /lookup_poly compressed_horner -map_comp; congr (compressed _ _).
by apply: eq_map => e /=; exact: expr_poly_row.
Qed.
Lemma table_poly_row i tqs theta : (i < n)%N ->
  (compressed theta%:P [seq Poly (poly_named ts (oq_label q)) | q <- tqs]).[w ^+ i] = table_row ts tqs theta i.
Proof.
move=> Hi; rewrite compressed_horner -map_comp; congr (compressed _ _); apply: eq_map => q /=.
have := named_value (oq_label q) curr tt Hi; rewrite rot_point_curr /rot_row /= addn0 modn_small // => <-.
by rewrite pevalE.
Qed.
End Tables.

Section Bound.
Variables (F : fieldType) (env : fenv F).
Hypothesis eok : fenv_ok env.
Variables (PC : pcs F) (op : pc_com PC -> {poly F}) (S : vinput PC) (es : seq (expr F oquery)) (cm : commitments PC)
  (theta beta gamma : F) (B : nat).
Let d := s_d S.
Let n := dsize d.
Let w := dgen d.
Let A := bound op S theta cm.
Let pa := s_perm S.
Let u := pa_usable_rows pa.
Let k := (maxn B n).-1.
Hypothesis sd : std_domain env d.
Hypothesis rdy : verifiable S es.
Hypothesis cnt : well_counted S cm.
Hypothesis sml : small op S cm B.
Hypothesis smi : forall o, occurs o (s_ins S) -> (size (o_data o) <= B)%N.

Lemma k_pos : (0 < k)%N.
Proof. by have [n1 _] := rd_rows rdy; rewrite /k -/n; move: n1; rewrite -/d -/n; lia. Qed.
Lemma dle_size (p : {poly F}) : (size p <= B)%N -> dle p k.
Proof. by rewrite /dle /k => H; apply: leq_trans H _; lia. Qed.
Lemma dle_rows (p : {poly F}) : (size p <= n)%N -> dle p k.
Proof. by rewrite /dle /k => H; apply: leq_trans H _; lia. Qed.
Lemma dle_scaled c (p : {poly F}) a : dle p a -> dle (scaled_arg c p) a.
Proof. by have := @db_scaled F a 1 c p; rewrite /db /dle mul1n. Qed.
Lemma opoly_op l r (p : {poly F}) c : opoly (column d l r p c) = p.
Proof. by rewrite /opoly /= polyseqK. Qed.
Lemma dle_cm c : occurs c (cm_w cm ++ cm_l cm ++ cm_z cm ++ cm_lz cm) -> dle (op c) k.
Proof. by move=> H; apply: dle_size; exact: sml.1. Qed.
Lemma dle_pre v : occurs v (vp_fixed (s_pre S) ++ vp_table (s_pre S) ++ vp_perm (s_pre S) ++ [:: vp_q_blind (s_pre S)]) ->
  dle (opoly (committed op d v)) k.
Proof.
by move=> H; have [c Hc] := rd_committed rdy H; rewrite /committed Hc opoly_op; apply: dle_size; exact: sml.2 Hc.
Qed.
Lemma dle_ws o : occurs o (bound_ws op S (cm_w cm)) -> dle (opoly o) k.
Proof.
move=> Ho; have [v Hv ->] := occurs_map Ho; have [j Hj] := occurs_ex_idx Hv; have [sw _ _ _] := cnt.
have [c Hc Hin] := register_known sw Hj; rewrite /committed Hc opoly_op; apply: dle_cm; apply/occurs_cat; by left.
Qed.
Lemma dle_fs o : occurs o (bound_fs op S) -> dle (opoly o) k.
Proof. by move=> Ho; have [v Hv ->] := occurs_map Ho; apply: dle_pre; apply/occurs_cat; left. Qed.
Lemma dle_ts o : occurs o (bound_ts op S) -> dle (opoly o) k.
Proof. by move=> Ho; have [v Hv ->] := occurs_map Ho; apply: dle_pre; apply/occurs_cat; right; apply/occurs_cat; left. Qed.
Lemma dle_ins o : occurs o (bound_ins S) -> dle (opoly o) k.
Proof.
by move=> Ho; have [v Hv ->] := occurs_map Ho; apply: dle_size; apply: leq_trans (size_Poly _) _; exact: smi.
Qed.
Lemma dle_named (os : seq (poracle F)) l : (forall o, occurs o os -> dle (opoly o) k) -> dle (Poly (poly_named os l)) k.
Proof.
move=> H; rewrite /poly_named; case E: (named os l) => [o|] /=; last by rewrite /dle size_poly0.
by apply: H; move: E; rewrite /named; elim: os => //= a os IH; case: ifP => [_ [->]|_ /IH]; [left|right].
Qed.
Lemma dle_expr e : dle (expr_poly (as_ws A) (as_ins A) (as_fs A) w e) (expr_degree k e).
Proof.
rewrite expr_polyE; apply: size_pmeaning_bound => q _; apply: leq_trans (size_comp_lin _ _) _.
by apply: dle_named => o; rewrite /oracles_of; case: (oq_type q); [exact: dle_ws|exact: dle_ins|exact: dle_fs].
Qed.
Lemma dle_max e xs : occurs e xs -> dle (expr_poly (as_ws A) (as_ins A) (as_fs A) w e) (max_degree k xs).
Proof.
move=> He; apply: dle_le (dle_expr e); rewrite /max_degree.
by elim: xs He => //= x xs IH [->|/IH H]; rewrite big_cons leq_max ?leqnn // H orbT.
Qed.
Lemma dle_selector i : (i < n)%N -> dle (row_selector d i) k.
Proof. by move=> Hi; apply: dle_rows; rewrite (size_row_selector Hi). Qed.

Lemma constraint_size q : q \in constraint_polys d pa es beta gamma A -> (size q <= (constraint_degree S es B).+1)%N.
Proof.
have [n1 un] := rd_rows rdy; have shp := bound_shape op theta rdy cnt; case: shp => _ _ _ _; rewrite -/A -/pa => sp.
rewrite /constraint_polys /constraint_degree !mem_cat -/d -/n -/k -/pa => /orP[/in_map_occurs [e He ->]|/orP[]].
- by apply: dle_le (dle_max He); rewrite leq_maxl.
- rewrite /perm_polys; case: ifP => // nn; move: sp; rewrite -[_ == 0%N]/(nilp _) nn => -[m0 _ _ _] Hq.
  apply: (@dle_le _ _ ((pa_max_cols pa + 2) * k)); first by rewrite !leq_max leqnn orbT.
  apply: (dle_perm_constraints _ _ _ _ Hq m0).
  + move=> ch Hc; have [t Ht ->] := occurs_map Hc; have [H1 H2] := occurs_zip Ht.
    have [z Hz E] := occurs_map H2; have [o Ho Ez] := occurs_map Hz; have [c Hcz Eo] := occurs_map Ho.
    have dz : dle z k.
      rewrite Ez Eo opoly_op; apply: dle_cm; do 2!(apply/occurs_cat; right); by apply/occurs_cat; left.
    split; cbn [ch_cols ch_z ch_zn ch_zu]; rewrite ?E //; try exact: dle_scaled.
      exact: (occurs_chunks_size m0 H1).
    move=> y Hy; have [y' Hy' ->] := occurs_map (occurs_chunks m0 H1 Hy); have [Hy1 _] := occurs_zip Hy'; have [Hy3 Hy4] := occurs_zip Hy1.
    split=> /=; last by apply: dle_scale; apply: dle_X; exact: k_pos.
      by have [o' Ho' ->] := occurs_map Hy3; apply: dle_ws; exact: occurs_filter Ho'.
    have [o' Ho' ->] := occurs_map Hy4; have [v Hv ->] := occurs_map Ho'; apply: dle_pre.
    by do 2!(apply/occurs_cat; right); apply/occurs_cat; left.
  + by apply: dle_selector; exact: ltnW.
  + exact: dle_selector.
  + by apply: dle_pre; do 3!(apply/occurs_cat; right); left.
case/flattenP => l /in_map_occurs [[lo z] /occurs_zip [/= Hlo Hz] ->] Hq.
set kk := maxn k (max_degree k _); have kkk : (k <= kk)%N by rewrite leq_maxl.
have up (p : {poly F}) : dle p k -> dle p kk by exact: dle_le.
have [[lk cs] Hlc E] := occurs_map Hlo; have [/= Hl Hcs] := occurs_zip Hlc; cbn [fst snd] in E.
have [cc Ec [Ef _]] := l_pairs cnt.
have dl j : dle (op (nth (pc_zero PC) cs j)) k \/ (1 < j)%N.
  case: j => [|[|j]]; [left|left|by right]; move: Hcs; rewrite Ec => Hcs; have [[c0 c1] Hc ->] := occurs_map Hcs; apply: dle_cm;
   apply/occurs_cat; right; apply/occurs_cat; left; rewrite Ef; elim: (cc) Hc => //= a t IH [<-|/IH]; tauto.
have dl0 : dle (op (nth (pc_zero PC) cs 0)) k by case: (dl 0%N).
have dl1 : dle (op (nth (pc_zero PC) cs 1)) k by case: (dl 1%N).
have dz : dle (opoly z) k.
  by have [c Hc ->] := occurs_map Hz; rewrite opoly_op; apply: dle_cm; do 3!(apply/occurs_cat; right).
have da : dle (opoly (lo_a lo)) kk.
  rewrite E opoly_op /bound_a; apply: size_compressed => p /in_map_occurs[e He ->].
  apply: dle_le (dle_max (_ : occurs e (flatten [seq ok_or [::] (gl_get_expressions l) | l <- s_lookups S]))); first by rewrite leq_maxr.
  elim: (s_lookups S) Hl => //= a t IH [<-|/IH H]; apply/occurs_cat; [by left|by right].
have ds : dle (opoly (lo_s lo)) kk.
  rewrite E opoly_op /bound_s; apply: size_compressed => p /in_map_occurs[q' Hq' ->].
  by apply: up; apply: dle_named => o; exact: dle_ts.
apply: (@dle_le _ _ (4 * kk)); first by rewrite !leq_max leqnn !orbT.
apply: (dle_lookup_constraints _ _ _ _ _ _ _ _ _ _ Hq) => //; try (apply: up).
- by apply: dle_selector; exact: ltnW.
- exact: dle_selector.
- by apply: dle_pre; do 3!(apply/occurs_cat; right); left.
- by rewrite E opoly_op.
- by rewrite E opoly_op.
- by apply: dle_scaled; rewrite E opoly_op.
- by [].
- exact: dle_scaled.
Qed.
End Bound.
