(** Lemmas about the mock prover. *)
From mathcomp Require Import all_ssreflect all_algebra.
From Verif Require Import Base ModelPoly ModelVO ModelOracle ModelPC ModelPermutation ModelLookup ModelIndexer ModelMultiproof ModelProtocol
  Spec SpecProtocol ProofBase ProofPoly ProofDomain ProofVO ProofOracle ProofPermutation ProofColumns ProofMultiopen.

Set Implicit Arguments.
Unset Strict Implicit.
Unset Printing Implicit Defensive.

Import GRing.Theory.
Local Open Scope ring_scope.

(** A loop over a range that stops at the first panic. *)
Lemma scan_range (g : nat -> res unit) m n :
  (forall j, g j = Ok tt \/ exists p, g j = Panic p) ->
  (rfoldM (fun _ j => g j) tt (iota m n) = Ok tt /\ forall j, (m <= j < m + n)%N -> g j = Ok tt) \/
  (exists j p, [/\ rfoldM (fun _ j => g j) tt (iota m n) = Panic p, (m <= j < m + n)%N, g j = Panic p &
                 forall j', (m <= j' < j)%N -> g j' = Ok tt]).
Proof.
move=> Hg; elim: n m => [|n IH] m.
  by left; split=> // j; rewrite addn0 => /andP[H1]; rewrite ltnNge H1.
rewrite /=; case: (Hg m) => [E|[p E]]; rewrite E /=; last first.
  right; exists m, p; split=> //; first by rewrite leqnn -addSnnS leq_addr.
  by move=> j' /andP[H1]; rewrite ltnNge H1.
case: (IH m.+1) => [[E1 E2]|[j [p [E1 Hj E2 E3]]]].
  left; split=> // j /andP[]; rewrite leq_eqVlt => /orP[/eqP<- //|H1] H2.
  by apply: E2; rewrite H1 addSnnS.
right; exists j, p; split=> //.
  by move: Hj => /andP[H1 H2]; rewrite (ltnW H1) -addSnnS.
move=> j' /andP[]; rewrite leq_eqVlt => /orP[/eqP<- //|H1] H2.
by apply: E3; rewrite H1.
Qed.

Lemma rfoldM_enumerate A (f : nat * A -> res unit) (s : seq A) a0 :
  rfoldM (fun _ x => f x) tt (enumerate s) = rfoldM (fun _ j => f (j, nth a0 s j)) tt (iota 0 (size s)).
Proof.
have -> : enumerate s = [seq (j, nth a0 s j) | j <- iota 0 (size s)].
  apply: (@eq_from_nth _ (0%N, a0)); first by rewrite size_enumerate size_map size_iota.
  move=> i; rewrite size_enumerate => Hi.
  by rewrite nth_enumerate // (nth_map 0%N) ?size_iota // nth_iota.
by rewrite rfoldM_map.
Qed.

Section Mock.
Variables (F : fieldType) (env : fenv F) (PC : pcs F).
Hypothesis eok : fenv_ok env.
Variables (pre : prover_pre PC) (ws ins : seq (poracle F)) (vos : seq (generic_vo F)) (es : seq (expr F oquery)) (ds : nat) (d : domain F).
Hypothesis Hd : domain_new env ds = Some d.
Let fs := pp_fixed pre.
Let columns_ok (os : seq (poracle F)) := uniq (map (@o_label _) os) /\ forall o, occurs o os -> interpolates d o.
Hypothesis okw : columns_ok ws.
Hypothesis oki : columns_ok ins.
Hypothesis okf : columns_ok fs.
Hypothesis Hes : map (@gv_get_expression F) vos = map Ok es.
Hypothesis Hq : exprs_ok ws ins fs (dsize d) es.
Let value i k := meaning (row_value ws ins fs (dsize d) i) (nth (Const 0) es k).

Lemma mock_named os l e : columns_ok os -> l \in map (@o_label _) os ->
  exists o, [/\ resolve os l e = Ok o, named os l = Some o & interpolates d o].
Proof.
move=> [u H] Hl; have [o [j [Hj Hr Hn _]]] := named_resolve e u Hl.
by exists o; split=> //; apply: H; apply: occurs_idx Hj.
Qed.

Lemma mock_leaf_ok i q : (i < dsize d)%N -> query_ok ws ins fs (dsize d) q ->
  mock_leaf ws ins fs (elements d) (element d i) q = Ok (row_value ws ins fs (dsize d) i q).
Proof.
move=> Hi /andP[Hr Hb]; have [_ _ dok sd] := domain_new_spec eok Hd.
rewrite /mock_leaf compute_point_ok //= /query_leaf /row_value /column_named /oracles_of.
move: Hr; rewrite /query_resolves; case: (oq_type q) => Hl /=.
- have [o [-> -> [s1 s2]]] := mock_named (MissingWitnessOracle (oq_label q)) okw Hl.
  by rewrite /= (query_row_poly eok _ sd).
- have [o [-> -> [s1 s2]]] := mock_named (MissingInstanceOracle (oq_label q)) oki Hl.
  by rewrite /= (query_row_poly eok _ sd).
- have [o [-> -> [s1 s2]]] := mock_named (MissingFixedOracle (oq_label q)) okf Hl.
  by rewrite /= (query_row_poly eok _ sd).
Qed.

Lemma mock_step i k : (i < dsize d)%N -> (k < size es)%N ->
  (e <- res_unwrap (gv_get_expression (nth (gv_init (Const 0, [::])) vos k)) PUnwrap ;;
   v <- eval_res e (mock_leaf ws ins fs (elements d) (element d i)) ;;
   if v != 0 then Panic (PMock k i) else Ok tt) =
  if value i k == 0 then Ok tt else Panic (PMock k i).
Proof.
move=> Hi Hk; have Hs : size vos = size es by rewrite -(size_map (@gv_get_expression F)) Hes size_map.
have -> : gv_get_expression (nth (gv_init (Const 0, [::])) vos k) = Ok (nth (Const 0) es k).
  by rewrite -(nth_map _ (Ok (Const 0)) (@gv_get_expression F)) ?Hs // Hes (nth_map (Const 0)).
rewrite /= (@eval_res_ok _ _ _ (row_value ws ins fs (dsize d) i)).
  by rewrite /= /value; case: eqP.
move=> q Hq'; apply: mock_leaf_ok => //; apply: Hq Hq'.
by apply: (@occurs_idx _ _ k); rewrite (idx_nth (Const 0)).
Qed.

Lemma mock_proveE :
  (mock_prove env pre ws ins vos ds = Ok tt /\ forall i k, (i < dsize d)%N -> (k < size es)%N -> value i k = 0) \/
  (exists i k, [/\ mock_prove env pre ws ins vos ds = Panic (PMock k i), (i < dsize d)%N, (k < size es)%N, value i k <> 0 &
     forall i' k', (k' < size es)%N -> (i' < i)%N \/ i' = i /\ (k' < k)%N -> value i' k' = 0]).
Proof.
have Hs : size vos = size es by rewrite -(size_map (@gv_get_expression F)) Hes size_map.
pose row i := rfoldM (fun _ k => if (i < dsize d)%N && (k < size es)%N then
   if value i k == 0 then Ok tt else Panic (PMock k i) else Ok tt) tt (iota 0 (size es)).
have inner i := @scan_range (fun k => if (i < dsize d)%N && (k < size es)%N then
   if value i k == 0 then Ok tt else Panic (PMock k i) else Ok tt) 0 (size es).
have E : mock_prove env pre ws ins vos ds = rfoldM (fun _ i => row i) tt (iota 0 (dsize d)).
  rewrite /mock_prove Hd /= (@rfoldM_enumerate _ _ _ 0) size_map size_iota.
  apply: eq_in_rfoldM => _ i; rewrite mem_iota add0n /= => Hi.
  rewrite (@rfoldM_enumerate _ _ _ (gv_init (Const 0, [::]))) Hs /row.
  apply: eq_in_rfoldM => _ k; rewrite mem_iota add0n /= => Hk.
  by rewrite Hi Hk /= -mock_step // /fs (nth_map 0%N) ?size_iota // nth_iota.
have Hrow i : row i = Ok tt /\ (forall k, (i < dsize d)%N -> (k < size es)%N -> value i k = 0) \/
  (exists k, [/\ row i = Panic (PMock k i), (k < size es)%N, (i < dsize d)%N, value i k <> 0 & forall k', (k' < k)%N -> value i k' = 0]).
  case: (inner i) => [k|[E1 E2]|[k [p [E1 Hk E2 E3]]]].
  - by case: ifP => _; [case: eqP => _; [left|right; eexists]|left].
  - left; split=> // k Hi Hk; have := E2 k; rewrite add0n Hk Hi /= => /(_ isT); by case: eqP.
  right; exists k; move: E2; case: (ltnP i _) => //= Hi; move: Hk; rewrite add0n /= => Hk; rewrite Hk; case: eqP => // nz [Ep].
  split=> //; first by rewrite /row E1 -Ep.
  move=> k' Hk'; have := E3 k' Hk'; rewrite Hi (ltn_trans Hk' Hk) /=; by case: eqP.
have gen j : row j = Ok tt \/ exists p, row j = Panic p.
  by case: (Hrow j) => [[-> _]|[k [-> *]]]; [left|right; eexists].
case: (@scan_range row 0 (dsize d) gen) => [[E1 E2]|[i [p [E1 Hi E2 E3]]]].
  left; split; first by rewrite E.
  move=> i k Hi Hk; case: (Hrow i) => [[_ H]|[k' [H]]]; first exact: H.
  by rewrite E2 in H.
right; case: (Hrow i) => [[H]|[k [H Hk Hi' nz Hk']]]; first by rewrite H in E2.
exists i, k; split=> //; first by rewrite E E1 -E2 H.
move=> i' k' Hk1 [Hlt|[-> Hlt]]; last exact: Hk'.
case: (Hrow i') => [[_ H']|[k2 [H']]]; first by apply: H' => //; apply: ltn_trans Hlt Hi'.
by rewrite E3 in H'.
Qed.
End Mock.
