(** Degrees of the constraints: the quotient fits the extended domain. *)
From mathcomp Require Import all_ssreflect all_algebra zify.
From Coq Require Import String Lia.
From Verif Require Import Base ModelPoly ModelVO ModelOracle ModelPC ModelPermutation ModelLookup
  ModelIndexer ModelMultiproof ModelProtocol Spec SpecProtocol SpecPIOP
  ProofBase ProofPoly ProofDomain ProofVO ProofOracle ProofPermutation ProofIndexer ProofLookup ProofColumns ProofOpen
  ProofVerifierCols ProofPIOP ProofPIOP2.

Set Implicit Arguments.
Unset Strict Implicit.
Unset Printing Implicit Defensive.

Import GRing.Theory.
Local Open Scope ring_scope.

Section DB.
Variables (F : fieldType) (k : nat).
(** Degree at most [a * k]. *)
Definition db (a : nat) (p : {poly F}) : bool := (size p <= (a * k).+1)%N.
Lemma db_le a b p : (a <= b)%N -> db a p -> db b p.
Proof. by rewrite /db => ab H; apply: leq_trans H _; rewrite ltnS leq_mul2r ab orbT. Qed.
Lemma db_add a p q : db a p -> db a q -> db a (p + q).
Proof. by rewrite /db => Hp Hq; apply: leq_trans (size_add _ _) _; rewrite geq_max Hp. Qed.
Lemma db_opp a p : db a p -> db a (- p).
Proof. by rewrite /db size_opp. Qed.
Lemma db_sub a p q : db a p -> db a q -> db a (p - q).
Proof. by move=> Hp Hq; apply: db_add => //; apply: db_opp. Qed.
Lemma db_mul a b p q : db a p -> db b q -> db (a + b) (p * q).
Proof.
rewrite /db => Hp Hq; apply: leq_trans (size_mul_leq _ _) _; rewrite mulnDl.
move: (size p) (size q) Hp Hq => x y; lia.
Qed.
Lemma db_C a c : db a c%:P.
Proof. by rewrite /db; apply: leq_trans (size_polyC_leq1 _) _. Qed.
Lemma db_1 a : db a 1.
Proof. by rewrite /db size_poly1. Qed.
Lemma db_0 a : db a 0.
Proof. by rewrite /db size_poly0. Qed.
Lemma db_scale a c p : db a p -> db a (c *: p).
Proof. by rewrite /db => H; apply: leq_trans (size_scale_leq _ _) H. Qed.
Lemma db_scaled a c p : db a p -> db a (scaled_arg c p).
Proof.
rewrite /db /scaled_arg => H; apply: leq_trans (size_comp_poly_leq _ _) _.
have sX : ((size (c *: 'X : {poly F})).-1 <= 1)%N.
  by have := size_scale_leq c ('X : {poly F}); rewrite size_polyX; case: (size _) => // m.
rewrite ltnS; apply: leq_trans (_ : (size p).-1 * 1 <= _)%N; first by rewrite leq_mul2l sX orbT.
by rewrite muln1; move: (size p) H => x; lia.
Qed.
Lemma db_prod (T : Type) (s : seq T) (f : T -> {poly F}) : (forall t, occurs t s -> db 1 (f t)) -> db (size s) (\prod_(t <- s) f t).
Proof.
elim: s => [|t s IH] H; first by rewrite big_nil db_1.
rewrite big_cons -[size _]/(1 + size s)%N; apply: db_mul; first by apply: H; left.
by apply: IH => t' Ht; apply: H; right.
Qed.
Lemma db_X c : (0 < k)%N -> db 1 (c *: 'X).
Proof. by move=> k0; rewrite /db mul1n; apply: leq_trans (size_scale_leq _ _) _; rewrite size_polyX. Qed.
End DB.

Section Degrees.
Variables (F : fieldType) (env : fenv F).
Hypothesis eok : fenv_ok env.
Variables (d ext : domain F).
Hypothesis sd : std_domain env d.
Variables (vk : verifier_key F) (es : seq (expr F oquery)) (beta gamma : F) (A : assignment F).
Let pa := ix_perm (vk_index vk).
Let n := dsize d.
Let k := n.-1.
Hypothesis shape : shape_ok d pa A (size (ix_lookups (vk_index vk))).
Hypothesis aok : assignment_ok env d ext A.
Hypothesis eqok : exprs_ok (as_ws A) (as_ins A) (as_fs A) n es.
Lemma n_gt1 : (1 < n)%N. Proof. by case: shape. Qed.
Lemma prepared_db o : prepared env d ext o -> db k 1 (opoly o).
Proof.
case=> Ho _; rewrite /db mul1n /opoly /k prednK ?(ltnW n_gt1) //.
by apply: leq_trans (size_Poly _) _; apply: size_po_poly.
Qed.
Lemma selector_db i : (i < n)%N -> db k 1 (row_selector d i).
Proof. by move=> Hi; rewrite /db mul1n /k prednK ?(ltnW n_gt1) // (size_row_selector Hi). Qed.
Lemma query_poly_db q : query_ok (as_ws A) (as_ins A) (as_fs A) n q -> db k 1 (query_poly (as_ws A) (as_ins A) (as_fs A) (dgen d) q).
Proof.
move=> /andP[qr _]; rewrite /query_poly; apply: db_scaled.
rewrite /poly_named; have [o [_ -> Ho]] := query_leaf_resolves (ao_ws aok) (ao_ins aok) (ao_fs aok) (fun o r => Ok o) qr.
exact: prepared_db.
Qed.
Lemma expr_poly_size e : (forall q, occurs q (leaves e) -> query_ok (as_ws A) (as_ins A) (as_fs A) n q) ->
  (size (expr_poly (as_ws A) (as_ins A) (as_fs A) (dgen d) e) <= (expr_degree k e).+1)%N.
Proof.
rewrite /expr_poly; elim: e => [c|q|a IH|a IHa b IHb|a IHa b IHb|a IH c] /= H.
- by rewrite size_polyC_leq1.
- by have := query_poly_db (H q (or_introl erefl)); rewrite /db mul1n.
- by rewrite size_opp; apply: IH.
- have Ha := IHa (fun q Hq => H q (proj2 (occurs_cat _ _ _) (or_introl Hq))).
  have Hb := IHb (fun q Hq => H q (proj2 (occurs_cat _ _ _) (or_intror Hq))).
  apply: leq_trans (size_add _ _) _; rewrite geq_max -maxnSS !leq_max Ha Hb /=.
  by rewrite orbT.
- have Ha := IHa (fun q Hq => H q (proj2 (occurs_cat _ _ _) (or_introl Hq))).
  have Hb := IHb (fun q Hq => H q (proj2 (occurs_cat _ _ _) (or_intror Hq))).
  apply: leq_trans (size_mul_leq _ _) _; move: Ha Hb; set x := size _; set y := size _; move: x y => x y; lia.
- by apply: leq_trans (size_scale_leq _ _) _; apply: IH.
Qed.

(** Permutation constraints: (columns per chunk + 2) (n-1). *)
Lemma occurs_take T (x : T) m s : occurs x (take m s) -> occurs x s.
Proof. by elim: s m => [|y s IH] [|m] //= [->|/IH]; [left|right]. Qed.
Lemma occurs_drop T (x : T) m s : occurs x (drop m s) -> occurs x s.
Proof. by elim: s m => [|y s IH] [|m] //= /IH; right. Qed.
Lemma occurs_chunks T m (s : seq T) c x : (0 < m)%N -> occurs c (chunks m s) -> occurs x c -> occurs x s.
Proof.
move=> m0; elim/(@chunks_ind T m m0): s => [|s s0 IH] //; rewrite chunks_cons //= => -[-> |Hc Hx]; first exact: occurs_take.
by apply: occurs_drop (IH Hc Hx).
Qed.
Lemma occurs_chunks_size T m (s : seq T) c : (0 < m)%N -> occurs c (chunks m s) -> (size c <= m)%N.
Proof.
move=> m0; elim/(@chunks_ind T m m0): s => [|s s0 IH] //; rewrite chunks_cons //= => -[-> |]; last exact: IH.
by rewrite size_take; case: ltnP.
Qed.
Lemma perm_polys_db p : p \in perm_polys d pa beta gamma A -> db k (pa_max_cols pa).+2 p.
Proof.
have [n1 un sl slz shp] := shape; rewrite /perm_polys; case: ifP => // nn.
have sz : (0 < size (copied (as_ws A)))%N by move: nn; case: (copied _).
move: shp; rewrite gtn_eqF // => -[m0 ss sdl sz'].
set cols := map _ (zip _ _); set zs := map _ (map _ (as_zs A)); set m := pa_max_cols pa.
have Hz t : occurs t zs -> [/\ db k 1 t.1.1, db k 1 t.1.2 & db k 1 t.2].
  move=> Ht; have [z Hz' ->] := (occurs_map _ _ _).1 Ht; have [o Ho ->] := (occurs_map _ _ _).1 Hz'.
  by have Hp := prepared_db (ao_zs aok Ho); split=> //=; apply: db_scaled.
have k1 : (0 < k)%N by rewrite /k; move: n_gt1; case: (n) => // -[].
have Hcol t : occurs t cols -> [/\ db k 1 t.1.1, db k 1 t.1.2 & db k 1 t.2].
  move=> Ht; have [y Hy ->] := (occurs_map _ _ _).1 Ht; have [Hy1 Hy2] := occurs_zip Hy; have [Hy3 Hy4] := occurs_zip Hy1.
  split=> /=; last exact: db_X.
  - have [o Ho ->] := (occurs_map _ _ _).1 Hy3; apply: prepared_db; apply: (ao_ws aok).2; exact: occurs_filter Ho.
  - by have [o Ho ->] := (occurs_map _ _ _).1 Hy4; apply: prepared_db; apply: (ao_sigmas aok).
have Hch c : occurs c (perm_chunks m cols zs) -> [/\ db k 1 (ch_z c), db k 1 (ch_zn c), db k 1 (ch_zu c),
    db k m (ch_num beta%:P gamma%:P c) & db k m (ch_den beta%:P gamma%:P c)].
  move=> Hc; have [t Ht ->] := (occurs_map _ _ _).1 Hc; have [H1 H2] := occurs_zip Ht; have [z1 z2 z3] := Hz _ H2.
  split=> //=; apply: db_le (occurs_chunks_size m0 H1) _; apply: db_prod => y Hy;
    have [y1 y2 y3] := Hcol _ (occurs_chunks m0 H1 Hy); apply: db_add; rewrite ?db_C //; apply: db_add => //;
    rewrite mul_polyC; exact: db_scale.
have l0 := selector_db (ltnW n1); have lu := selector_db un; have qb := prepared_db (ao_qb aok).
case E : (perm_chunks m cols zs) => [|c cs] //.
have Hc : forall c', occurs c' (c :: cs) -> [/\ db k 1 (ch_z c'), db k 1 (ch_zn c'), db k 1 (ch_zu c'),
    db k m (ch_num beta%:P gamma%:P c') & db k m (ch_den beta%:P gamma%:P c')] by rewrite -E; exact: Hch.
have [cz _ _ _ _] := Hc c (or_introl erefl).
have dl a : (a <= m.+2)%N -> forall q : {poly F}, db k a q -> db k m.+2 q by move=> H q; exact: db_le.
rewrite /perm_constraints inE => /orP[/eqP ->|].
  by apply: (dl 2%N) => //; apply: (@db_mul _ _ 1 1) => //; apply: db_sub => //; exact: db_1.
rewrite mem_cat => /orP[/in_map_occurs [c' Hc' ->]|].
  have [z1 z2 z3 z4 z5] := Hc _ Hc'.
  apply: (@db_mul _ _ 1 m.+1); first by apply: db_sub; [exact: db_1|exact: db_add].
  by apply: db_sub; apply: (@db_mul _ _ 1 m).
rewrite mem_cat => /orP[|].
  elim: cs c {E cz} Hc => //= c' cs IH c Hc; rewrite inE => /orP[/eqP ->|].
    have [z1 _ _ _ _] := Hc c' (or_intror (or_introl erefl)); have [_ _ z3 _ _] := Hc c (or_introl erefl).
    by apply: (dl 2%N) => //; apply: (@db_mul _ _ 1 1) => //; apply: db_sub.
  by apply: IH => c'' Hc''; apply: Hc; right.
rewrite inE => /eqP ->.
have [zl _ _ _ _] : [/\ db k 1 (ch_z (last c cs)), db k 1 (ch_zn (last c cs)), db k 1 (ch_zu (last c cs)),
    db k m (ch_num beta%:P gamma%:P (last c cs)) & db k m (ch_den beta%:P gamma%:P (last c cs))].
  apply: Hc; elim: (cs) (c) => [|y t IH] x /=; first by left.
  by right; apply: IH.
apply: (dl 3%N) => //; apply: (@db_mul _ _ 1 2) => //; apply: db_sub; first exact: (@db_mul _ _ 1 1).
exact: db_le zl.
Qed.
Lemma lookup_polys_db p : p \in flatten (lookup_polys d pa beta gamma A) -> db k 4 p.
Proof.
have [n1 un sl slz shp] := shape.
have l0 := selector_db (ltnW n1); have lu := selector_db un; have qb := prepared_db (ao_qb aok).
case/flattenP => l /in_map_occurs [[lo z] /occurs_zip [/= Hlo Hz] ->].
have [a1 a2 a3 a4] := ao_los aok Hlo.
have {a1} a1 := prepared_db a1; have {a2} a2 := prepared_db a2; have {a3} a3 := prepared_db a3; have {a4} a4 := prepared_db a4.
have z1 := prepared_db (ao_lzs aok Hz).
have zn : db k 1 (scaled_arg (dgen d) (opoly z)) by apply: db_scaled.
have ap : db k 1 (scaled_arg (dgen d)^-1 (opoly (lo_a' lo))) by apply: db_scaled.
have s1 : db k 1 (1 - (row_selector d (pa_usable_rows pa) + opoly (as_qb A))) by apply: db_sub; [exact: db_1|exact: db_add].
have dl a : (a <= 4)%N -> forall q : {poly F}, db k a q -> db k 4 q by move=> H q; exact: db_le.
have ac (q : {poly F}) c : db k 1 q -> db k 1 (q + c%:P) by move=> Hq; apply: db_add => //; exact: db_C.
rewrite !inE => /orP[/eqP ->|/orP[/eqP ->|/orP[/eqP ->|/orP[/eqP ->|/eqP ->]]]].
- by apply: (dl 2%N) => //; apply: (@db_mul _ _ 1 1) => //; apply: db_sub => //; exact: db_1.
- apply: (@db_mul _ _ 1 3) => //; apply: db_sub; apply: (@db_mul _ _ 2 1); rewrite ?ac //; apply: (@db_mul _ _ 1 1); rewrite ?ac //.
- apply: (dl 3%N) => //; apply: (@db_mul _ _ 1 2) => //; apply: db_sub; first exact: (@db_mul _ _ 1 1).
  exact: db_le z1.
- by apply: (dl 2%N) => //; apply: (@db_mul _ _ 1 1) => //; apply: db_sub.
- apply: (dl 3%N) => //; apply: (@db_mul _ _ 2 1); last exact: db_sub.
  by apply: (@db_mul _ _ 1 1) => //; apply: db_sub.
Qed.

Lemma numerator_fits N alpha : (forall e, occurs e es -> (expr_degree k e < n + N)%N) ->
  (~~ nilp (copied (as_ws A)) -> ((pa_max_cols pa).+1 * n <= N)%N) ->
  (~~ nilp (ix_lookups (vk_index vk)) -> (3 * n <= N)%N) ->
  (size (numerator d pa es beta gamma A alpha) <= n + N)%N.
Proof.
move=> Hv Hp Hl; apply: size_numerator_le => p; rewrite /constraint_polys !mem_cat => /orP[/in_map_occurs [e He ->]|/orP[]].
- by apply: leq_trans (expr_poly_size (fun q Hq => eqok He Hq)) _; exact: Hv.
- move=> Hq; have nn : ~~ nilp (copied (as_ws A)) by move: Hq; rewrite /perm_polys; case: ifP.
  apply: leq_trans (perm_polys_db Hq) _; apply: leq_trans (_ : n + (pa_max_cols pa).+1 * n <= _)%N; last by rewrite leq_add2l Hp.
  by rewrite /k; have := n_gt1; nia.
- move=> Hq; have nn : ~~ nilp (ix_lookups (vk_index vk)).
    have [_ _ sl _ _] := shape; move: Hq; rewrite /lookup_polys; move: sl; case: (ix_lookups _) => //= /size0nil ->.
    by case: (as_lzs A).
  apply: leq_trans (lookup_polys_db Hq) _; apply: leq_trans (_ : n + 3 * n <= _)%N; last by rewrite leq_add2l Hl.
  by rewrite /k; have := n_gt1; nia.
Qed.
End Degrees.
