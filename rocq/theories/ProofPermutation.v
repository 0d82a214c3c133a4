(** The permutation argument: formulas of prover and verifier, completeness and soundness. *)
From mathcomp Require Import all_ssreflect all_algebra zify.
From Coq Require Import String.
From Verif Require Import Base ModelPoly ModelVO ModelOracle ModelPermutation
  Spec ProofBase ProofPoly ProofDomain ProofVO ProofOracle.

Set Implicit Arguments.
Unset Strict Implicit.
Unset Printing Implicit Defensive.

Import GRing.Theory.
Local Open Scope ring_scope.

Section Folds.
Variable V : zmodType.

Lemma rfoldM_sum A (f : V -> A -> res V) (g : A -> V) s st :
  (forall st a, occurs a s -> f st a = Ok (st + g a)) -> rfoldM f st s = Ok (st + \sum_(a <- s) g a).
Proof.
elim: s st => [|a s IH] st H /=; first by rewrite big_nil addr0.
by rewrite H /=; [rewrite IH ?big_cons ?addrA // => st' b Hb; apply: H; right | left].
Qed.

Lemma sum_enumerate A (g : nat * A -> V) (s : seq A) a0 :
  \sum_(kc <- enumerate s) g kc = \sum_(k < size s) g (val k, nth a0 s k).
Proof.
rewrite (big_nth (0%N, a0)) big_mkord size_enumerate; apply: eq_bigr => k _.
by rewrite nth_enumerate.
Qed.
End Folds.

Lemma occurs_enumerate A k (a : A) s : occurs (k, a) (enumerate s) -> idx s k = Ok a.
Proof.
move/occurs_nth => [i]; rewrite size_enumerate => Hi H.
have := H (0%N, a); rewrite nth_enumerate // => -[<- E].
by rewrite (idx_nth a Hi) E.
Qed.

Lemma occurs_idx A (s : seq A) i a : idx s i = Ok a -> occurs a s.
Proof. by move=> E; have [Hi H] := idx_ok E; apply/occurs_nth; exists i => // x0; exact: H. Qed.

Lemma last_unwrap_idx A (s : seq A) : (0 < size s)%N -> last_unwrap s = idx s (size s).-1.
Proof. by case: s => // a s _ /=; rewrite (last_nth a) -(idx_nth a) //=. Qed.

Lemma occurs_take A (a : A) k s : occurs a (take k s) -> occurs a s.
Proof. by elim: s k => [|b s IH] [|k] //= [->|/IH]; [left|right]. Qed.
Lemma occurs_drop A (a : A) k s : occurs a (drop k s) -> occurs a s.
Proof. by elim: s k => [|b s IH] [|k] //= /IH; right. Qed.

Lemma occurs_chunk A k (s c : seq A) a : (0 < k)%N -> occurs c (chunks k s) -> occurs a c -> occurs a s.
Proof.
move=> k0 /occurs_nth[i Hi Hc]; have := Hc [::]; rewrite nth_chunks // => <-.
by move=> H; apply: occurs_drop (occurs_take H).
Qed.

Lemma take_zip A B k (s : seq A) (t : seq B) : take k (zip s t) = zip (take k s) (take k t).
Proof. by elim: s t k => [|a s IH] [|b t] [|k] //=; rewrite IH. Qed.
Lemma drop_zip A B k (s : seq A) (t : seq B) : size s = size t -> drop k (zip s t) = zip (drop k s) (drop k t).
Proof. by elim: s t k => [|a s IH] [|b t] [|k] //= [E]; rewrite IH. Qed.

Lemma chunks_zip A B k (s : seq A) (t : seq B) : (0 < k)%N -> size s = size t ->
  chunks k (zip s t) = [seq zip c.1 c.2 | c <- zip (chunks k s) (chunks k t)].
Proof.
move=> k0; elim/(@chunks_ind A k k0): s t => [|s s0 IH] t E.
  by case: t E.
have t0 : (0 < size t)%N by rewrite -E.
rewrite (chunks_cons k0 s0) (chunks_cons k0 t0) /= chunks_cons //; last by rewrite size_zip -E minnn.
by rewrite take_zip drop_zip // IH // !size_drop E.
Qed.

Section Formula.
Variable F : fieldType.
Add Field Ffield : (F_field_theory F).

Lemma gp_expr_ok O1 O2 ql qb zn zc (qw : O1 -> res F) (qs : O2 -> res F) wv sv sigmas ws ds beta gamma x :
  (forall o, occurs o ws -> qw o = Ok (wv o)) -> (forall o, occurs o sigmas -> qs o = Ok (sv o)) ->
  let c zu := PChunk [seq (wv t.1.1, sv t.1.2, t.2 * x) | t <- zip (zip ws sigmas) ds] zc zn zu in
  forall zu, gp_expr ql (Ok qb) (Ok zn) (Ok zc) qw qs sigmas ws ds beta gamma x =
    Ok ((1 - (ql + qb)) * (ch_zn (c zu) * ch_den beta gamma (c zu) - ch_z (c zu) * ch_num beta gamma (c zu))).
Proof.
move=> Hw Hs c zu; rewrite /gp_expr /= /ch_den /ch_num /= !big_map.
set f := fun acc _ => _.
suff gen a b : rfoldM f (a, b) (zip (zip ws sigmas) ds) =
   Ok (a * \prod_(j <- zip (zip ws sigmas) ds) (wv j.1.1 + beta * sv j.1.2 + gamma),
       b * \prod_(j <- zip (zip ws sigmas) ds) (wv j.1.1 + beta * (j.2 * x) + gamma)) by rewrite gen.
move: a b Hw Hs {c}; elim: ws sigmas ds => [|w ws IH] [|s ss] [|d ds] a b Hw Hs /=; rewrite ?big_nil ?mulr1 //.
rewrite {1}/f /= Hw ?Hs /=; [|by left|by left].
rewrite IH; [|by move=> o Ho; apply: Hw; right|by move=> o Ho; apply: Hs; right].
by rewrite !big_cons /= !mulrA.
Qed.

Notation dch := (PChunk [::] 0 0 0 : pchunk _).

Lemma size_chain (R : comRingType) l0 (c : pchunk R) cs : size (chain_constraints l0 c cs) = size cs.
Proof. by elim: cs c => //= c' cs IH c; rewrite IH. Qed.

Lemma nth_chain (R : comRingType) l0 (c : pchunk R) cs k : (k < size cs)%N ->
  (chain_constraints l0 c cs)`_k = l0 * (ch_z (nth dch (c :: cs) k.+1) - ch_zu (nth dch (c :: cs) k)).
Proof. by elim: cs c k => //= c' cs IH c [|k] //= /IH->. Qed.

Lemma size_perm_constraints (R : comRingType) l0 ql qb beta gamma (cs : seq (pchunk R)) : (0 < size cs)%N ->
  size (perm_constraints l0 ql qb beta gamma cs) = (2 * size cs + 1)%N.
Proof.
case: cs => // c cs _; rewrite /perm_constraints /= !size_cat size_map size_chain /=; lia.
Qed.

Lemma combination_perm (R : comRingType) (alphas : seq R) l0 ql qb beta gamma (cs : seq (pchunk R)) : (0 < size cs)%N ->
  size alphas = (2 * size cs + 1)%N ->
  combination alphas (perm_constraints l0 ql qb beta gamma cs) =
    alphas`_0 * (l0 * (1 - ch_z (nth dch cs 0)))
    + \sum_(k < size cs) alphas`_(k + 1) *
        ((1 - (ql + qb)) * (ch_zn (nth dch cs k) * ch_den beta gamma (nth dch cs k)
                            - ch_z (nth dch cs k) * ch_num beta gamma (nth dch cs k)))
    + \sum_(k < (size cs).-1) alphas`_(k + (1 + size cs)) *
        (l0 * (ch_z (nth dch cs k.+1) - ch_zu (nth dch cs k)))
    + last 0 alphas * (ql * (ch_z (last dch cs) * ch_z (last dch cs) - ch_z (last dch cs))).
Proof.
case: cs => // c cs _ sa; rewrite /combination sa.
have -> : (2 * size (c :: cs) + 1 = 1 + (size (c :: cs) + (size cs + 1)))%N by rewrite /=; lia.
set G := fun k => (1 - (ql + qb)) * (ch_zn k * ch_den beta gamma k - ch_z k * ch_num beta gamma k).
set L := ql * (ch_z (last c cs) * ch_z (last c cs) - ch_z (last c cs)).
have -> : perm_constraints l0 ql qb beta gamma (c :: cs) =
  l0 * (1 - ch_z c) :: map G (c :: cs) ++ chain_constraints l0 c cs ++ [:: L] by [].
set cn := (l0 * _) :: _.
have nS a (s : seq R) k : (a :: s)`_(1 + k) = s`_k by [].
have n1 k : (k < size (c :: cs))%N -> cn`_(1 + k) = G (nth dch (c :: cs) k).
  by move=> Hk; rewrite /cn nS nth_cat size_map Hk (nth_map dch).
have n2 k : (k < size cs)%N -> cn`_(1 + (size (c :: cs) + k)) =
    l0 * (ch_z (nth dch (c :: cs) k.+1) - ch_zu (nth dch (c :: cs) k)).
  move=> Hk; rewrite /cn nS nth_cat size_map ltnNge leq_addr /=.
  by rewrite addKn nth_cat size_chain Hk nth_chain.
have n3 : cn`_(1 + (size (c :: cs) + size cs)) = L.
  rewrite /cn nS nth_cat size_map ltnNge leq_addr /=.
  by rewrite addKn nth_cat size_chain ltnn subnn.
rewrite big_split_ord big_split_ord big_split_ord !big_ord1 -!addrA; congr (_ + _); congr (_ + _); last congr (_ + _).
- by apply: eq_bigr => k _; rewrite -[X in _ = _ * X]/(G (nth dch (c :: cs) k)) -n1 ?ltn_ord //; congr (alphas`_ _ * _); rewrite [RHS]addnC.
- by apply: eq_bigr => k _; rewrite -n2 ?ltn_ord //; congr (alphas`_ _ * _); rewrite /=; lia.
- rewrite -n3 -nth_last sa; congr (alphas`_ _ * cn`_ _); rewrite /=; lia.
Qed.

Arguments gp_expr : simpl never.

(** The shape shared by [perm_instantiate] and [perm_open]. *)
Definition perm_generic {O1 O2 O3} (m : nat) (deltas : seq F) (l0 ql : F) (qb : res F)
    (qz qzn qzu : O3 -> res F) (qw : O1 -> res F) (qs : O2 -> res F) (x : F)
    (aggs : seq O3) (sigmas : seq O2) (ws : seq O1) (beta gamma : F) (alphas : seq F) : res F :=
  _ <- rassert (size ws == size sigmas) ;;
  _ <- rassert (size ws == size deltas) ;;
  wc <- chunksR m ws ;;
  sc <- chunksR m sigmas ;;
  dc <- chunksR m deltas ;;
  _ <- rassert (size wc == size sc) ;;
  _ <- rassert (size wc == size dc) ;;
  _ <- rassert (size aggs == size wc) ;;
  _ <- rassert (number_of_alphas (size aggs) == size alphas) ;;
  a0 <- idx alphas 0 ;;
  z0 <- idx aggs 0 ;;
  z0e <- qz z0 ;;
  let e0 := a0 * l0 * (1 - z0e) in
  e1 <- rfoldM (fun acc kc =>
          let: (k, (w, s, ds)) := kc in
          a <- idx alphas (k + 1) ;;
          z <- idx aggs k ;;
          g <- gp_expr ql qb (qzn z) (qz z) qw qs s w ds beta gamma x ;;
          Ok (acc + a * g)) e0 (enumerate (zip (zip wc sc) dc)) ;;
  m <- usub (size aggs) 1 ;;
  e2 <- rfoldM (fun acc k =>
          a <- idx alphas (k + (1 + size aggs)) ;;
          zk1 <- idx aggs k.+1 ;;
          x <- qz zk1 ;;
          zk <- idx aggs k ;;
          y <- qzu zk ;;
          Ok (acc + a * l0 * (x - y))) e1 (iota 0 m) ;;
  zl <- last_unwrap aggs ;;
  zle <- qz zl ;;
  al <- last_unwrap alphas ;;
  Ok (e2 + al * ql * (zle * zle - zle)).

Lemma perm_openE C (pa : permutation_argument F) l0 ql (qb : voracle F C) aggs sigmas ws beta gamma d xi alphas :
  perm_open pa l0 ql qb aggs sigmas ws beta gamma d xi alphas =
  perm_generic (pa_max_cols pa) (pa_deltas pa) l0 ql (vo_query qb xi)
    (fun z => vo_query z xi) (fun z => vo_query z (element d 1 * xi))
    (fun z => vo_query z (element d (pa_usable_rows pa) * xi))
    (fun o => vo_query o xi) (fun o => vo_query o xi) xi aggs sigmas ws beta gamma alphas.
Proof. by []. Qed.

Lemma perm_instantiateE (env : fenv F) (pa : permutation_argument F) l0c qlc l0 ql qb ws sigmas aggs i omega beta gamma alphas :
  idx l0c i = Ok l0 -> idx qlc i = Ok ql ->
  perm_instantiate env pa l0c qlc qb ws sigmas aggs i omega beta gamma alphas =
  perm_generic (pa_max_cols pa) (pa_deltas pa) l0 ql (query_in_coset qb i curr)
    (fun z => query_in_coset z i curr) (fun z => query_in_coset z i next)
    (fun z => query_in_coset z i (pa_usable_rows pa, Plus))
    (fun o => query_in_coset o i curr) (fun o => query_in_coset o i curr)
    (mult_gen env * omega) aggs sigmas ws beta gamma alphas.
Proof.
by move=> H0 HL; rewrite /perm_instantiate /gp_instantiate H0 HL.
Qed.

Section Ok.
Variables (O1 O2 O3 : Type) (m : nat) (deltas : seq F) (l0 ql qb : F).
Variables (qz qzn qzu : O3 -> res F) (qw : O1 -> res F) (qs : O2 -> res F) (x : F).
Variables (zv znv zuv : O3 -> F) (wv : O1 -> F) (sv : O2 -> F).
Variables (aggs : seq O3) (sigmas : seq O2) (ws : seq O1) (beta gamma : F) (alphas : seq F).
Hypothesis m0 : (0 < m)%N.
Hypothesis ws0 : (0 < size ws)%N.
Hypothesis sws : size sigmas = size ws.
Hypothesis sds : size deltas = size ws.
Hypothesis saggs : size aggs = size (chunks m ws).
Hypothesis salphas : size alphas = (2 * size aggs + 1)%N.
Hypothesis Hw : forall o, occurs o ws -> qw o = Ok (wv o).
Hypothesis Hs : forall o, occurs o sigmas -> qs o = Ok (sv o).
Hypothesis Hz : forall o, occurs o aggs -> qz o = Ok (zv o).
Hypothesis Hzn : forall o, occurs o aggs -> qzn o = Ok (znv o).
Hypothesis Hzu : forall k o, (k.+1 < size aggs)%N -> idx aggs k = Ok o -> qzu o = Ok (zuv o).

Definition perm_cols : seq (F * F * F) :=
  [seq (wv t.1.1, sv t.1.2, t.2 * x) | t <- zip (zip ws sigmas) deltas].
Definition perm_zs : seq (F * F * F) := [seq (zv z, znv z, zuv z) | z <- aggs].

Lemma perm_chunks_zip : chunks m perm_cols =
  [seq [seq (wv t.1.1, sv t.1.2, t.2 * x) | t <- zip (zip c.1.1 c.1.2) c.2]
  | c <- zip (zip (chunks m ws) (chunks m sigmas)) (chunks m deltas)].
Proof.
rewrite /perm_cols map_chunks // chunks_zip //; last by rewrite size_zip sws minnn.
rewrite chunks_zip // -map_comp.
have E : size (chunks m ws) = size (chunks m sigmas) by rewrite !size_chunks // sws.
move: (chunks m ws) (chunks m sigmas) (chunks m deltas) E.
elim=> [|a s IH] [|b t] [|c u] //= [E]; by rewrite IH.
Qed.

Lemma size_perm_chunks : size (perm_chunks m perm_cols perm_zs) = size aggs.
Proof.
rewrite /perm_chunks size_map size_zip /perm_zs size_map saggs size_chunks // /perm_cols size_map !size_zip.
by rewrite sws sds !minnn size_chunks // minnn.
Qed.

Lemma perm_generic_ok :
  perm_generic m deltas l0 ql (Ok qb) qz qzn qzu qw qs x aggs sigmas ws beta gamma alphas =
  Ok (combination alphas (perm_constraints l0 ql qb beta gamma (perm_chunks m perm_cols perm_zs))).
Proof.
set cs := perm_chunks _ _ _.
have scs : size cs = size aggs by exact: size_perm_chunks.
have c0 : (0 < size aggs)%N by rewrite saggs chunks_cons.
have sc : size (chunks m sigmas) = size (chunks m ws) by rewrite !size_chunks // sws.
have sd : size (chunks m deltas) = size (chunks m ws) by rewrite !size_chunks // sds.
rewrite combination_perm ?scs //.
have nthcs k z : idx aggs k = Ok z -> nth dch cs k =
    PChunk (nth [::] (chunks m perm_cols) k) (zv z) (znv z) (zuv z).
  move=> Hk; have [lt E] := idx_ok Hk.
  have E2 : size (chunks m perm_cols) = size perm_zs.
    rewrite /perm_cols map_chunks // size_map /perm_zs size_map saggs size_chunks // !size_zip sws sds !minnn.
    by rewrite size_chunks.
  rewrite /cs /perm_chunks (nth_map ([::], (0, 0, 0))); last by rewrite size_zip E2 minnn size_map.
  by rewrite nth_zip // /perm_zs (nth_map z) // E.
have [z0 Hz0] := idx_some c0.
rewrite /perm_generic sws sds /chunksR eqn0Ngt m0 /= sc sd saggs !eqxx /=.
have -> : number_of_alphas (size (chunks m ws)) == size alphas by rewrite /number_of_alphas salphas saggs; lia.
rewrite /=.
have a0 : (0 < size alphas)%N by rewrite salphas; lia.
rewrite (idx_nth 0 a0) /= Hz0 /= (Hz (occurs_idx Hz0)) /=.
have szip : size (zip (zip (chunks m ws) (chunks m sigmas)) (chunks m deltas)) = size aggs.
  by rewrite !size_zip sc sd !minnn saggs.
pose G k := (1 - (ql + qb)) * (ch_zn (nth dch cs k) * ch_den beta gamma (nth dch cs k)
                            - ch_z (nth dch cs k) * ch_num beta gamma (nth dch cs k)).
rewrite (@rfoldM_sum _ _ _ (fun kc => alphas`_(kc.1 + 1) * G kc.1)); last first.
  move=> st [k [[w s] ds]] Hocc; have Hk := occurs_enumerate Hocc; have [lt E] := idx_ok Hk; rewrite szip in lt.
  rewrite (idx_nth 0); last by rewrite salphas; lia.
  have [z Hzk] := idx_some lt; rewrite /= Hzk /= (Hz (occurs_idx Hzk)) (Hzn (occurs_idx Hzk)).
  have E1 := E ([::], [::], [::]); rewrite !nth_zip ?size_zip ?sc ?sd ?minnn // in E1; case: E1 => Ew Es Ed.
  have inw o : occurs o w -> occurs o ws.
    by rewrite -Ew; apply: (@occurs_chunk _ m) => //; apply/(@occurs_idx _ _ k)/idx_nth; rewrite -saggs.
  have ins o : occurs o s -> occurs o sigmas.
    by rewrite -Es; apply: (@occurs_chunk _ m) => //; apply/(@occurs_idx _ _ k)/idx_nth; rewrite sc -saggs.
  rewrite (@gp_expr_ok _ _ _ _ _ _ _ _ wv sv _ _ _ _ _ _ _ _ (zuv z)) /=; last 2 first.
  - by move=> o /inw/Hw.
  - by move=> o /ins/Hs.
  rewrite /G (nthcs _ _ Hzk) perm_chunks_zip (nth_map ([::], [::], [::])) ?szip //.
  by rewrite (E ([::], [::], [::])).
rewrite (sum_enumerate _ _ ([::], [::], [::])) /= szip -saggs /usub c0 /=.
rewrite (@rfoldM_sum _ _ _ (fun k => alphas`_(k + (1 + size aggs)) *
    (l0 * (ch_z (nth dch cs k.+1) - ch_zu (nth dch cs k))))); last first.
  move=> st k /occurs_mem; rewrite mem_iota add0n subn1 /= => lt.
  rewrite (idx_nth 0) /=; last by rewrite salphas; lia.
  have lk1 : (k.+1 < size aggs)%N by lia.
  have [z1 H1] := idx_some lk1; rewrite H1 /= (Hz (occurs_idx H1)) /=.
  have [z2 H2] := idx_some (ltnW lk1); rewrite H2 /= (Hzu lk1 H2) /=.
  by rewrite (nthcs _ _ H1) (nthcs _ _ H2) /= mulrA.
have -> : iota 0 (size aggs - 1) = index_iota 0 (size aggs).-1 by rewrite /index_iota subn0 subn1.
rewrite big_mkord /=.
have lt1 : ((size aggs).-1 < size aggs)%N by rewrite prednK.
have [zl Hzl] := idx_some lt1.
rewrite !last_unwrap_idx // Hzl /= (Hz (occurs_idx Hzl)) /= (idx_nth 0) ?prednK //=.
rewrite (nthcs _ _ Hz0) -(nth_last dch cs) scs (nthcs _ _ Hzl) /= nth_last.
by congr Ok; rewrite !mulrA.
Qed.
End Ok.
End Formula.

(** Ring morphisms (evaluation at a point in particular) map constraints to constraints. *)
Section Morph.
Variables (R S : comRingType) (f : {rmorphism R -> S}).
Definition map_col (t : R * R * R) : S * S * S := (f t.1.1, f t.1.2, f t.2).
Definition map_chunk (c : pchunk R) : pchunk S :=
  PChunk (map map_col (ch_cols c)) (f (ch_z c)) (f (ch_zn c)) (f (ch_zu c)).

Lemma map_ch_den beta gamma c : f (ch_den beta gamma c) = ch_den (f beta) (f gamma) (map_chunk c).
Proof.
rewrite /ch_den /= big_map rmorph_prod; apply: eq_bigr => t _; by rewrite !rmorphD rmorphM.
Qed.
Lemma map_ch_num beta gamma c : f (ch_num beta gamma c) = ch_num (f beta) (f gamma) (map_chunk c).
Proof.
rewrite /ch_num /= big_map rmorph_prod; apply: eq_bigr => t _; by rewrite !rmorphD rmorphM.
Qed.
Lemma map_chain l0 c cs :
  map f (chain_constraints l0 c cs) = chain_constraints (f l0) (map_chunk c) (map map_chunk cs).
Proof. by elim: cs c => //= c' cs IH c; rewrite IH rmorphM rmorphB. Qed.
Lemma map_perm_constraints l0 ql qb beta gamma cs :
  map f (perm_constraints l0 ql qb beta gamma cs) =
  perm_constraints (f l0) (f ql) (f qb) (f beta) (f gamma) (map map_chunk cs).
Proof.
have G k : f ((1 - (ql + qb)) * (ch_zn k * ch_den beta gamma k - ch_z k * ch_num beta gamma k)) =
    (1 - (f ql + f qb)) * (ch_zn (map_chunk k) * ch_den (f beta) (f gamma) (map_chunk k)
                           - ch_z (map_chunk k) * ch_num (f beta) (f gamma) (map_chunk k)).
  by rewrite rmorphM !rmorphB rmorph1 rmorphD !rmorphM map_ch_den map_ch_num.
case: cs => // c cs; rewrite /perm_constraints /= -/(map map_chunk cs) G -/(map _ _); congr (_ :: _ :: _).
  by rewrite rmorphM rmorphB rmorph1.
rewrite !map_cat map_chain -!map_comp; congr (_ ++ (_ ++ _)); first by apply: eq_map => k /=; rewrite G.
by rewrite /= last_map rmorphM rmorphB rmorphM.
Qed.
Lemma map_perm_chunks m cols zs : (0 < m)%N ->
  map map_chunk (perm_chunks m cols zs) = perm_chunks m (map map_col cols) (map map_col zs).
Proof.
move=> m0; rewrite /perm_chunks map_chunks // -map_comp.
elim: (chunks m cols) zs => [|c cs IH] [|z zs] //=; by rewrite IH.
Qed.
End Morph.

(** Degrees. *)
Section Degrees.
Variable F : fieldType.
Definition dle (p : {poly F}) (k : nat) : bool := (size p <= k.+1)%N.
Lemma dle_mul p q a b : dle p a -> dle q b -> dle (p * q) (a + b).
Proof.
rewrite /dle => Hp Hq; apply: leq_trans (size_mul_leq p q) _.
by move: Hp Hq; move: (size p) (size q) => x y; lia.
Qed.
Lemma dle_add p q a : dle p a -> dle q a -> dle (p + q) a.
Proof. by rewrite /dle => Hp Hq; apply: leq_trans (size_add p q) _; rewrite geq_max Hp. Qed.
Lemma dle_opp p a : dle p a -> dle (- p) a. Proof. by rewrite /dle size_opp. Qed.
Lemma dle_sub p q a : dle p a -> dle q a -> dle (p - q) a.
Proof. by move=> Hp Hq; apply: dle_add => //; apply: dle_opp. Qed.
Lemma dle_C c a : dle c%:P a.
Proof. by rewrite /dle size_polyC; case: (c != 0). Qed.
Lemma dle_1 a : dle 1 a. Proof. exact: dle_C. Qed.
Lemma dle_scale c p a : dle p a -> dle (c *: p) a.
Proof. by rewrite /dle => H; apply: leq_trans (size_scale_leq _ _) H. Qed.
Lemma dle_X a : (0 < a)%N -> dle 'X a. Proof. by rewrite /dle size_polyX. Qed.
Lemma dle_le p a b : (a <= b)%N -> dle p a -> dle p b.
Proof. by rewrite /dle => H Hp; apply: leq_trans Hp _. Qed.
Lemma dle_prod (T : Type) (s : seq T) (g : T -> {poly F}) a :
  (forall t, occurs t s -> dle (g t) a) -> dle (\prod_(t <- s) g t) (size s * a).
Proof.
elim: s => [|t s IH] H; first by rewrite big_nil dle_1.
by rewrite big_cons /= mulSn dle_mul ?H ?IH // => [|u Hu]; [left | apply: H; right].
Qed.
Lemma dle_sum (T : Type) (s : seq T) (g : T -> {poly F}) a :
  (forall t, occurs t s -> dle (g t) a) -> dle (\sum_(t <- s) g t) a.
Proof.
elim: s => [|t s IH] H; first by rewrite big_nil (dle_C 0).
by rewrite big_cons dle_add ?H ?IH // => [|u Hu]; [left | apply: H; right].
Qed.

(** A chunk of at most [m] columns of degree at most [k]. *)
Definition chunk_dle (m k : nat) (c : pchunk [comRingType of {poly F}]) : Prop :=
  [/\ (size (ch_cols c) <= m)%N, forall t, occurs t (ch_cols c) -> [/\ dle t.1.1 k, dle t.1.2 k & dle t.2 k],
      dle (ch_z c) k, dle (ch_zn c) k & dle (ch_zu c) k].

Lemma dle_perm_constraints m k (l0 ql qb : {poly F}) beta gamma cs c :
  (forall ch, occurs ch cs -> chunk_dle m k ch) -> dle l0 k -> dle ql k -> dle qb k ->
  c \in perm_constraints l0 ql qb beta%:P gamma%:P cs -> (0 < m)%N -> dle c ((m + 2) * k).
Proof.
case: cs => // c0 cs Hcs H0 Hl Hb Hc m0.
have Z0 ch : occurs ch (c0 :: cs) -> dle (ch_z ch) k by case/Hcs.
have lin ch : occurs ch (c0 :: cs) -> forall b : bool, dle (\prod_(t <- ch_cols ch)
    (t.1.1 + beta%:P * (if b then t.1.2 else t.2) + gamma%:P)) (m * k).
  case/Hcs => sm Ht _ _ _ b; apply: (@dle_le _ (size (ch_cols ch) * k)); first by rewrite leq_mul2r sm orbT.
  apply: dle_prod => t /Ht[H1 H2 H3]; rewrite !dle_add ?dle_C // -[k]add0n dle_mul ?dle_C //.
  by case: b.
have big p a : (a <= m + 2)%N -> dle p (a * k) -> dle p ((m + 2) * k).
  by move=> le; apply: dle_le; rewrite leq_mul2r le orbT.
move: Hc; rewrite /perm_constraints inE => /orP[/eqP->|].
  by apply: (@big _ 2%N) => //; rewrite ?leq_addl // mul2n -addnn dle_mul // dle_sub ?dle_1 // Z0 //; left.
rewrite mem_cat => /orP[|].
  move/occurs_mem/occurs_map => [ch Hch ->].
  have [_ _ Hz Hzn _] := Hcs _ Hch.
  have -> : ((m + 2) * k = k + (k + m * k))%N by lia.
  rewrite dle_mul ?dle_sub ?dle_add ?dle_1 // dle_mul //; [exact: (lin _ Hch true) | exact: (lin _ Hch false)].
rewrite mem_cat => /orP[|].
  have chain : forall cs c0, (forall ch, occurs ch (c0 :: cs) -> dle (ch_z ch) k /\ dle (ch_zu ch) k) ->
      c \in chain_constraints l0 c0 cs -> dle c (2 * k).
    elim=> [|c2 cs' IH] c1 //= H; rewrite inE => /orP[/eqP->|].
      rewrite mul2n -addnn dle_mul // dle_sub //; first by have [] := H c2; [right; left|].
      by have [] := H c1; [left|].
    by apply: IH => ch Hch; apply: H; right.
  move/chain => H; apply: (@big _ 2%N); rewrite ?leq_addl //; apply: H.
  by move=> ch /Hcs[].
have Hlast : dle (ch_z (last c0 cs)) k.
  by apply: Z0; elim: (cs) (c0) => [|c2 cs' IH] c1 /=; [left | right; exact: IH].
rewrite inE => /eqP->; apply: (@big _ 3%N); first by lia.
have -> : (3 * k = k + (k + k))%N by lia.
rewrite dle_mul // dle_sub //; first by rewrite dle_mul.
by apply: dle_le Hlast; rewrite leq_addr.
Qed.

Lemma dle_lookup_constraints k (l0 ql qb : {poly F}) beta gamma a s a' s' ap z zn c :
  dle l0 k -> dle ql k -> dle qb k -> dle a k -> dle s k -> dle a' k -> dle s' k -> dle ap k ->
  dle z k -> dle zn k ->
  c \in lookup_constraints l0 ql qb beta%:P gamma%:P a s a' s' ap z zn -> dle c (4 * k).
Proof.
move=> H0 Hl Hb Ha Hs Ha' Hs' Hap Hz Hzn.
have big p j : (j <= 4)%N -> dle p (j * k) -> dle p (4 * k).
  by move=> le; apply: dle_le; rewrite leq_mul2r le orbT.
have E2 : (2 * k = k + k)%N by lia.
have E3 : (3 * k = k + (k + k))%N by lia.
have E4 : (4 * k = k + (k + k + k))%N by lia.
rewrite /lookup_constraints !inE => /or4P[/eqP->|/eqP->|/eqP->|/orP[/eqP->|/eqP->]].
- by apply: (@big _ 2%N) => //; rewrite E2 dle_mul // dle_sub ?dle_1.
- by rewrite E4 dle_mul ?dle_sub ?dle_add ?dle_1 // !dle_mul // dle_add ?dle_C.
- apply: (@big _ 3%N) => //; rewrite E3 dle_mul // dle_sub //; first by rewrite dle_mul.
  by apply: dle_le Hz; rewrite leq_addr.
- by apply: (@big _ 2%N) => //; rewrite E2 dle_mul // dle_sub.
- apply: (@big _ 3%N) => //; rewrite E3 addnA !dle_mul ?dle_sub ?dle_add ?dle_1 //.
Qed.
End Degrees.
