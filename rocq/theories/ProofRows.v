(** The verifier's formulas on the rows: values and what their vanishing means. *)
From mathcomp Require Import all_ssreflect all_algebra zify.
From Verif Require Import Base ModelPoly ModelVO ModelOracle ModelPermutation ModelLookup Spec SpecProtocol SpecRows
  ProofBase ProofDomain ProofOracle ProofPermutation ProofOpen ProofVerifierCols ProofEach ProofHonest.

Set Implicit Arguments.
Unset Strict Implicit.
Unset Printing Implicit Defensive.

Import GRing.Theory.
Local Open Scope ring_scope.

Lemma combination_unit (R : comRingType) (cs : seq R) m j : (j < m)%N ->
  combination [seq (k == j)%:R | k <- iota 0 m] cs = cs`_j.
Proof.
move=> Hj; rewrite /combination size_map size_iota (bigD1 (Ordinal Hj)) //= (nth_map 0%N) ?size_iota // nth_iota // add0n eqxx mul1r.
rewrite big1 ?addr0 // => k nk; rewrite (nth_map 0%N) ?size_iota // nth_iota // add0n.
by case: eqP => [E|_]; [case/eqP: nk; apply: val_inj|rewrite mul0r].
Qed.
Lemma combination0 (R : comRingType) (al cs : seq R) : (forall c, c \in cs -> c = 0) -> combination al cs = 0.
Proof.
move=> H; rewrite /combination big1 // => k _; case: (leqP (size cs) k) => l; first by rewrite [X in _ * X]nth_default ?mulr0.
by rewrite (H _ (mem_nth _ l)) mulr0.
Qed.
Lemma combination_zero (R : comRingType) (cs : seq R) m : size cs = m -> 
  (forall al, size al = m -> combination al cs = 0) -> forall c, c \in cs -> c = 0.
Proof.
move=> sm H c /(nthP 0)[j Hj <-]; rewrite -(@combination_unit _ _ m) -?sm //; apply: H.
by rewrite size_map size_iota sm.
Qed.

Section Rows.
Variables (F : fieldType) (d : domain F).
Hypothesis dok : domain_ok d.
Notation n := (dsize d).

Lemma told_row (o : poracle F) i : (i < n)%N -> vo_query (told d o) (element d i) = Ok (po_evals o)`_i.
Proof.
move=> Hi; rewrite /vo_query /told /=; suff -> : assoc [seq (element d k, (po_evals o)`_k) | k <- iota 0 n] (element d i) = Some (po_evals o)`_i by [].
have inj k : k \in iota 0 n -> (element d k == element d i) = (k == i).
  by rewrite mem_iota add0n => /= Hk; rewrite element_eq // !modn_small.
have : i \in iota 0 n by rewrite mem_iota.
elim: (iota 0 n) inj => //= k s IH inj; rewrite inE eq_sym inj ?mem_head // eq_sym [i == k]eq_sym.
by case: eqP => [->//|_ /= Hi']; apply: IH => // k' Hk'; apply: inj; rewrite inE Hk' orbT.
Qed.
Lemma told_rot (o : poracle F) r i : (0 < n)%N -> 
  vo_query (told d o) (rot_point (dgen d) r (element d i)) = Ok (po_evals o)`_(rot_row n r i).
Proof. by move=> n0; rewrite -rot_row_point // told_row // rot_row_lt. Qed.

Section Perm.
Variables (pa : permutation_argument F) (qb : poracle F) (ws sigmas zs : seq (poracle F)) (beta gamma : F).
Notation u := (pa_usable_rows pa).
Notation m := (pa_max_cols pa).
Notation K := (size ws).
Definition perm_row_constraints i : seq F :=
  perm_constraints (i == 0%N)%:R (i == u)%:R (u < i)%N%:R beta gamma
     (perm_chunks m [seq (cell_value ws j i, cell_value sigmas j i, (pa_deltas pa)`_j * dgen d ^+ i) | j <- iota 0 K]
        [seq (cell_value zs j i, cell_value zs j (rot_row n next i), cell_value zs j (rot_row n (u, Plus) i))
          | j <- iota 0 (size (chunks m (iota 0 K)))]).
Hypothesis m0 : (0 < m)%N.
Hypothesis K0 : (0 < K)%N.
Hypothesis ss : size sigmas = K.
Hypothesis sd : size (pa_deltas pa) = K.
Hypothesis sz : size zs = size (chunks m ws).
Hypothesis bl : blinds d u qb.
Lemma size_perm_row i : size (perm_row_constraints i) = number_of_alphas (size zs).
Proof.
have sc : size (chunks m (iota 0 K)) = size zs by rewrite sz !size_chunks // size_iota.
have E : size (perm_chunks m [seq (cell_value ws j i, cell_value sigmas j i, (pa_deltas pa)`_j * dgen d ^+ i) | j <- iota 0 K]
        [seq (cell_value zs j i, cell_value zs j (rot_row n next i), cell_value zs j (rot_row n (u, Plus) i))
          | j <- iota 0 (size (chunks m (iota 0 K)))]) = size zs.
  by rewrite /perm_chunks size_map size_zip size_map size_iota map_chunks // size_map sc minnn.
rewrite /perm_row_constraints size_perm_constraints E; first by rewrite /number_of_alphas; lia.
by rewrite sz chunks_cons.
Qed.
Lemma perm_at_rowE alphas i : (i < n)%N -> size alphas = number_of_alphas (size zs) ->
  perm_at_row d pa qb ws sigmas zs beta gamma alphas i = Ok (combination alphas (perm_row_constraints i)).
Proof.
move=> Hi sa; have n0 : (0 < n)%N by apply: leq_ltn_trans Hi.
rewrite /perm_at_row perm_openE told_row // bl // (_ : perm_row_constraints i = perm_constraints (i == 0%N)%:R (i == u)%:R (u < i)%N%:R beta gamma
  (perm_chunks m (@perm_cols _ _ _ (pa_deltas pa) (element d i) (fun o => ok_or 0 (vo_query o (element d i))) (fun o => ok_or 0 (vo_query o (element d i)))
     (map (told d) sigmas) (map (told d) ws))
     (@perm_zs _ _ (fun o => ok_or 0 (vo_query o (element d i))) (fun o => ok_or 0 (vo_query o (element d 1 * element d i)))
       (fun o => ok_or 0 (vo_query o (element d u * element d i))) (map (told d) zs)))).
- have rn : element d 1 * element d i = rot_point (dgen d) next (element d i) by rewrite /rot_point /= mulrC.
  have ru : element d u * element d i = rot_point (dgen d) (u, Plus) (element d i) by rewrite /rot_point /= mulrC.
  apply: perm_generic_ok; rewrite ?size_map //.
  + by rewrite sz !size_chunks // size_map.
  + by rewrite sa /number_of_alphas; lia.
  + by move=> o Ho; have [p _ ->] := occurs_map Ho; rewrite told_row.
  + by move=> o Ho; have [p _ ->] := occurs_map Ho; rewrite told_row.
  + by move=> o Ho; have [p _ ->] := occurs_map Ho; rewrite told_row.
  + by move=> o Ho; have [p _ ->] := occurs_map Ho; rewrite rn told_rot.
  + by move=> k o _ Ho; have [p _ ->] := idx_map_inv Ho; rewrite ru told_rot.
- have rn : element d 1 * element d i = rot_point (dgen d) next (element d i) by rewrite /rot_point /= mulrC.
  have ru : element d u * element d i = rot_point (dgen d) (u, Plus) (element d i) by rewrite /rot_point /= mulrC.
  rewrite /perm_row_constraints; congr (perm_constraints _ _ _ _ _ (perm_chunks _ _ _)).
  + have {1}-> : iota 0 K = iota 0 (size (zip (zip ws sigmas) (pa_deltas pa))) by rewrite !size_zip ss sd !minnn.
    rewrite (@map_iota_idx _ _ _ (fun t => ((po_evals t.1.1)`_i, (po_evals t.1.2)`_i, t.2 * dgen d ^+ i))); last first.
      move=> j [[a b] c] Hj; have [Hab Hc] := idx_zip Hj; have [Ha Hb] := idx_zip Hab.
      by rewrite (cell_idx _ Ha) (cell_idx _ Hb) (idx_ok_nth 0 Hc).
    rewrite /perm_cols -[zip (map _ ws) _](_ : [seq (told d t.1, told d t.2) | t <- zip ws sigmas] = _); last first.
      by elim: (ws) (sigmas) => [|a s IH] [|b t] //=; rewrite IH.
    elim: (zip ws sigmas) (pa_deltas pa) => [|[a b] s IH] [|c r] //=; by rewrite IH !told_row.
  + have -> : size (chunks m (iota 0 K)) = size zs by rewrite sz !size_chunks // size_iota.
    rewrite (@map_iota_idx _ _ _ (fun z => ((po_evals z)`_i, (po_evals z)`_(rot_row n next i), (po_evals z)`_(rot_row n (u, Plus) i)))); last first.
      by move=> j z Hz; rewrite !(cell_idx _ Hz).
    by rewrite /perm_zs -map_comp; apply: map_occurs => z _ /=; rewrite rn ru !told_rot // told_row.
Qed.
Lemma perm_vanishesP : perm_vanishes d pa qb ws sigmas zs beta gamma <->
  perm_rows_hold n u m K beta gamma (cell_value ws) (cell_value sigmas) (fun j i => (pa_deltas pa)`_j * dgen d ^+ i) (cell_value zs).
Proof.
split=> [H i Hi|H i alphas Hi sa]; last by rewrite perm_at_rowE // combination0 //; exact: H.
apply: (@combination_zero _ (perm_row_constraints i)) (size_perm_row i) _ => al sa.
by have := H i al Hi sa; rewrite perm_at_rowE // => -[].
Qed.
End Perm.

(** A permutation argument that opens at all has matching lengths. *)
Lemma perm_open_sizes C (pa : permutation_argument F) l0 ql (vqb : voracle F C) vzs vsigmas vws beta gamma x alphas v :
  perm_open pa l0 ql vqb vzs vsigmas vws beta gamma d x alphas = Ok v ->
  [/\ (0 < pa_max_cols pa)%N, size vsigmas = size vws, size (pa_deltas pa) = size vws & size vzs = size (chunks (pa_max_cols pa) vws)].
Proof.
rewrite /perm_open => H; have [_ /rassert_ok /eqP s1 {}H] := rbind_ok H; have [_ /rassert_ok /eqP s2 {}H] := rbind_ok H.
have [wc Ec {}H] := rbind_ok H; have [sc _ {}H] := rbind_ok H; have [dc _ {}H] := rbind_ok H.
have [_ _ {}H] := rbind_ok H; have [_ _ {}H] := rbind_ok H; have [_ /rassert_ok /eqP s3 _] := rbind_ok H.
by move: Ec; rewrite /chunksR; case: posnP => // m0 [E]; rewrite s3 -E.
Qed.

Section Lookup.
Variables (u : nat) (qb : poracle F) (lo : lookup_oracles (poracle F)) (beta gamma : F).
Hypothesis bl : blinds d u qb.
Lemma lookup_vanishesP z : lookup_vanishes d u qb lo z beta gamma <->
  lookup_rows_hold n u beta gamma (fun i => (po_evals (lo_a lo))`_i) (fun i => (po_evals (lo_s lo))`_i)
    (fun i => (po_evals (lo_a' lo))`_i) (fun i => (po_evals (lo_s' lo))`_i) (fun i => (po_evals z)`_i).
Proof.
have E i al : (i < n)%N -> size al = 5%N -> lookup_at_row d u qb lo z beta gamma al i =
  Ok (combination al (lookup_constraints (i == 0%N)%:R (i == u)%:R (u < i)%N%:R beta gamma
    (po_evals (lo_a lo))`_i (po_evals (lo_s lo))`_i (po_evals (lo_a' lo))`_i (po_evals (lo_s' lo))`_i
    (po_evals (lo_a' lo))`_(rot_row n prev i) (po_evals z)`_i (po_evals z)`_(rot_row n next i))).
  move=> Hi sa; have n0 : (0 < n)%N by apply: leq_ltn_trans Hi.
  have rn : element d 1 * element d i = rot_point (dgen d) next (element d i) by rewrite /rot_point /= mulrC.
  have rp : (element d 1)^-1 * element d i = rot_point (dgen d) prev (element d i) by rewrite /rot_point /= mulrC.
  by apply: lookup_open_ok; rewrite ?element_neq0 //= ?rn ?rp ?told_rot ?told_row // bl.
split=> [H i Hi|H i al Hi sa]; last by rewrite E // combination0 //; exact: H.
apply: (@combination_zero _ _ 5) => // al sa.
by have := H i al Hi sa; rewrite E // => -[].
Qed.
End Lookup.
End Rows.
