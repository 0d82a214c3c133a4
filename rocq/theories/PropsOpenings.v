(** Property theorems C75: the multi-opening publishes one more value of the columns. *)
From mathcomp Require Import all_ssreflect all_algebra.
From mathcomp Require Import zify.
From Verif Require Import Base ModelPoly ModelVO ModelOracle ModelPC ModelPermutation ModelIndexer ModelMultiproof ModelProtocol
  Spec SpecPIOP SpecProtocol SpecMultiopen SpecBlind SpecOpenings ProofBase ProofEach ProofDomain ProofMultiopen ProofProver ProofExact ProofOracle ProofPermutation ProofOpenings PropsHiding.

Set Implicit Arguments.
Unset Strict Implicit.
Unset Printing Implicit Defensive.

Import GRing.Theory.
Local Open Scope ring_scope.

Lemma idx_front A (s t : seq A) i a : idx s i = Ok a -> idx (s ++ t) i = Ok a.
Proof. by elim: s i => [|x s IH] [|i] //= /IH. Qed.
Lemma idx_of_mem (A : eqType) (s : seq A) a : a \in s -> exists i, idx s i = Ok a.
Proof.
elim: s => //= x s IH; rewrite inE => /orP[/eqP ->|/IH [i Hi]]; [by exists 0%N|by exists i.+1].
Qed.

Section C75.
Variables (F : fieldType) (env : fenv F) (PC : pcs F) (FS : fsrng F) (ck : pc_ck PC) (vk : verifier_key F) (pre : prover_pre PC) (ds : nat).

Let x1_of (pf : tp_proof PC) : F := (fs_rand (ch_fs (derive_challenges FS pf))).1.
Let x3 (pf : tp_proof PC) : F := x3_of (ch_fs (derive_challenges FS pf)) (tp_multiopen pf).
Let rots_of (ws : seq (poracle F)) (pf : tp_proof PC) : seq (seq rotation) :=
  published_rots vk pre ws (size (tp_z_commitments pf)) (size (tp_quotient_commitments pf)).

(** C75: q_evals has one value for each set of rotations declared by some column, at the place of that set in the
    order of sets: the values at x3 of the columns with these rotations, combined with powers of x1. *)
Theorem c75_q_evals ws ins vos (zk zk' : pc_zk PC) pf : tp_prove env FS ck vk pre ws ins vos ds zk = Ok (pf, zk') ->
  exists cols : seq (poracle F), [/\ map (@o_rots _) cols = rots_of ws pf,
    forall i w, idx ws i = Ok w -> exists2 o, idx cols i = Ok o & opened o =1 opened w,
    size (mp_q_evals (tp_multiopen pf)) = size (undup (rots_of ws pf)) &
    forall k, k \in rots_of ws pf ->
      (mp_q_evals (tp_multiopen pf))`_(place k (rots_of ws pf)) = combined (x1_of pf) [seq opened o (x3 pf) | o <- cols & o_rots o == k]].
Proof.
move=> H; have [T [tr [fs' Hm]]] := prover_inv H.
have E := published_ok tr; have [S Q] := q_evals_combined (pt_size tr) Hm; rewrite E in S Q.
exists (t_oracles pre (ws_ext env vk ws) T); split=> // i w Hw.
exists (compute_extended_evals env (ix_ext (vk_index vk)) w) => //.
by apply: idx_front; rewrite /ws_ext idx_map Hw.
Qed.

(** So the value at x3 of a column whose set of rotations no other opened column declares is in the proof. *)
Theorem c75_lone_column_opened_at_x3 ws ins vos (zk zk' : pc_zk PC) pf i w :
  tp_prove env FS ck vk pre ws ins vos ds zk = Ok (pf, zk') ->
  idx ws i = Ok w -> count_mem (o_rots w) (rots_of ws pf) = 1%N ->
  (mp_q_evals (tp_multiopen pf))`_(place (o_rots w) (rots_of ws pf)) = opened w (x3 pf).
Proof.
move=> H Hw C1; have [cols [E W _ Q]] := c75_q_evals H; have [o Ho Eo] := W _ _ Hw.
have [lt Hn] := idx_ok Ho.
have Er : o_rots o = o_rots w.
  have l : (i < size ws)%N := idx_lt Hw.
  have : nth [::] (map (@o_rots _) cols) i = nth [::] (rots_of ws pf) i by rewrite E.
  rewrite (nth_map o) // (Hn o) => ->; rewrite /rots_of /published_rots nth_cat size_map l.
  by rewrite (nth_map w) //; have [_ ->] := idx_ok Hw.
rewrite Q; last by rewrite -has_pred1 has_count C1.
suff -> : [seq o' <- cols | o_rots o' == o_rots w] = [:: o] by rewrite /= Eo mulr0 addr0.
have S1 : size [seq o' <- cols | o_rots o' == o_rots w] = 1%N by rewrite size_filter -C1 -E count_map.
have : occurs o [seq o' <- cols | o_rots o' == o_rots w].
  elim: (cols) i Ho {W Hw Hn lt E Q S1} => [|c cs IH] [|i] //=; first by case=> ->; rewrite Er eqxx; left.
  by move/IH => H1; case: ifP => _ //=; right.
by case: [seq _ <- _ | _] S1 => [|a [|b l]] // _ /= [->|].
Qed.

(** Hence as many blinded rows as declared rotations do not hide such a column: two columns that differ in one of the
    other rows lead to different evaluations in the proof for the same xi and x3, whatever the blinded rows, the other
    columns and the random generators are. *)
Theorem c75_one_more_blinded_row_needed (d : domain F) ws ws' ins ins' vos vos' (zk zk' zk1 zk1' : pc_zk PC) pf pf' i w w' k j :
  fenv_ok env -> std_domain env d -> domain_new env ds = Some d ->
  tp_prove env FS ck vk pre ws ins vos ds zk = Ok (pf, zk1) ->
  tp_prove env FS ck vk pre ws' ins' vos' ds zk' = Ok (pf', zk1') ->
  uniq (map (@o_label _) ws) -> [seq (o_label o, o_rots o) | o <- ws] = [seq (o_label o, o_rots o) | o <- ws'] ->
  size (tp_z_commitments pf) = size (tp_z_commitments pf') -> size (tp_quotient_commitments pf) = size (tp_quotient_commitments pf') ->
  ch_xi (derive_challenges FS pf) = ch_xi (derive_challenges FS pf') -> x3 pf = x3 pf' ->
  let xi := ch_xi (derive_challenges FS pf) in let n := dsize d in
  xi ^+ n != 1 -> x3 pf ^+ n != 1 -> (forall r, r \in o_rots w -> rot_point (dgen d) r xi != x3 pf) ->
  idx ws i = Ok w -> idx ws' i = Ok w' -> count_mem (o_rots w) (rots_of ws pf) = 1%N ->
  interpolates d w -> interpolates d w' -> (k <= n)%N -> (n - k <= size (o_rots w))%N -> (j < k)%N ->
  (forall l, (l < k)%N -> (po_evals w)`_l = (po_evals w')`_l <-> l != j) ->
  tp_witness_evals pf <> tp_witness_evals pf' \/ mp_q_evals (tp_multiopen pf) <> mp_q_evals (tp_multiopen pf').
Proof.
move=> eok sd Ed H H' ul El sz sq Exi Ex3 xi n nx nx3 nr Hw Hw' C1 io io' kn few jk D.
have dok := std_domain_ok eok sd.
case: (tp_witness_evals pf =P tp_witness_evals pf') => [Ew|]; last by left.
case: (mp_q_evals (tp_multiopen pf) =P mp_q_evals (tp_multiopen pf')) => [Eq|]; last by right.
exfalso.
have rE : map (@o_rots _) ws' = map (@o_rots _) ws.
  by have /(congr1 (map snd)) := El; rewrite -!map_comp => ->.
have lE : map (@o_label _) ws' = map (@o_label _) ws.
  by have /(congr1 (map fst)) := El; rewrite -!map_comp => ->.
have Er : rots_of ws' pf' = rots_of ws pf by rewrite /rots_of /published_rots rE sz sq.
have [lt Hn] := idx_ok Hw; have [lt' Hn'] := idx_ok Hw'.
have Erw : o_rots w' = o_rots w.
  by rewrite -(Hn w) -(Hn' w') -!(nth_map _ [::] (@o_rots _)) // rE.
have Elw : o_label w' = o_label w.
  by rewrite -(Hn w) -(Hn' w') -!(nth_map _ String.EmptyString (@o_label _)) // lE.
have V3 : opened w (x3 pf) = opened w' (x3 pf).
  have C1' : count_mem (o_rots w') (rots_of ws' pf') = 1%N by rewrite Erw Er.
  have := c75_lone_column_opened_at_x3 H' Hw' C1'; rewrite Erw Er -Eq -Ex3 => <-.
  by rewrite (c75_lone_column_opened_at_x3 H Hw C1).
have [T [tr [fs' Hm]]] := prover_inv H; have [T' [tr' _]] := prover_inv H'.
have Td : t_d T = d by have := pt_d tr; rewrite Ed => -[].
have Td' : t_d T' = d by have := pt_d tr'; rewrite Ed => -[].
have ext_shape (us : seq (poracle F)) : [seq (o_label o, o_rots o) | o <- ws_ext env vk us] = [seq (o_label o, o_rots o) | o <- us].
  by rewrite /ws_ext -map_comp.
have qE : t_wqs T' = t_wqs T.
  have := pt_wqs tr'; have := pt_wqs tr; rewrite Td Td' -Exi.
  rewrite (@get_query_set_shape _ _ _ (ws_ext env vk ws) (ws_ext env vk ws')); last by rewrite !ext_shape.
  by move=> -> [].
have Vr r : r \in o_rots w -> opened w (rot_point (dgen d) r xi) = opened w' (rot_point (dgen d) r xi).
  move=> Hr; have wq := pt_wqs tr; rewrite Td in wq.
  have Hwe : idx (ws_ext env vk ws) i = Ok (compute_extended_evals env (ix_ext (vk_index vk)) w) by rewrite /ws_ext idx_map Hw.
  have Hwe' : idx (ws_ext env vk ws') i = Ok (compute_extended_evals env (ix_ext (vk_index vk)) w') by rewrite /ws_ext idx_map Hw'.
  have [e He [e1 e2]] := query_set_has dok wq (occurs_idx Hwe) Hr.
  have [a Ha] : exists a, idx (t_wqs T) a = Ok e by exact: idx_of_mem He.
  have W1 := pt_wevals tr; have W2 := pt_wevals tr'; rewrite qE -Ew in W2.
  have [v Hv] : exists v, idx (tp_witness_evals pf) a = Ok v by apply: (idx_size2 _ Ha); rewrite (rmapM_ok W1).
  have U : uniq (map (@o_label _) (ws_ext env vk ws)) by rewrite /ws_ext -map_comp.
  have U' : uniq (map (@o_label _) (ws_ext env vk ws')) by rewrite /ws_ext -map_comp lE.
  have F1 := find_oracle_uniq U Hwe; have F2 := find_oracle_uniq U' Hwe'.
  have := each2_idx (rmapM_each W1) Ha Hv; have := each2_idx (rmapM_each W2) Ha Hv; rewrite e1 F1.
  rewrite -[o_label (compute_extended_evals _ _ w)]Elw F2 e2 /po_query => -[Ev'] [Ev].
  by rewrite /opened; move: Ev Ev'; rewrite /compute_extended_evals /po_poly /= => -> ->.
pose pts := x3 pf :: [seq rot_point (dgen d) r xi | r <- o_rots w].
have upts : uniq pts.
  rewrite /pts /=; apply/andP; split; first by apply/mapP => -[r Hr E]; have := nr r Hr; rewrite E eqxx.
  have Ho : occurs (compute_extended_evals env (ix_ext (vk_index vk)) w) (t_oracles pre (ws_ext env vk ws) T).
    by apply: (@occurs_idx _ _ i); apply: idx_front; rewrite /ws_ext idx_map Hw.
  exact: (mo_prove_distinct dok Ed (pt_size tr) Hm Ho).
have npts x : x \in pts -> x ^+ dsize d != 1.
  by rewrite inE => /orP[/eqP -> //|/mapP[r _ ->]]; rewrite (rot_point_exp dok).
have few' : (dsize d - k < size pts)%N by rewrite /= size_map ltnS.
have [x] := @c61_too_few_blinded_rows F env eok d sd k j pts w w' kn upts few' npts io io' jk D.
by rewrite inE => /orP[/eqP ->|/mapP[r Hr ->]]; [rewrite V3|rewrite Vr //]; rewrite eqxx.
Qed.
(** One more blinded row is enough: any other content of the remaining rows, with these blinded rows shifted, has the same
    values at x3 and at every rotated xi. *)
Theorem c75_one_more_blinded_row_enough (d : domain F) ws ins vos (zk zk1 : pc_zk PC) pf i w k v b v' :
  fenv_ok env -> std_domain env d -> domain_new env ds = Some d ->
  tp_prove env FS ck vk pre ws ins vos ds zk = Ok (pf, zk1) ->
  let xi := ch_xi (derive_challenges FS pf) in let n := dsize d in
  xi ^+ n != 1 -> x3 pf ^+ n != 1 -> (forall r, r \in o_rots w -> rot_point (dgen d) r xi != x3 pf) ->
  idx ws i = Ok w -> interpolates d w -> (k <= n)%N -> (size (o_rots w) < n - k)%N ->
  size v = k -> po_evals w = v ++ b -> size v' = k ->
  exists e : seq F, size e = (n - k)%N /\ forall w', interpolates d w' -> po_evals w' = v' ++ col_add b e ->
    opened w' (x3 pf) = opened w (x3 pf) /\
    forall r, r \in o_rots w -> opened w' (rot_point (dgen d) r xi) = opened w (rot_point (dgen d) r xi).
Proof.
move=> eok sd Ed H xi n nx nx3 nr Hw io kn few sv Ew sv'.
have dok := std_domain_ok eok sd; have [T [tr [fs' Hm]]] := prover_inv H.
pose pts := x3 pf :: [seq rot_point (dgen d) r xi | r <- o_rots w].
have upts : uniq pts.
  rewrite /pts /=; apply/andP; split; first by apply/mapP => -[r Hr E]; have := nr r Hr; rewrite E eqxx.
  have Ho : occurs (compute_extended_evals env (ix_ext (vk_index vk)) w) (t_oracles pre (ws_ext env vk ws) T).
    by apply: (@occurs_idx _ _ i); apply: idx_front; rewrite /ws_ext idx_map Hw.
  exact: (mo_prove_distinct dok Ed (pt_size tr) Hm Ho).
have npts x : x \in pts -> x ^+ dsize d != 1.
  by rewrite inE => /orP[/eqP -> //|/mapP[r _ ->]]; rewrite (rot_point_exp dok).
have few' : (size pts <= dsize d - k)%N by rewrite /= size_map.
have [e [se He]] := @c61_openings_hide_the_rows F env eok d sd k pts v v' kn upts few' npts sv sv'.
have sb : size b = (dsize d - k)%N by case: io => + _; rewrite Ew size_cat sv => <-; rewrite addKn.
exists e; split=> // w' io' Ew'; have G := He w w' b io io' sb Ew Ew'; split=> [|r Hr]; apply: esym; apply: G.
  by rewrite inE eqxx.
by rewrite inE; apply/orP; right; apply/mapP; exists r.
Qed.
End C75.
Print Assumptions c75_q_evals.
Print Assumptions c75_lone_column_opened_at_x3.
Print Assumptions c75_one_more_blinded_row_needed.
Print Assumptions c75_one_more_blinded_row_enough.

From Coq Require Import NArith String.
From Verif Require Import SpecCircuit Field97 Concrete ProofConcrete Run97 PropsEndToEnd ProofTools PropsVerdict PropsUnopened PropsReject.
Local Close Scope ring_scope.

(** Eight rows with b (a + next a) = c. Column a declares two rotations, and its last two rows are
    blinded. Two witnesses, which differ in row 3 and in the blinded rows of a. *)
Definition y_cols (a c : seq nat) : seq (poracle F97) :=
  [:: porc Witness 8 "a" (col a) false; flat (porc Witness 8 "b" (col [:: 4; 3; 0; 0; 8; 1; 2; 5]) false);
      flat (porc Witness 8 "c" (col c) false)].
Definition y_a := [:: 3; 12; 15; 7; 1; 31; 5; 66].
Definition y_a' := [:: 3; 12; 15; 8; 1; 31; 9; 13].
Definition y_ws := let cs := y_cols y_a [:: 60; 81; 0; 0; 62; 36; 45; 54] in
  Oracle "a"%string [:: curr; next] (o_data (nth r_qblind cs 0)) :: behead cs.
Definition y_ws' := let cs := y_cols y_a' [:: 60; 81; 0; 0; 62; 40; 44; 80] in
  Oracle "a"%string [:: curr; next] (o_data (nth r_qblind cs 0)) :: behead cs.
Definition y_gate : expr F97 oquery :=
  let W l r := Orc (OQuery l r Witness) in Sum (Prod (W "b"%string curr) (Sum (W "a"%string curr) (W "a"%string next))) (Neg (W "c"%string curr)).
Definition y_C (ws : seq (poracle F97)) : circuit F97 :=
  Circuit ws [::] [::] [::] [::] (flat r_qblind) [:: v_gate y_gate] [::] r_d r_zh (permutation_info_dummy F97) 6.
Definition y_vk := let C := y_C y_ws in ok_or r_vk0 (ModelIndexer.index env97 (fun o : pdata F97 => pd_permute o) (c_vos C) [::]
   (c_ws C) (c_ins C) (c_fs C) (c_d C) (c_zh C) (c_info C) (c_u C)).
Definition y_FS : fsrng F97 := scripted [seq n97 i | i <- [:: 11; 12; 13; 14; 15; 16; 17; 18; 19]].
Definition y_pre := preprocessed env97 KZG97 (y_C y_ws) y_vk.
Definition y_run ws zk := tp_prove env97 (PC := KZG97) y_FS srs97 y_vk y_pre ws [::] [:: v_gate y_gate] 8 zk.
Definition y_pf ws zk := (ok_or (r_dummy, 0%num) (y_run ws zk)).1.
Definition y_zk ws zk := (ok_or (r_dummy, 0%num) (y_run ws zk)).2.
Lemma y_run1 : y_run y_ws 11%num = Ok (y_pf y_ws 11%num, y_zk y_ws 11%num).
Proof. exact: (pair_ok _ (isT <: is_true (ok_any (y_run y_ws 11%num)))). Qed.
Lemma y_run2 : y_run y_ws' 12%num = Ok (y_pf y_ws' 12%num, y_zk y_ws' 12%num).
Proof. exact: (pair_ok _ (isT <: is_true (ok_any (y_run y_ws' 12%num)))). Qed.
Definition y_rots := published_rots y_vk y_pre y_ws
  (size (tp_z_commitments (y_pf y_ws 11%num))) (size (tp_quotient_commitments (y_pf y_ws 11%num))).
Definition y_w := nth r_qblind y_ws 0.
Definition y_w' := nth r_qblind y_ws' 0.
Definition y_x3 (pf : tp_proof KZG97) : F97 := x3_of (ch_fs (derive_challenges y_FS pf)) (tp_multiopen pf).
Lemma y_lone : count_mem (o_rots y_w) y_rots = 1. Proof. by vm_compute. Qed.

(** Both proofs are accepted. *)
Definition y_verify pf := (tp_verify env97 (PC := KZG97) y_FS srs97 y_vk (vpre97 (y_C y_ws)) pf (map vwit y_ws) [::] [:: v_gate y_gate] 8 r_zh).1.
Example ex_c75_accepted : y_verify (y_pf y_ws 11%num) = Ok tt /\ y_verify (y_pf y_ws' 12%num) = Ok tt.
Proof. by vm_compute. Qed.
Example ex_c75_lone :
  [/\ size (mp_q_evals (tp_multiopen (y_pf y_ws 11%num))) = 2, place (o_rots y_w) y_rots = 1 &
      nth 0%R (mp_q_evals (tp_multiopen (y_pf y_ws 11%num))) 1 = opened y_w (y_x3 (y_pf y_ws 11%num))].
Proof.
split; [by vm_compute|by vm_compute|].
exact (@c75_lone_column_opened_at_x3 F97 env97 KZG97 y_FS srs97 y_vk _ 8 _ _ _ _ _ _ 0 _ y_run1 erefl y_lone).
Qed.
(** The two proofs differ in an evaluation, although xi and x3 are the same and both columns have two blinded rows. *)
Example ex_c75 : let pf := y_pf y_ws 11%num in let pf' := y_pf y_ws' 12%num in
  tp_witness_evals pf <> tp_witness_evals pf' \/ mp_q_evals (tp_multiopen pf) <> mp_q_evals (tp_multiopen pf').
Proof.
have D l : (l < 6)%nat -> nth 0%R (po_evals y_w) l = nth 0%R (po_evals y_w') l <-> l != 3.
  have : all (fun l => (nth 0%R (po_evals y_w) l == nth 0%R (po_evals y_w') l) == (l != 3)) (iota 0 6) by vm_compute.
  move/allP => H Hl; have /H/eqP <- : l \in iota 0 6 by rewrite mem_iota.
  by split=> [->|/eqP].
have R : all (fun r => rot_point (dgen (dom97 8)) r (ch_xi (derive_challenges y_FS (y_pf y_ws 11%num))) != y_x3 (y_pf y_ws 11%num)) (o_rots y_w) by vm_compute.
have Ed : domain_new env97 8 = Some (dom97 8).
  have E8 : dsize (dom97 8) = 8 by vm_cast_no_check (erefl 8).
  by rewrite -{1}E8; exact dom97_8.
pose proof (@c75_one_more_blinded_row_needed F97 env97 KZG97 y_FS srs97 y_vk y_pre 8 (dom97 8) y_ws y_ws' [::] [::] [:: v_gate y_gate] [:: v_gate y_gate]
  11%num 12%num (y_zk y_ws 11%num) (y_zk y_ws' 12%num) (y_pf y_ws 11%num) (y_pf y_ws' 12%num) 0 y_w y_w' 6 3 env97_ok dom97_8) as H.
pose proof (H Ed y_run1 y_run2) as H1; clear H; rename H1 into H.
have U : uniq (map (@o_label _) y_ws) by vm_compute.
have L : [seq (o_label o, o_rots o) | o <- y_ws] = [seq (o_label o, o_rots o) | o <- y_ws'] by vm_compute.
have {}H := H U L.
have Sz : size (tp_z_commitments (y_pf y_ws 11%num)) = size (tp_z_commitments (y_pf y_ws' 12%num)) by vm_compute.
have Sq : size (tp_quotient_commitments (y_pf y_ws 11%num)) = size (tp_quotient_commitments (y_pf y_ws' 12%num)) by vm_compute.
have {}H := H Sz Sq.
have X : ch_xi (derive_challenges y_FS (y_pf y_ws 11%num)) = ch_xi (derive_challenges y_FS (y_pf y_ws' 12%num)) by vm_compute.
have X3 : y_x3 (y_pf y_ws 11%num) = y_x3 (y_pf y_ws' 12%num) by vm_compute.
have {}H := H X X3.
have nx : (ch_xi (derive_challenges y_FS (y_pf y_ws 11%num)) ^+ dsize (dom97 8) != 1 :> F97)%R by vm_compute.
have nx3 : (y_x3 (y_pf y_ws 11%num) ^+ dsize (dom97 8) != 1 :> F97)%R by vm_compute.
have {}H := H nx nx3 (elimT allP R).
have I : idx y_ws 0 = Ok y_w by [].
have I' : idx y_ws' 0 = Ok y_w' by [].
have {}H := H I I' y_lone.
have P : interpolates (dom97 8) y_w by split; vm_compute.
have P' : interpolates (dom97 8) y_w' by split; vm_compute.
have k1 : (6 <= dsize (dom97 8))%nat by vm_compute.
have k2 : (dsize (dom97 8) - 6 <= size (o_rots y_w))%nat by vm_compute.
exact (H P P' k1 k2 isT D).
Qed.
(** With a third blinded row every other content of rows 0 to 4 has the same values. *)
Example ex_c75_enough (v : seq F97) : size v = 5 ->
  exists e : seq F97, size e = 3 /\ forall w', interpolates (dom97 8) w' -> po_evals w' = v ++ col_add (drop 5 (po_evals y_w)) e ->
    opened w' (y_x3 (y_pf y_ws 11%num)) = opened y_w (y_x3 (y_pf y_ws 11%num)) /\
    forall r, r \in o_rots y_w -> let pt := rot_point (dgen (dom97 8)) r (ch_xi (derive_challenges y_FS (y_pf y_ws 11%num))) in
      opened w' pt = opened y_w pt.
Proof.
move=> sv.
have R : all (fun r => rot_point (dgen (dom97 8)) r (ch_xi (derive_challenges y_FS (y_pf y_ws 11%num))) != y_x3 (y_pf y_ws 11%num)) (o_rots y_w) by vm_compute.
have Ed : domain_new env97 8 = Some (dom97 8).
  have E8 : dsize (dom97 8) = 8 by vm_cast_no_check (erefl 8).
  by rewrite -{1}E8; exact dom97_8.
have nx : (ch_xi (derive_challenges y_FS (y_pf y_ws 11%num)) ^+ dsize (dom97 8) != 1 :> F97)%R by vm_compute.
have nx3 : (y_x3 (y_pf y_ws 11%num) ^+ dsize (dom97 8) != 1 :> F97)%R by vm_compute.
pose proof (@c75_one_more_blinded_row_enough F97 env97 KZG97 y_FS srs97 y_vk y_pre 8 (dom97 8) y_ws [::] [:: v_gate y_gate]
  11%num (y_zk y_ws 11%num) (y_pf y_ws 11%num) 0 y_w 5 (take 5 (po_evals y_w)) (drop 5 (po_evals y_w)) v env97_ok dom97_8 Ed y_run1 nx nx3 (elimT allP R)) as H.
have I : idx y_ws 0 = Ok y_w by [].
have P : interpolates (dom97 8) y_w by split; vm_compute.
have k1 : (5 <= dsize (dom97 8))%nat by vm_compute.
have k2 : (size (o_rots y_w) < dsize (dom97 8) - 5)%nat by vm_compute.
have s5 : size (take 5 (po_evals y_w)) = 5 by vm_compute.
exact (H I P k1 k2 s5 (esym (cat_take_drop _ _)) sv).
Qed.
