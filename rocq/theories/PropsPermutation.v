(** Property theorems C24-C25: the permutation argument. The vocabulary ([perm_rows_hold],
    [cell_value], [is_cell], [at_most]) is in Spec.v; the proofs are in ProofPermArg.v. *)
From mathcomp Require Import all_ssreflect all_algebra zify.
From Coq Require Import String Lia.
From Verif Require Import Base ModelPoly ModelVO ModelOracle ModelPermutation
  Spec ProofBase ProofDomain ProofPermutation ProofPermArg.

Set Implicit Arguments.
Unset Strict Implicit.
Unset Printing Implicit Defensive.

Import GRing.Theory.
Local Open Scope ring_scope.

(** ** C24 *)
(** [tau] is the permutation of the cells (columns [0..k), usable rows [0..u)); the sigma columns
    encode it; values agree along it; no denominator vanishes. Then the prover's construction
    returns grand product columns, each interpolating its column, with which every constraint
    vanishes on every row - for every blinding randomness. *)
Theorem c24_permutation_completeness (F : fieldType) (env : fenv F) (Z : Type) (zk_rand : Z -> F * Z)
    (d ext : domain F) (pa : permutation_argument F) (ws sigmas : seq (poracle F))
    (tau : nat * nat -> nat * nat) (beta gamma : F) (zk : Z) :
  let u := pa_usable_rows pa in let k := size ws in
  let w := cell_value ws in let sigma := cell_value sigmas in
  let id j i := (pa_deltas pa)`_j * dgen d ^+ i in
  (u < dsize d)%N -> (0 < pa_max_cols pa)%N -> (0 < k)%N -> size sigmas = k -> size (pa_deltas pa) = k ->
  (forall o, occurs o ws \/ occurs o sigmas -> size (po_evals o) = dsize d) ->
  (forall c, is_cell k u c -> is_cell k u (tau c)) ->
  (forall c c', is_cell k u c -> is_cell k u c' -> tau c = tau c' -> c = c') ->
  (forall c, is_cell k u c -> sigma c.1 c.2 = id (tau c).1 (tau c).2) ->
  (forall c, is_cell k u c -> w c.1 c.2 = w (tau c).1 (tau c).2) ->
  (forall c, is_cell k u c -> w c.1 c.2 + beta * sigma c.1 c.2 + gamma != 0) ->
  exists zs zk', [/\ construct_agg_polys env zk_rand pa ws sigmas beta gamma d ext zk = Ok (zs, zk'),
    size zs = size (chunks (pa_max_cols pa) ws),
    forall z, occurs z zs -> interpolates d z &
    perm_rows_hold (dsize d) u (pa_max_cols pa) k beta gamma w sigma id (cell_value zs)].
Proof.
move=> u k w sigma id un m0 k0 ss sd Hsz tc ti sgE cp nz.
have [zs [zk' E]] := construct_agg_complete env zk_rand ext un Hsz m0 k0 ss sd tc ti sgE cp nz zk.
have [Hs _ Hi Hr _] := construct_agg_rows un Hsz E.
by exists zs, zk'.
Qed.
Print Assumptions c24_permutation_completeness.

(** Without any assumption on the witness: whenever the construction returns, all constraints
    hold on all rows and no denominator was zero. *)
Theorem c24_constructed_rows_hold (F : fieldType) (env : fenv F) (Z : Type) (zk_rand : Z -> F * Z)
    (d ext : domain F) (pa : permutation_argument F) (ws sigmas : seq (poracle F))
    (beta gamma : F) (zk zk' : Z) (zs : seq (poracle F)) :
  let u := pa_usable_rows pa in let k := size ws in
  let w := cell_value ws in let sigma := cell_value sigmas in
  let id j i := (pa_deltas pa)`_j * dgen d ^+ i in
  (u < dsize d)%N ->
  (forall o, occurs o ws \/ occurs o sigmas -> size (po_evals o) = dsize d) ->
  construct_agg_polys env zk_rand pa ws sigmas beta gamma d ext zk = Ok (zs, zk') ->
  [/\ size zs = size (chunks (pa_max_cols pa) ws),
      forall z, occurs z zs -> interpolates d z,
      perm_rows_hold (dsize d) u (pa_max_cols pa) k beta gamma w sigma id (cell_value zs) &
      forall c, is_cell k u c -> w c.1 c.2 + beta * sigma c.1 c.2 + gamma != 0].
Proof.
move=> u k w sigma id un Hsz E; have [Hs _ Hi Hr Hn] := construct_agg_rows un Hsz E.
by split.
Qed.
Print Assumptions c24_constructed_rows_hold.

(** ** C25 *)
(** A violated copy constraint ([bad] and its image hold different values): except for at most
    [k * u] values of beta there are at most [2 * k * u] values of gamma for which any choice
    whatsoever of grand product columns satisfies all constraints on all rows. *)
Theorem c25_permutation_soundness (F : fieldType) (n u m k : nat) (w sigma id : nat -> nat -> F)
    (tau : nat * nat -> nat * nat) (bad : nat * nat) :
  (0 < m)%N -> (u < n)%N ->
  (forall c c', is_cell k u c -> is_cell k u c' -> id c.1 c.2 = id c'.1 c'.2 -> c = c') ->
  (forall c, is_cell k u c -> is_cell k u (tau c)) ->
  (forall c, is_cell k u c -> sigma c.1 c.2 = id (tau c).1 (tau c).2) ->
  is_cell k u bad -> w bad.1 bad.2 <> w (tau bad).1 (tau bad).2 ->
  at_most (k * u) (fun beta : F => ~ at_most (2 * (k * u))
    (fun gamma => exists z, perm_rows_hold n u m k beta gamma w sigma id z)).
Proof. move=> m0 un ii tc sgE bc viol; exact: (perm_sound m0 un ii tc sgE bc viol). Qed.
Print Assumptions c25_permutation_soundness.

(** The identity labels the crate uses, [delta_j * omega^i], are pairwise different as soon as the
    deltas lie in different cosets of the domain. *)
Theorem c25_identity_labels (F : fieldType) (d : domain F) (deltas : seq F) (k u : nat) :
  domain_ok d -> (u <= dsize d)%N -> size deltas = k ->
  (forall j j', (j < k)%N -> (j' < k)%N -> deltas`_j' != 0 /\
     ((deltas`_j / deltas`_j') ^+ dsize d = 1 -> j = j')) ->
  forall c c', is_cell k u c -> is_cell k u c' ->
    deltas`_c.1 * dgen d ^+ c.2 = deltas`_c'.1 * dgen d ^+ c'.2 -> c = c'.
Proof. exact: identity_labels. Qed.
Print Assumptions c25_identity_labels.

(** ** Non-vacuity *)
From Coq Require Import NArith.
From Verif Require Import Field97 Concrete ProofConcrete.
Local Close Scope ring_scope.

(** Two columns of four rows, two usable rows; cells (0,0) and (1,1) are copies of each other. *)
Definition pe_tau (c : nat * nat) : nat * nat :=
  if c == (0, 0)%nat then (1, 1)%nat else if c == (1, 1)%nat then (0, 0)%nat else c.
Definition pe_pa : permutation_argument f97_fieldType := PermutationArgument 1 2 (col [:: 1; 5]%nat).
Definition pe_ws : seq (poracle f97_fieldType) :=
  [:: porc Witness 4 "a" (col [:: 7; 2; 3; 5]%nat) true; porc Witness 4 "b" (col [:: 1; 7; 27; 28]%nat) true].
Definition pe_bad : seq (poracle f97_fieldType) :=
  [:: porc Witness 4 "a" (col [:: 7; 2; 3; 5]%nat) true; porc Witness 4 "b" (col [:: 1; 8; 27; 28]%nat) true].
Definition pe_id (j i : nat) : f97_fieldType := (nth 0%R (pa_deltas pe_pa) j * dgen (dom97 4) ^+ i)%R.
Definition pe_sigma (j : nat) : seq f97 :=
  [seq if (i < 2)%nat then pe_id (pe_tau (j, i)).1 (pe_tau (j, i)).2 else 0%R | i <- iota 0 4].
Definition pe_sigmas : seq (poracle f97_fieldType) :=
  [:: porc Fixed 4 "s0" (pe_sigma 0) false; porc Fixed 4 "s1" (pe_sigma 1) false].

Lemma cells22 (P : nat * nat -> Prop) : P (0, 0)%nat -> P (0, 1)%nat -> P (1, 0)%nat -> P (1, 1)%nat ->
  forall c, is_cell 2 2 c -> P c.
Proof. by move=> a b e f; case=> [[|[|j]] [|[|i]]]. Qed.

Example ex_c24 : let beta := n97 3 in let gamma := n97 4 in
  [/\ pa_usable_rows pe_pa < dsize (dom97 4), size pe_sigmas = size pe_ws /\ size (pa_deltas pe_pa) = size pe_ws,
      forall c, is_cell 2 2 c -> is_cell 2 2 (pe_tau c),
      forall c c', is_cell 2 2 c -> is_cell 2 2 c' -> pe_tau c = pe_tau c' -> c = c' &
  [/\ forall c, is_cell 2 2 c -> cell_value pe_sigmas c.1 c.2 = pe_id (pe_tau c).1 (pe_tau c).2,
      forall c, is_cell 2 2 c -> cell_value pe_ws c.1 c.2 = cell_value pe_ws (pe_tau c).1 (pe_tau c).2 &
      forall c, is_cell 2 2 c -> (cell_value pe_ws c.1 c.2 + beta * cell_value pe_sigmas c.1 c.2 + gamma)%R != 0%R]].
Proof.
split=> //; [by apply: cells22| |split].
- by move=> [[|[|j]] [|[|i]]] [[|[|j']] [|[|i']]].
- by apply: cells22; apply/eqP; vm_compute.
- by apply: cells22; apply/eqP; vm_compute.
- by apply: cells22; vm_compute.
Qed.
(** The same permutation, violated: 7 and 8 are not equal. *)
Example ex_c25 : [/\ forall c c', is_cell 2 2 c -> is_cell 2 2 c' -> pe_id c.1 c.2 = pe_id c'.1 c'.2 -> c = c',
   is_cell 2 2 (0, 0)%nat & cell_value pe_bad 0 0 <> cell_value pe_bad (pe_tau (0, 0)%nat).1 (pe_tau (0, 0)%nat).2].
Proof.
split; [|by []|by apply/eqP; vm_compute].
have gen : all (fun c => all (fun c' => (pe_id c.1 c.2 == pe_id c'.1 c'.2) ==> (c == c')) (cells 2 2)) (cells 2 2).
  by vm_compute.
move=> c c' Hc Hc' E; rewrite -!mem_cells in Hc Hc'.
by move/allP/(_ c Hc)/allP/(_ c' Hc')/implyP: gen; rewrite E eqxx => /(_ isT)/eqP.
Qed.
Example ex_c25_labels : forall j j', (j < 2)%nat -> (j' < 2)%nat -> nth 0%R (pa_deltas pe_pa) j' != 0%R /\
     (((nth 0%R (pa_deltas pe_pa) j / nth 0%R (pa_deltas pe_pa) j') ^+ dsize (dom97 4))%R = 1%R -> j = j').
Proof. by move=> [|[|j]] [|[|j']] // _ _; split=> // /eqP; vm_compute. Qed.
