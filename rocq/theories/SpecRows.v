(** Specification: the verifier's formulas of the permutation and lookup arguments read on the rows of
    the table, with oracles that know the value of their column on every row. *)
From mathcomp Require Import all_ssreflect all_algebra.
From Verif Require Import Base ModelPoly ModelVO ModelOracle ModelPermutation ModelLookup Spec.

Set Implicit Arguments.
Unset Strict Implicit.
Unset Printing Implicit Defensive.

Import GRing.Theory.
Local Open Scope ring_scope.

Section Rows.
Variables (F : fieldType) (d : domain F).
(** The oracle that answers at the point of row [i] with the value of row [i] of the column. *)
Definition told (o : poracle F) : voracle F unit :=
  Oracle (o_label o) (o_rots o)
    (VData Witness [seq (element d i, (po_evals o)`_i) | i <- iota 0 (dsize d)] None (pd_permute (o_data o))).

(** [PermutationArgument::open_argument] at row [i]; the selectors are 1 at row 0 and at row [u]. *)
Definition perm_at_row (pa : permutation_argument F) (qb : poracle F) (ws sigmas zs : seq (poracle F)) (beta gamma : F)
    (alphas : seq F) (i : nat) : res F :=
  perm_open pa (i == 0%N)%:R (i == pa_usable_rows pa)%:R (told qb) (map told zs) (map told sigmas) (map told ws)
    beta gamma d (element d i) alphas.
(** It is 0 on every row, whatever the alphas. *)
Definition perm_vanishes (pa : permutation_argument F) (qb : poracle F) (ws sigmas zs : seq (poracle F)) (beta gamma : F) : Prop :=
  forall i alphas, (i < dsize d)%N -> size alphas = number_of_alphas (size zs) ->
    perm_at_row pa qb ws sigmas zs beta gamma alphas i = Ok 0.

(** [LookupArgument::open_argument] at row [i]. *)
Definition lookup_at_row (u : nat) (qb : poracle F) (lo : lookup_oracles (poracle F)) (z : poracle F) (beta gamma : F)
    (alphas : seq F) (i : nat) : res F :=
  lookup_open (i == 0%N)%:R (i == u)%:R (told qb)
    (LookupOracles (told (lo_a lo)) (told (lo_s lo)) (told (lo_a' lo)) (told (lo_s' lo))) (told z) beta gamma
    (element d i) d alphas.
Definition lookup_vanishes (u : nat) (qb : poracle F) (lo : lookup_oracles (poracle F)) (z : poracle F) (beta gamma : F) : Prop :=
  forall i alphas, (i < dsize d)%N -> size alphas = 5%N -> lookup_at_row u qb lo z beta gamma alphas i = Ok 0.
(** The blinding column is 1 on the rows after [u] and 0 before. *)
Definition blinds (u : nat) (qb : poracle F) : Prop :=
  forall i, (i < dsize d)%N -> (po_evals qb)`_i = (u < i)%N%:R.
End Rows.
