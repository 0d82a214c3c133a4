(** Vocabulary for C59: when prove returns a proof. Uses only the data types users see. *)
From mathcomp Require Import all_ssreflect all_algebra.
From Verif Require Import Base ModelPoly ModelVO ModelOracle ModelPC ModelPermutation ModelIndexer
  ModelMultiproof ModelProtocol Spec SpecProtocol SpecPIOP SpecCircuit.

Set Implicit Arguments.
Unset Strict Implicit.
Unset Printing Implicit Defensive.

Import GRing.Theory.
Local Open Scope ring_scope.

Section Provable.
Variable F : fieldType.

(** The commitment key is long enough: committing to and opening a polynomial of at most [n]
    coefficients always succeeds. *)
Definition pcs_total (PC : pcs F) (ck : pc_ck PC) (n : nat) : Prop :=
  forall p : lpoly F, (size p <= n)%N ->
    (forall r, exists c, pc_commit1 ck p r = Ok c) /\ (forall x r, exists pf, pc_open ck p x r = Ok pf).

(** The permutation columns encode a permutation [tau] of the cells of the copied columns in the
    usable rows, and each cell has the value of its image. *)
Definition copies_hold (C : circuit F) (tau : nat * nat -> nat * nat) : Prop :=
  let ws := copied (c_ws C) in let k := size ws in let u := pi_u (c_info C) in
  let name (c : nat * nat) := (pi_deltas (c_info C))`_c.1 * dgen (c_d C) ^+ c.2 in
  [/\ size (c_sigmas C) = k /\ size (pi_deltas (c_info C)) = k,
      forall c, is_cell k u c -> is_cell k u (tau c),
      forall c c', is_cell k u c -> is_cell k u c' -> tau c = tau c' -> c = c',
      forall c, is_cell k u c -> cell_value (c_sigmas C) c.1 c.2 = name (tau c) &
      forall c, is_cell k u c -> cell_value ws c.1 c.2 = cell_value ws (tau c).1 (tau c).2].

(** In every usable row, the tuple of values of a lookup's expressions is a row of its table. *)
Definition lookups_hold (C : circuit F) : Prop :=
  forall l es tqs, occurs l (c_lookups C) -> gl_get_expressions l = Ok es -> gl_get_table_queries l = Ok tqs ->
  size es = size tqs /\
  forall i, (i < c_u C)%N -> exists2 j, (j < c_u C)%N &
    [seq meaning (row_value (c_ws C) (c_ins C) (c_fs C) (c_rows C) i) e | e <- es] =
    [seq (column_named (c_ts C) (oq_label q))`_j | q <- tqs].

(** No column is queried twice at the same row under different names (e.g. one row forward and
    n - 1 rows back). *)
Definition distinct_rotations (C : circuit F) : Prop :=
  forall o, occurs o (c_ws C ++ c_fs C ++ c_ts C ++ c_sigmas C ++ [:: c_qb C]) ->
  uniq [seq rot_row (c_rows C) r 0 | r <- o_rots o].

(** The challenges cause no division by zero in the prover. *)
Definition no_zero_denominator (C : circuit F) (theta beta gamma : F) : Prop :=
  (forall c, is_cell (size (copied (c_ws C))) (pi_u (c_info C)) c ->
     cell_value (copied (c_ws C)) c.1 c.2 + beta * cell_value (c_sigmas C) c.1 c.2 + gamma != 0) /\
  (forall l es tqs i, occurs l (c_lookups C) -> gl_get_expressions l = Ok es -> gl_get_table_queries l = Ok tqs -> (i < c_u C)%N ->
     lookup_row (c_ws C) (c_ins C) (c_fs C) (c_rows C) es theta i + beta != 0 /\
     table_row (c_ts C) tqs theta i + gamma != 0).

(** beta is the negative of the compressed value of a lookup in a usable row. *)
Definition beta_clash (C : circuit F) (theta beta : F) : Prop :=
  exists l es i, [/\ occurs l (c_lookups C), gl_get_expressions l = Ok es, (i < c_u C)%N &
    lookup_row (c_ws C) (c_ins C) (c_fs C) (c_rows C) es theta i + beta = 0].

(** The weaker conditions prove actually depends on, for given challenges. *)

(** In every usable row, the value of a lookup's expressions combined with powers of theta is the combined value of one
    of the usable rows of its table. *)
Definition combined_lookups_hold (C : circuit F) (theta : F) : Prop :=
  forall l es tqs, occurs l (c_lookups C) -> gl_get_expressions l = Ok es -> gl_get_table_queries l = Ok tqs ->
  size es = size tqs /\
  forall i, (i < c_u C)%N -> exists2 j, (j < c_u C)%N &
    lookup_row (c_ws C) (c_ins C) (c_fs C) (c_rows C) es theta i = table_row (c_ts C) tqs theta j.

(** There is a permutation column and a delta for every copied column, and the product over the copied cells with their
    names is the product with the names in the permutation columns. *)
Definition products_agree (C : circuit F) (beta gamma : F) : Prop :=
  let ws := copied (c_ws C) in let k := size ws in let u := pi_u (c_info C) in
  let name j i := (pi_deltas (c_info C))`_j * dgen (c_d C) ^+ i in
  [/\ size (c_sigmas C) = k, size (pi_deltas (c_info C)) = k &
   \prod_(j < k) \prod_(i < u) (cell_value ws j i + beta * name j i + gamma) =
   \prod_(j < k) \prod_(i < u) (cell_value ws j i + beta * cell_value (c_sigmas C) j i + gamma)].

(** The points at which a column is opened are distinct. The columns of the copy and lookup arguments are opened at two
    points, which differ when xi is not 0. *)
Definition distinct_points (C : circuit F) (xi : F) : Prop :=
  (forall o, occurs o (c_ws C ++ c_fs C ++ c_ts C ++ c_sigmas C ++ [:: c_qb C]) ->
     uniq [seq rot_point (dgen (c_d C)) r xi | r <- o_rots o]) /\
  (~~ nilp (copied (c_ws C)) || ~~ nilp (c_lookups C) -> xi != 0).
End Provable.
