(** Further specifications: columns named by labels, compressed lookups. Like Spec.v this file
    refers only to the data types users see and to mathcomp's algebra. *)
From mathcomp Require Import all_ssreflect all_algebra.
From Verif Require Import Base ModelPoly ModelVO ModelOracle Spec.

Set Implicit Arguments.
Unset Strict Implicit.
Unset Printing Implicit Defensive.

Import GRing.Theory.
Local Open Scope ring_scope.

Section Named.
Variable F : fieldType.
(** The oracle with label [l] (labels are assumed distinct where this is used). *)
Definition named {P : Type} (os : seq (oracle P)) (l : label) : option (oracle P) :=
  ohead [seq o <- os | o_label o == l].
(** Column and polynomial of the oracle with label [l]. *)
Definition column_named (os : seq (poracle F)) (l : label) : seq F := oapp (@po_evals F) [::] (named os l).
Definition poly_named (os : seq (poracle F)) (l : label) : lpoly F := oapp (@po_poly F) [::] (named os l).
(** One of three things, by kind of oracle. *)
Definition by_kind {T : Type} (w i f : T) (t : oracle_type) : T :=
  match t with Witness => w | Instance => i | Fixed => f end.

Variables (ws ins fs : seq (poracle F)).
Definition oracles_of (q : oquery) : seq (poracle F) := by_kind ws ins fs (oq_type q).
(** What a query denotes on row [i] of a table with [n] rows. *)
Definition row_value (n i : nat) (q : oquery) : F :=
  (column_named (oracles_of q) (oq_label q))`_(rot_row n (oq_rot q) i).
(** What a query denotes at the point [x], when [w] generates the domain. *)
Definition point_value (w x : F) (q : oquery) : F :=
  peval (poly_named (oracles_of q) (oq_label q)) (rot_point w (oq_rot q) x).
(** What a query denotes as a polynomial. *)
Definition query_poly (w : F) (q : oquery) : {poly F} :=
  Poly (poly_named (oracles_of q) (oq_label q)) \Po (rot_point w (oq_rot q) 1 *: 'X).
(** The polynomial of an expression. *)
Definition expr_poly (w : F) (e : expr F oquery) : {poly F} :=
  evaluate e (fun c => c%:P) (query_poly w) (fun p => - p) (fun p q => p + q) (fun p q => p * q)
    (fun p c => c *: p).
End Named.

(** A tuple compressed with powers of [theta]: v_0 + theta v_1 + theta^2 v_2 + ... *)
Definition compressed {R : comRingType} (theta : R) (vs : seq R) : R :=
  \sum_(j < size vs) theta ^+ j * vs`_j.

(** Prover oracles as the crate uses them: distinct labels, polynomials that interpolate the
    columns over [d], extended evaluations over [ext]. *)
Definition well_formed {F : fieldType} (env : fenv F) (d ext : domain F) (os : seq (poracle F)) : Prop :=
  uniq (map (@o_label _) os) /\
  forall o, occurs o os -> interpolates d o /\ compute_extended_evals env ext o = o.

(** A query names an oracle of its kind and rotates by fewer than [n] rows. *)
Definition query_ok {PW PI PF : Type} (ws : seq (oracle PW)) (ins : seq (oracle PI))
    (fs : seq (oracle PF)) (n : nat) (q : oquery) : bool :=
  query_resolves ws ins fs q && ((oq_rot q).1 < n)%N.
Definition exprs_ok {F : fieldType} {PW PI PF : Type} (ws : seq (oracle PW)) (ins : seq (oracle PI))
    (fs : seq (oracle PF)) (n : nat) (es : seq (expr F oquery)) : Prop :=
  forall e q, occurs e es -> occurs q (leaves e) -> query_ok ws ins fs n q.
(** A resolved table query: a fixed query naming a table column. *)
Definition table_queries_ok {P : Type} (ts : seq (oracle P)) (tqs : seq oquery) : Prop :=
  forall q, occurs q tqs -> oq_type q = Fixed /\ oq_label q \in map (@o_label P) ts.

(** The compressed expressions of a lookup on row [i], and the compressed table on row [i]. *)
Definition lookup_row {F : fieldType} (ws ins fs : seq (poracle F)) (n : nat)
    (es : seq (expr F oquery)) (theta : F) (i : nat) : F :=
  compressed theta [seq meaning (row_value ws ins fs n i) e | e <- es].
Definition table_row {F : fieldType} (ts : seq (poracle F)) (tqs : seq oquery) (theta : F) (i : nat) : F :=
  compressed theta [seq (column_named ts (oq_label q))`_i | q <- tqs].
(** The compressed expressions as a polynomial. *)
Definition lookup_poly {F : fieldType} (ws ins fs : seq (poracle F)) (w : F)
    (es : seq (expr F oquery)) (theta : F) : {poly F} :=
  compressed theta%:P [seq expr_poly ws ins fs w e | e <- es].

(** ** The two arguments as polynomial identities, over a domain generated by [w]. *)
Section Identities.
Variable F : fieldType.
(** [p] rotated: the polynomial p(c X). *)
Definition scaled_arg (c : F) (p : {poly F}) : {poly F} := p \Po (c *: 'X).
(** Permutation argument: [m] columns per chunk, [u] usable rows; [wp], [sp] are the witness and
    sigma polynomials, [zp] one grand product per chunk. *)
Definition perm_identity (w : F) (u m : nat) (deltas : seq F) (l0 ql qb : {poly F}) (beta gamma : F)
    (wp sp zp : seq {poly F}) (alphas : seq F) : {poly F} :=
  combination (map polyC alphas)
    (perm_constraints l0 ql qb beta%:P gamma%:P
      (perm_chunks m [seq (t.1.1, t.1.2, t.2 *: 'X) | t <- zip (zip wp sp) deltas]
                     [seq (z, scaled_arg w z, scaled_arg (w ^+ u) z) | z <- zp])).
(** Lookup argument, for the polynomials a, s, a', s' and z. *)
Definition lookup_identity (w : F) (l0 ql qb : {poly F}) (beta gamma : F) (a s a' s' z : {poly F})
    (alphas : seq F) : {poly F} :=
  combination (map polyC alphas)
    (lookup_constraints l0 ql qb beta%:P gamma%:P a s a' s' (scaled_arg w^-1 a') z (scaled_arg w z)).
(** The verifier's oracle [v] answers with the value of the prover's polynomial at [x]. *)
Definition answers {C : Type} (x : F) (v : voracle F C) (p : poracle F) : Prop :=
  vo_query v x = Ok (peval (po_poly p) x).
Definition all_answer {C : Type} (x : F) (vs : seq (voracle F C)) (ps : seq (poracle F)) : Prop :=
  size vs = size ps /\ forall j v p, idx vs j = Ok v -> idx ps j = Ok p -> answers x v p.
End Identities.

(** Row-wise lookup constraints when the "last row" selector is 1 at row [ul] and the blinding
    selector at the rows after [u]; [lookup_rows_hold n u] is the case [ul = u]. *)
Definition lookup_rows_with {F : fieldType} (n ul u : nat) (beta gamma : F) (a s a' s' z : nat -> F) : Prop :=
  forall i, (i < n)%N ->
  forall c, c \in lookup_constraints (i == 0%N)%:R (i == ul)%:R (u < i)%N%:R beta gamma
                    (a i) (s i) (a' i) (s' i) (a' (rot_row n prev i)) (z i) (z (rot_row n next i)) -> c = 0.

(** ** The verifier's oracles next to the prover's. *)
Section Mirror.
Variables (F : fieldType) (C : Type).
(** Same labels and declared rotations, in the same order. *)
Definition mirrors {P P' : Type} (vs : seq (oracle P)) (ps : seq (oracle P')) : Prop :=
  [seq (o_label o, o_rots o) | o <- vs] = [seq (o_label o, o_rots o) | o <- ps].
(** ... and every declared evaluation at [x] is registered with its true value. *)
Definition truthful (w x : F) (vs : seq (voracle F C)) (ps : seq (poracle F)) : Prop :=
  mirrors vs ps /\ forall j v p r, idx vs j = Ok v -> idx ps j = Ok p -> r \in o_rots p ->
    answers (rot_point w r x) v p.
(** Instance oracles hold the same polynomials. *)
Definition same_instances (vins : seq (ioracle F)) (ins : seq (poracle F)) : Prop :=
  [seq (o_label o, o_data o) | o <- vins] = [seq (o_label o, po_poly o) | o <- ins].
(** The oracle a query names has declared the rotation of the query. *)
Definition declares {P : Type} (os : seq (oracle P)) (q : oquery) : bool :=
  oapp (fun o => oq_rot q \in o_rots o) false (named os (oq_label q)).
(** ... where evaluations are claimed by the prover: witness and fixed oracles. *)
Definition declared {PW PF : Type} (ws : seq (oracle PW)) (fs : seq (oracle PF)) (q : oquery) : bool :=
  by_kind (declares ws q) true (declares fs q) (oq_type q).
(** Every leaf of every expression is declared. *)
Definition exprs_declared {PW PF : Type} (ws : seq (oracle PW)) (fs : seq (oracle PF)) (es : seq (expr F oquery)) : Prop :=
  forall e q, occurs e es -> occurs q (leaves e) -> declared ws fs q.
(** Every table column a lookup names is opened at the unrotated point. *)
Definition tables_declared {P : Type} (ts : seq (oracle P)) (tqs : seq oquery) : Prop :=
  forall q, occurs q tqs -> declares ts (OQuery (oq_label q) curr Fixed).
End Mirror.
(** The query with its rotation dropped unless it is a witness query. *)
Definition unrotated (q : oquery) : oquery :=
  OQuery (oq_label q) (by_kind (oq_rot q) curr curr (oq_type q)) (oq_type q).
(** The compressed table as a value at [x]. *)
Definition table_point {F : fieldType} (ts : seq (poracle F)) (tqs : seq oquery) (theta x : F) : F :=
  compressed theta [seq peval (poly_named ts (oq_label q)) x | q <- tqs].
