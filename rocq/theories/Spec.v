(** Independent specifications used in the statements of the property theorems.
    Nothing here refers to the internals of the model: only to the data types users see
    (expressions, queries, rotations) and to mathcomp's algebra. *)
From mathcomp Require Import all_ssreflect all_algebra.
From Verif Require Import Base ModelPoly ModelVO ModelOracle.

Set Implicit Arguments.
Unset Strict Implicit.
Unset Printing Implicit Defensive.

Import GRing.Theory.
Local Open Scope ring_scope.

(** The leaves of an expression, from left to right. *)
Fixpoint leaves {F Q : Type} (e : expr F Q) : seq Q :=
  match e with
  | Const _ => [::]
  | Orc q => [:: q]
  | Neg a => leaves a
  | Sum a b => leaves a ++ leaves b
  | Prod a b => leaves a ++ leaves b
  | Scaled a _ => leaves a
  end.

(** [x] occurs in [s] (for types without decidable equality). *)
Fixpoint occurs {A : Type} (x : A) (s : seq A) : Prop :=
  match s with [::] => False | y :: s' => x = y \/ occurs x s' end.

(** The meaning of an expression as a polynomial function of its leaves. *)
Fixpoint meaning {F : fieldType} {Q : Type} (leaf : Q -> F) (e : expr F Q) : F :=
  match e with
  | Const c => c
  | Orc q => leaf q
  | Neg a => - meaning leaf a
  | Sum a b => meaning leaf a + meaning leaf b
  | Prod a b => meaning leaf a * meaning leaf b
  | Scaled a c => c * meaning leaf a
  end.

(** A row of values: one value per (kind of column, column number, rotation). *)
Definition row_values (F : Type) := oracle_type -> nat -> rotation -> F.
(** The value of a virtual expression on a row. *)
Definition vmeaning {F : fieldType} (v : row_values F) (e : expr F vquery) : F :=
  meaning (fun q => v (vq_type q) (vq_index q) (vq_rot q)) e.

(** "At most [K] values satisfy [P]". *)
Definition at_most {A : eqType} (K : nat) (P : A -> Prop) : Prop :=
  forall s : seq A, uniq s -> (forall x, x \in s -> P x) -> (size s <= K)%N.

(** The point a rotation denotes: [d] steps of [w] forwards ([Plus]) or backwards. *)
Definition rot_point {F : fieldType} (w : F) (r : rotation) (x : F) : F :=
  if r.2 then x * w ^- r.1 else x * w ^+ r.1.

(** The row a rotation denotes, cyclically in a table of [n] rows. *)
Definition rot_row (n : nat) (r : rotation) (i : nat) : nat :=
  if r.2 then ((i + (n - r.1 %% n)) %% n)%N else ((i + r.1) %% n)%N.

(** Columns of a table with [n] rows, by kind, column number and row; the values a row sees. *)
Definition columns (F : Type) := oracle_type -> nat -> nat -> F.
Definition at_row {F : Type} (n : nat) (cols : columns F) (i : nat) : row_values F :=
  fun t j r => cols t j (rot_row n r i).

(** The value of an [Ok] result. *)
Definition ok_or (A : Type) (d : A) (r : res A) : A := if r is Ok a then a else d.
(** Two computations fail in the same way. *)
Definition same_failure {A B : Type} (x : res A) (y : res B) : Prop :=
  (exists err, x = Err err /\ y = Err err) \/ (exists p, x = Panic p /\ y = Panic p).

(** Virtual queries and lists of oracles. *)
Section Queries.
Variables (F : fieldType) (PW PI PF PT : Type).
Variables (w : seq (oracle PW)) (i : seq (oracle PI)) (f : seq (oracle PF)) (t : seq (oracle PT)).

(** The index of a virtual query names an existing oracle of its kind. *)
Definition in_range (q : vquery) : bool :=
  match vq_type q with
  | Witness => vq_index q < size w
  | Instance => vq_index q < size i
  | Fixed => vq_index q < size f
  end%N.
(** All indices used by a virtual oracle exist. *)
Definition all_in_range (vo : generic_vo F) : Prop :=
  forall q, occurs q (gv_virtual_queries vo) \/ occurs q (leaves (gv_virtual_exp vo)) -> in_range q.
Definition lookup_in_range (vo : generic_lookup_vo F) : Prop :=
  (forall q, occurs q (gl_virtual_queries vo) -> in_range q) /\
  (forall e q, occurs e (gl_virtual_expressions vo) -> occurs q (leaves e) -> in_range q).
(** A table query is acceptable: it is a fixed-column query that names an existing table column. *)
Definition table_ok (q : vquery) : Prop := vq_type q = Fixed /\ (vq_index q < size t)%N.

(** Leaves looked up by index in the lists of oracles. *)
Definition index_leaf {A} (qw : oracle PW -> rotation -> res A)
    (qi : oracle PI -> rotation -> res A) (qf : oracle PF -> rotation -> res A) (q : vquery) : res A :=
  match vq_type q with
  | Witness => rbind (idx w (vq_index q)) (fun o => qw o (vq_rot q))
  | Instance => rbind (idx i (vq_index q)) (fun o => qi o (vq_rot q))
  | Fixed => rbind (idx f (vq_index q)) (fun o => qf o (vq_rot q))
  end.
End Queries.

(** [os'] is [os] with, for every oracle, exactly the rotations declared for it by [qs]
    added (kind [t]); labels, data and the number of oracles are unchanged. *)
Definition rotations_added {P : Type} (t : oracle_type) (qs : seq vquery) (os os' : seq (oracle P)) : Prop :=
  size os' = size os /\
  forall j o, idx os j = Ok o ->
    exists o', [/\ idx os' j = Ok o', o_label o' = o_label o, o_data o' = o_data o
      & forall r, r \in o_rots o' <-> r \in o_rots o \/ occurs (VQuery j r t) qs].

(** What the crate assumes of its prime field: [two_adic_root] is a primitive
    2^two_adicity-th root of unity, the multiplicative generator is outside the subgroup of
    2-power order, and the order on field elements is total. *)
Record fenv_ok (F : fieldType) (env : fenv F) : Prop := FenvOk {
  fe_root : (2 ^ two_adicity env)%N.-primitive_root (two_adic_root env);
  fe_gen : mult_gen env ^+ (2 ^ two_adicity env) != 1;
  fe_gen0 : mult_gen env != 0;
  fe_total : total (fle env);
  fe_trans : transitive (fle env);
  fe_anti : antisymmetric (fle env) }.

(** A domain is a cyclic group with its generator. *)
Definition domain_ok (F : fieldType) (d : domain F) : bool := (dsize d).-primitive_root (dgen d).
(** The domain [GeneralEvaluationDomain::new] returns for its own size. *)
Definition std_domain (F : fieldType) (env : fenv F) (d : domain F) : Prop :=
  domain_new env (dsize d) = Some d.

(** A prover oracle whose polynomial interpolates its column over [d]. *)
Definition interpolates {F : fieldType} (d : domain F) (p : poracle F) : Prop :=
  size (po_evals p) = dsize d /\ po_poly p = ptrim (ifft d (po_evals p)).

(** Two verifier oracles are the same except for the registered evaluations. *)
Definition same_but_evals {F : fieldType} {C : Type} (o o' : voracle F C) : Prop :=
  [/\ o_label o' = o_label o, o_rots o' = o_rots o, vd_kind (o_data o') = vd_kind (o_data o),
      vd_com (o_data o') = vd_com (o_data o) & vd_permute (o_data o') = vd_permute (o_data o)].

(** All rotations of all oracles are by fewer than [n] steps. *)
Definition rots_below P (os : seq (oracle P)) (n : nat) : Prop :=
  forall j o, idx os j = Ok o -> forall r, r \in o_rots o -> (r.1 < n)%N.

(** The degree of an expression when every leaf has degree [k]. *)
Fixpoint expr_degree {F Q : Type} (k : nat) (e : expr F Q) : nat :=
  match e with
  | Const _ => 0
  | Orc _ => k
  | Neg a => expr_degree k a
  | Sum a b => maxn (expr_degree k a) (expr_degree k b)
  | Prod a b => (expr_degree k a + expr_degree k b)%N
  | Scaled a _ => expr_degree k a
  end.
(** The largest degree among some expressions. *)
Definition max_degree {F Q : Type} (k : nat) (es : seq (expr F Q)) : nat :=
  \max_(e <- es) expr_degree k e.
(** The label of a query names an oracle of its kind. *)
Definition query_resolves {PW PI PF : Type} (ws : seq (oracle PW)) (ins : seq (oracle PI))
    (fs : seq (oracle PF)) (q : oquery) : bool :=
  match oq_type q with
  | Witness => oq_label q \in map (@o_label PW) ws
  | Instance => oq_label q \in map (@o_label PI) ins
  | Fixed => oq_label q \in map (@o_label PF) fs
  end.
(** The virtual oracles [vos] are configured, with expressions [es] over the given oracles. *)
Definition configured {F : fieldType} {PW PI PF : Type} (ws : seq (oracle PW)) (ins : seq (oracle PI))
    (fs : seq (oracle PF)) (vos : seq (generic_vo F)) (es : seq (expr F oquery)) : Prop :=
  map (@gv_get_expression F) vos = map Ok es /\
  forall e q, occurs e es -> occurs q (leaves e) -> query_resolves ws ins fs q.

(** The polynomial an expression denotes when its leaves are polynomials. *)
Definition poly_of {F : fieldType} {Q : Type} (leaf : Q -> lpoly F) (e : expr F Q) : {poly F} :=
  evaluate e (fun c => c%:P) (fun q => Poly (leaf q)) (fun p => - p) (fun p q => p + q) (fun p q => p * q)
    (fun p c => c *: p).

(** The constraints of the permutation argument, over any commutative ring: field values at a
    row or at a point, or polynomials. A column of a chunk is (witness, sigma, identity); a
    chunk has the values of its grand product at the point, at the next row and [u] rows on. *)
Section PermutationSpec.
Variable R : comRingType.
Record pchunk := PChunk { ch_cols : seq (R * R * R); ch_z : R; ch_zn : R; ch_zu : R }.
Definition ch_num (beta gamma : R) (c : pchunk) : R :=
  \prod_(t <- ch_cols c) (t.1.1 + beta * t.2 + gamma).
Definition ch_den (beta gamma : R) (c : pchunk) : R :=
  \prod_(t <- ch_cols c) (t.1.1 + beta * t.1.2 + gamma).
(** Grand products are chained: each starts where the previous one ends. *)
Fixpoint chain_constraints (l0 : R) (c : pchunk) (cs : seq pchunk) : seq R :=
  if cs is c' :: cs' then l0 * (ch_z c' - ch_zu c) :: chain_constraints l0 c' cs' else [::].
Definition perm_constraints (l0 ql qb beta gamma : R) (cs : seq pchunk) : seq R :=
  if cs is c :: cs' then
    l0 * (1 - ch_z c)
    :: [seq (1 - (ql + qb)) * (ch_zn k * ch_den beta gamma k - ch_z k * ch_num beta gamma k) | k <- cs]
    ++ chain_constraints l0 c cs'
    ++ [:: ql * (ch_z (last c cs') * ch_z (last c cs') - ch_z (last c cs'))]
  else [::].
(** The columns cut into chunks of [m], with the values of one grand product per chunk. *)
Definition perm_chunks (m : nat) (cols zs : seq (R * R * R)) : seq pchunk :=
  [seq PChunk t.1 t.2.1.1 t.2.1.2 t.2.2 | t <- zip (chunks m cols) zs].
End PermutationSpec.

(** The constraints of the lookup argument: [a], [s] are the compressed expression and table,
    [a'], [s'] their permuted versions, [ap] is [a'] at the previous row, [zn] is [z] at the next. *)
Definition lookup_constraints (R : comRingType) (l0 ql qb beta gamma a s a' s' ap z zn : R) : seq R :=
  [:: l0 * (1 - z);
      (1 - (ql + qb)) * (zn * (a' + beta) * (s' + gamma) - z * (a + beta) * (s + gamma));
      ql * (z * z - z);
      l0 * (a' - s');
      (1 - (ql + qb)) * (a' - s') * (a' - ap)].

(** A linear combination. *)
Definition combination (R : comRingType) (alphas cs : seq R) : R :=
  \sum_(j < size alphas) alphas`_j * cs`_j.

(** ** Row-wise reading of the two arguments on a table of [n] rows of which the first [u] are
    usable; the selectors are 1 at row 0, at row [u] and at the rows after [u]. *)
Definition lookup_rows_hold {F : fieldType} (n u : nat) (beta gamma : F) (a s a' s' z : nat -> F) : Prop :=
  forall i, (i < n)%N ->
  forall c, c \in lookup_constraints (i == 0%N)%:R (i == u)%:R (u < i)%N%:R beta gamma
                    (a i) (s i) (a' i) (s' i) (a' (rot_row n prev i)) (z i) (z (rot_row n next i)) -> c = 0.
(** [w], [sg], [id] are indexed by column and row, [z] by chunk and row; [k] columns in chunks
    of [m]. *)
Definition perm_rows_hold {F : fieldType} (n u m k : nat) (beta gamma : F) (w sg id z : nat -> nat -> F) : Prop :=
  forall i, (i < n)%N ->
  forall c, c \in perm_constraints (i == 0%N)%:R (i == u)%:R (u < i)%N%:R beta gamma
     (perm_chunks m [seq (w j i, sg j i, id j i) | j <- iota 0 k]
        [seq (z j i, z j (rot_row n next i), z j (rot_row n (u, Plus) i))
          | j <- iota 0 (size (chunks m (iota 0 k)))]) -> c = 0.
(** The value in column [j], row [i] of a list of columns. *)
Definition cell_value {F : fieldType} (os : seq (poracle F)) (j i : nat) : F :=
  if idx os j is Ok o then (po_evals o)`_i else 0.
(** The cells that take part in a copy constraint: columns below [k], rows below [u]. *)
Definition is_cell (k u : nat) (c : nat * nat) : bool := (c.1 < k)%N && (c.2 < u)%N.
