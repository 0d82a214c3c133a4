(** Outcome type, indexing and small computable list helpers shared by the model.
    No property of the code is stated here. *)
From mathcomp Require Import all_ssreflect all_algebra.
From Coq Require Import String Ascii DecimalString.

Set Implicit Arguments.
Unset Strict Implicit.
Unset Printing Implicit Defensive.

Import GRing.Theory.

(** Labels of oracles are Rust [String]s: src/oracles/witness.rs:22, src/oracles/traits.rs:15. *)
Definition label := string.
(** String equality, as used for map keys, e.g. src/piop/prover.rs:101-122. *)
Definition string_eqP : Equality.axiom String.eqb := String.eqb_spec.
Canonical string_eqMixin := EqMixin string_eqP.
Canonical string_eqType := Eval hnf in EqType string string_eqMixin.

(** [format!("{}", n)] for a [usize], in labels: src/piop/prover.rs:433-436, src/oracles/rotation.rs:61-92. *)
Definition show_nat (n : nat) : string := NilZero.string_of_uint (Nat.to_uint n).

(** All error values of the crate.
    Models: src/vo/error.rs:4-10, src/piop/error.rs:5-47, src/error.rs:7-23,
    src/multiproof/error.rs:3-11.
    Simplification: the four nested Rust enums are flattened into one; the wrapping
    constructors (IOPError, VOError, MultiproofError) carry no extra information.
    Constructors that the crate never builds are omitted. *)
Inductive error : Type :=
| UninitializedExpr
| UninitializedLookupExpr
| UninitializedLookupTableQuery
| MissingWitnessCommitment of label
| MissingFixedCommitment of label
| MissingConcreteEval of label
| MissingCosetWitnessEval of label
| MissingCosetFixedEval of label
| MissingCosetInstanceEval of label
| MissingWitnessOracle of label
| MissingFixedOracle of label
| MissingInstanceOracle of label
| MissingPermutationOracle of label
| MissingLookupTableOracle of label
| WitnessTableNotAllowed of label
| InstanceTableNotAllowed of label
| RepeatedRotation of nat & bool
| QuotientTooSmall
| QuotientNotZero
| OpeningCheckFailed
| PolynomialCommitmentError.

(** Reasons for a Rust panic: indexing, [unwrap], assertions, arithmetic, and the explicit ones of
    src/lookup/permute.rs:24-28, src/util.rs:44-50, src/mock_prover.rs:160-206. *)
Inductive panic : Type :=
| PIndex            (* slice index out of bounds *)
| PUnwrap           (* unwrap on None *)
| PAssert           (* assert!/assert_eq! *)
| PUnderflow        (* usize subtraction below zero *)
| PDivZero          (* division by zero, zero chunk size *)
| PExplicit         (* panic!(..) *)
| PMock of nat & nat (* MockProver: VO number, row *).

(** Outcome of a Rust function returning [Result<A, _>] that may also panic: every function of src/ that
    returns a [Result], e.g. src/turbo_plonk.rs:203-214. *)
Inductive res (A : Type) : Type :=
| Ok of A
| Err of error
| Panic of panic.
Arguments Ok {A}. Arguments Err {A}. Arguments Panic {A}.

(** The [?] operator, e.g. src/turbo_plonk.rs:237-242. *)
Definition rbind {A B} (x : res A) (f : A -> res B) : res B :=
  match x with Ok a => f a | Err e => Err e | Panic p => Panic p end.
(** [Result::map], e.g. src/turbo_plonk.rs:1181-1182. *)
Definition rmap {A B} (f : A -> B) (x : res A) : res B :=
  match x with Ok a => Ok (f a) | Err e => Err e | Panic p => Panic p end.

Declare Scope res_scope.
Delimit Scope res_scope with res.
Notation "x <- a ;; b" := (rbind a (fun x => b))
  (at level 100, a at next level, right associativity) : res_scope.
Notation "' p <- a ;; b" := (rbind a (fun x => let p := x in b))
  (at level 100, p pattern, a at next level, right associativity) : res_scope.
Open Scope res_scope.

(** Two arguments are both evaluated before they are combined, so a panic in either
    one wins over an error; otherwise the left error is reported.
    Models closures of the shape [x.and_then(|x| y.map(|y| ..))] applied to eagerly
    evaluated operands (e.g. src/turbo_plonk.rs:1181-1182, src/vo/expression.rs:63-99). *)
Definition rlift2 {A B C} (f : A -> B -> C) (x : res A) (y : res B) : res C :=
  match x, y with
  | Ok a, Ok b => Ok (f a b)
  | Panic p, _ => Panic p
  | _, Panic p => Panic p
  | Err e, _ => Err e
  | Ok _, Err e => Err e
  end.

(** [Option::unwrap], e.g. src/turbo_plonk.rs:411. *)
Definition opt_unwrap {A} (o : option A) : res A :=
  match o with Some a => Ok a | None => Panic PUnwrap end.
(** [match o { Some(a) => Ok(a), None => Err(e) }], e.g. src/vo/generic_vo.rs:80-85. *)
Definition opt_or {A} (o : option A) (e : error) : res A :=
  match o with Some a => Ok a | None => Err e end.
(** [assert!] / [assert_eq!], e.g. src/permutation/mod.rs:141, src/util.rs:18-23. *)
Definition rassert (b : bool) : res unit := if b then Ok tt else Panic PAssert.

(** Slice indexing [s[i]]: out of bounds panics; e.g. src/oracles/traits.rs:46-106. *)
Fixpoint idx {A} (s : seq A) (i : nat) : res A :=
  match s, i with
  | [::], _ => Panic PIndex
  | a :: _, 0 => Ok a
  | _ :: s', i'.+1 => idx s' i'
  end.

(** usize subtraction: underflow panics (debug build); e.g. src/indexer.rs:47-96. *)
Definition usub (a b : nat) : res nat := if b <= a then Ok (a - b) else Panic PUnderflow.

(** Sequential traversal that stops at the first error or panic:
    [for x in xs { .. ? .. }] and [.collect::<Result<Vec<_>, _>>()?]; e.g. src/util.rs:43-52. *)
Fixpoint rmapM {A B} (f : A -> res B) (s : seq A) : res (seq B) :=
  match s with
  | [::] => Ok [::]
  | a :: s' => b <- f a ;; bs <- rmapM f s' ;; Ok (b :: bs)
  end.
(** The same with an accumulator, e.g. src/vo/generic_vo.rs:36-68. *)
Fixpoint rfoldM {A S} (f : S -> A -> res S) (st : S) (s : seq A) : res S :=
  match s with
  | [::] => Ok st
  | a :: s' => st' <- f st a ;; rfoldM f st' s'
  end.

(** Observers of the outcome (no code). *)
Definition is_ok {A} (r : res A) : bool := if r is Ok _ then true else false.
(** Observer of the outcome (no code). *)
Definition is_panic {A} (r : res A) : bool := if r is Panic _ then true else false.
(** Observer of the outcome (no code). *)
Definition is_err {A} (r : res A) : bool := if r is Err _ then true else false.

(** [Vec::resize]: arkworks FFTs resize their input (src/oracles/witness.rs:74-80 calls one). *)
Definition resize {A} (n : nat) (x : A) (s : seq A) : seq A :=
  take n s ++ nseq (n - size s) x.

(** [slice::chunks(k)] for k > 0 ([chunks(0)] panics; see [chunksR]); e.g. src/permutation/mod.rs:100-102,
    src/piop/prover.rs:431. [f] is fuel; the size of the list is always enough. *)
Fixpoint chunks_fuel {A} (f k : nat) (s : seq A) : seq (seq A) :=
  match f with
  | 0 => [::]
  | f'.+1 => if s is [::] then [::] else take k s :: chunks_fuel f' k (drop k s)
  end.
(** [slice::chunks(k)], src/permutation/mod.rs:100-102. *)
Definition chunks {A} (k : nat) (s : seq A) : seq (seq A) := chunks_fuel (size s) k s.
(** The same with the panic of [chunks(0)], src/permutation/mod.rs:100-102. *)
Definition chunksR {A} (k : nat) (s : seq A) : res (seq (seq A)) :=
  if k == 0 then Panic PDivZero else Ok (chunks k s).

(** Association-list maps. Collecting [(label, index)] pairs into a BTreeMap: a later pair with the same
    key overrides an earlier one (src/piop/prover.rs:101-122, src/util.rs:41). *)
Fixpoint assoc_last {K : eqType} {V} (s : seq (K * V)) (k : K) : option V :=
  match s with
  | [::] => None
  | (k', v) :: s' => match assoc_last s' k with
                     | Some w => Some w
                     | None => if k' == k then Some v else None
                     end
  end.

(** First-match association used for maps kept with unique keys: the evaluations of a verifier oracle,
    src/oracles/witness.rs:165-170. *)
Fixpoint assoc {K : eqType} {V} (s : seq (K * V)) (k : K) : option V :=
  match s with
  | [::] => None
  | (k', v) :: s' => if k' == k then Some v else assoc s' k
  end.
(** BTreeMap::insert on a map observed only through [get]: src/oracles/witness.rs:131-133. *)
Definition ains {K : eqType} {V} (s : seq (K * V)) (k : K) (v : V) : seq (K * V) :=
  (k, v) :: [seq p <- s | p.1 != k].

(** Index of the last element with a given label: the [BTreeMap<String, usize>] built by
    [iter().enumerate().map(|(i, o)| (o.get_label(), i)).collect()], src/piop/prover.rs:101-122. *)
Definition label_index (ls : seq label) (l : label) : option nat :=
  assoc_last (zip ls (iota 0 (size ls))) l.

(** Sorted insertion without duplicates: [BTreeSet::insert] for the order [lt]; src/oracles/witness.rs:56-58,
    src/piop/verifier.rs:111-128. *)
Fixpoint sinsert {A : eqType} (lt : rel A) (x : A) (s : seq A) : seq A :=
  match s with
  | [::] => [:: x]
  | y :: s' => if x == y then s
               else if lt x y then x :: s
               else y :: sinsert lt x s'
  end.

(** Successive powers [b, b*a, b*a^2, ..]: [successors(Some(b), |x| Some( *x * a)).take(n)], e.g.
    src/piop/prover.rs:247-300. *)
Fixpoint powers {R : ringType} (n : nat) (b a : R) : seq R :=
  match n with 0 => [::] | n'.+1 => b :: powers n' (b * a)%R a end.

(** Update of one element through a mutable index: src/vo/generic_vo.rs:36-68. *)
Fixpoint upd {A} (s : seq A) (i : nat) (f : A -> A) : seq A :=
  match s, i with
  | [::], _ => [::]
  | a :: s', 0 => f a :: s'
  | a :: s', i'.+1 => a :: upd s' i' f
  end.

(** [&s[..n]], e.g. src/lookup/mod.rs:356-359. *)
Definition slice_to {A} (s : seq A) (n : nat) : res (seq A) :=
  if n <= size s then Ok (take n s) else Panic PIndex.

(** [n] draws from a generator, e.g. src/permutation/grand_product.rs:74-80. *)
Fixpoint draw_n {A Z} (draw : Z -> A * Z) (n : nat) (z : Z) : seq A * Z :=
  match n with
  | 0 => ([::], z)
  | n'.+1 => let: (x, z1) := draw z in
             let: (xs, z2) := draw_n draw n' z1 in (x :: xs, z2)
  end.

(** [s.last().unwrap()], e.g. src/piop/prover.rs:276. *)
Definition last_unwrap {A} (s : seq A) : res A :=
  match s with [::] => Panic PUnwrap | a :: s' => Ok (last a s') end.

(** Elements with their positions: [iter().enumerate()], e.g. src/lookup/permute.rs:21. *)
Definition enumerate {A} (s : seq A) : seq (nat * A) := zip (iota 0 (size s)) s.
