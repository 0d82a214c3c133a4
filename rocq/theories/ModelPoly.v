(** Model of the arkworks objects the crate computes with:
    [DensePolynomial] (a trimmed little-endian coefficient vector) and
    [GeneralEvaluationDomain] (radix-2).  Definitions only, all computable. *)
From mathcomp Require Import all_ssreflect all_algebra.
From Verif Require Import Base.

Set Implicit Arguments.
Unset Strict Implicit.
Unset Printing Implicit Defensive.

Import GRing.Theory.
Local Open Scope ring_scope.

Section Poly.
Variable F : fieldType.

(** [DensePolynomial<F>] (arkworks; src/oracles/witness.rs:23): coefficients, constant term first. All operations
    below return a list without trailing zeros, as arkworks' do. *)
Definition lpoly := seq F.

(** [from_coefficients_slice]: drop trailing zeros; src/piop/prover.rs:417. *)
Fixpoint ptrim (p : lpoly) : lpoly :=
  match p with
  | [::] => [::]
  | c :: p' => match ptrim p' with
               | [::] => if c == 0 then [::] else [:: c]
               | p'' => c :: p''
               end
  end.

(** [Polynomial::evaluate] (Horner); src/oracles/witness.rs:60-62. *)
Fixpoint peval (p : lpoly) (x : F) : F :=
  match p with [::] => 0 | c :: p' => peval p' x * x + c end.

(** Sum, negation, scaling, difference of [DensePolynomial]s; src/multiproof/piop/prover.rs:85-165. *)
Fixpoint padd_raw (p q : lpoly) : lpoly :=
  match p, q with
  | [::], _ => q
  | _, [::] => p
  | a :: p', b :: q' => (a + b) :: padd_raw p' q'
  end.
(** [&p + &q], src/multiproof/piop/prover.rs:85-165. *)
Definition padd (p q : lpoly) : lpoly := ptrim (padd_raw p q).
(** [-p], src/multiproof/piop/prover.rs:145-165. *)
Definition pneg (p : lpoly) : lpoly := ptrim [seq - c | c <- p].
(** [&p * a], src/multiproof/piop/prover.rs:85-165. *)
Definition pscale (a : F) (p : lpoly) : lpoly := ptrim [seq c * a | c <- p].
(** [&p - &q], src/multiproof/piop/prover.rs:145-165. *)
Definition psub (p q : lpoly) : lpoly := padd p (pneg q).

(** Polynomial product, src/multiproof/poly.rs:19 (arkworks multiplies through an FFT over a large enough domain;
    the schoolbook product is the same polynomial). *)
Fixpoint pmul_raw (p q : lpoly) : lpoly :=
  match p with
  | [::] => [::]
  | a :: p' => padd_raw [seq a * c | c <- q] (0 :: pmul_raw p' q)
  end.
(** [&p * &q], src/multiproof/poly.rs:19. *)
Definition pmul (p q : lpoly) : lpoly := ptrim (pmul_raw p q).

(** [Polynomial::degree]: 0 for the zero polynomial; src/indexer.rs:98-131. *)
Definition pdeg (p : lpoly) : nat := (size (ptrim p)).-1.

(** Quotient and remainder of Euclidean division by [b] of degree [db] with leading
    coefficient [lc] (arkworks' [divide_with_q_and_r]); src/multiproof/piop/prover.rs:145-165. *)
Fixpoint pdivmod_rec (b : lpoly) (db : nat) (lc : F) (a : lpoly) : lpoly * lpoly :=
  match a with
  | [::] => ([::], [::])
  | a0 :: a' =>
      let: (q, r) := pdivmod_rec b db lc a' in
      let t := a0 :: r in
      let c := nth 0 t db / lc in
      (c :: q, psub t (pscale c b))
  end.
(** [&a / &b]; panics on a zero divisor; src/multiproof/piop/prover.rs:145-165. *)
Definition pdiv (a b : lpoly) : res lpoly :=
  let b := ptrim b in
  if b is [::] then Panic PExplicit
  else Ok (ptrim (pdivmod_rec b (size b).-1 (last 0 b) a).1).

(** Equality of [DensePolynomial]s (derived [PartialEq] on trimmed vectors); src/indexer.rs:98-131. *)
Definition peq (p q : lpoly) : bool := ptrim p == ptrim q.

(** Constants of the prime field the domain code uses:
    [F::TWO_ADICITY], [F::two_adic_root_of_unity()], [F::multiplicative_generator()] (src/util.rs:25),
    and the total order [Ord for F] (used by src/lookup/permute.rs:5-43). *)
Record fenv := FEnv {
  two_adicity : nat;
  two_adic_root : F;
  mult_gen : F;
  fle : rel F }.

(** [GeneralEvaluationDomain]: size and group generator; src/turbo_plonk.rs:411. *)
Record domain := Domain { dsize : nat; dgen : F }.

Variable env : fenv.

(** [GeneralEvaluationDomain::new(k)] (src/turbo_plonk.rs:411, src/indexer.rs:179): the smallest power of two at
    least [k], [None] above the field's two-adicity.
    Simplification: the mixed-radix fallback is not modelled. *)
Definition domain_new (k : nat) : option domain :=
  let l := up_log 2 k in
  if (l <= two_adicity env)%N
  then Some (Domain (2 ^ l) (two_adic_root env ^+ (2 ^ (two_adicity env - l))))
  else None.

(** [domain.element(i)], [domain.elements()]; src/turbo_plonk.rs:412, 454. *)
Definition element (d : domain) (i : nat) : F := dgen d ^+ i.
(** [domain.elements()], src/turbo_plonk.rs:412. *)
Definition elements (d : domain) : seq F := [seq element d i | i <- iota 0 (dsize d)].

(** FFTs, modelled by the sums they compute; src/piop/prover.rs:306-315, src/oracles/fixed.rs:47-64.
    Inputs are resized to the domain size. *)
Definition fft (d : domain) (c : lpoly) : seq F :=
  [seq peval (take (dsize d) c) x | x <- elements d].
(** [domain.ifft], src/piop/prover.rs:306. *)
Definition ifft (d : domain) (e : seq F) : seq F :=
  let e' := take (dsize d) e in
  [seq (dsize d)%:R^-1 * peval e' (x^-1) | x <- elements d].

(** [distribute_powers]: coefficient i is multiplied by g^i (inside the coset FFTs of src/piop/prover.rs:308, 420). *)
Fixpoint distr_from (b g : F) (c : seq F) : seq F :=
  match c with [::] => [::] | a :: c' => (a * b) :: distr_from (b * g) g c' end.
(** [distribute_powers], src/piop/prover.rs:308, 420. *)
Definition distribute_powers (g : F) (c : seq F) : seq F := distr_from 1 g c.

(** [coset_fft], [coset_ifft]; src/piop/prover.rs:308, 420. *)
Definition coset_fft (d : domain) (c : lpoly) : seq F :=
  fft d (distribute_powers (mult_gen env) c).
(** [coset_ifft], src/piop/prover.rs:420. *)
Definition coset_ifft (d : domain) (e : seq F) : seq F :=
  distribute_powers (mult_gen env)^-1 (ifft d e).

(** [domain.vanishing_polynomial().into()]: X^n - 1; src/indexer.rs:98-131. *)
Definition vanishing_dense (d : domain) : lpoly :=
  ptrim (- 1 :: nseq (dsize d).-1 0 ++ [:: 1]).
(** [domain.evaluate_vanishing_polynomial(x)]: x^n - 1; src/util.rs:10-33. *)
Definition eval_vanishing (d : domain) (x : F) : F := x ^+ dsize d - 1.

(** [x.inverse().unwrap()], src/turbo_plonk.rs:455. *)
Definition finv (x : F) : res F := if x == 0 then Panic PUnwrap else Ok x^-1.
(** [ark_ff::batch_inversion]: zeros are left unchanged (mathcomp's [0^-1] is [0]); src/indexer.rs:98-131. *)
Definition batch_inversion (s : seq F) : seq F := [seq x^-1 | x <- s].

End Poly.
