(** Specification of the combined constraint polynomial and of the verifier's view of the
    prover's polynomials. Uses the data types users see, Spec.v and SpecProtocol.v. *)
From mathcomp Require Import all_ssreflect all_algebra.
From Verif Require Import Base ModelPoly ModelVO ModelOracle ModelPermutation ModelLookup Spec SpecProtocol.

Set Implicit Arguments.
Unset Strict Implicit.
Unset Printing Implicit Defensive.

Import GRing.Theory.
Local Open Scope ring_scope.

(** All constraints combined with powers of [alpha]: the virtual oracles [vs] and then the
    permutation constraints [ps] get alpha^0, alpha^1, ...; the lookup constraints [ls] get
    consecutive powers from alpha^(size vs + 2 nz) on, [nz] the number of grand products. *)
Definition aggregate (R : comRingType) (alpha : R) (nz : nat) (vs ps : seq R) (ls : seq (seq R)) : R :=
  compressed alpha (vs ++ ps) + alpha ^+ (size vs + 2 * nz) * compressed alpha (flatten ls).

Section PIOP.
Variable F : fieldType.

(** The polynomial of a prover oracle. *)
Definition opoly (o : poracle F) : {poly F} := Poly (po_poly o).
(** A prover oracle whose column lists the values of its polynomial, of whatever degree, over [d]. *)
Definition tabulates (d : domain F) (o : poracle F) : Prop :=
  forall i, (i < dsize d)%N -> (opoly o).[dgen d ^+ i] = (po_evals o)`_i.
(** The polynomial of degree below [n] that is 1 at row [k] and 0 at the other rows. *)
Definition row_selector (d : domain F) (k : nat) : {poly F} :=
  \prod_(j <- iota 0 (dsize d) | j != k) ((dgen d ^+ k - dgen d ^+ j)^-1 *: ('X - (dgen d ^+ j)%:P)).

(** Everything the prover commits to (or that is fixed or public), except the quotient. *)
Record assignment := Assignment {
  as_ws : seq (poracle F);
  as_ins : seq (poracle F);
  as_fs : seq (poracle F);
  as_qb : poracle F;
  as_sigmas : seq (poracle F);
  as_zs : seq (poracle F);
  as_los : seq (lookup_oracles (poracle F));
  as_lzs : seq (poracle F) }.
(** The witness columns under copy constraints. *)
Definition copied (ws : seq (poracle F)) : seq (poracle F) := [seq o <- ws | pd_permute (o_data o)].

Section Constraints.
Variables (d : domain F) (pa : permutation_argument F) (es : seq (expr F oquery)) (beta gamma : F)
  (A : assignment).
(** The constraints as polynomials: virtual oracles, permutation argument, lookups. *)
Definition vo_polys : seq {poly F} := [seq expr_poly (as_ws A) (as_ins A) (as_fs A) (dgen d) e | e <- es].
Definition perm_polys : seq {poly F} :=
  let u := pa_usable_rows pa in
  if nilp (copied (as_ws A)) then [::] else
  perm_constraints (row_selector d 0) (row_selector d u) (opoly (as_qb A)) beta%:P gamma%:P
    (perm_chunks (pa_max_cols pa)
      [seq (t.1.1, t.1.2, t.2 *: 'X)
        | t <- zip (zip (map opoly (copied (as_ws A))) (map opoly (as_sigmas A))) (pa_deltas pa)]
      [seq (z, scaled_arg (dgen d) z, scaled_arg (dgen d ^+ u) z) | z <- map opoly (as_zs A)]).
Definition lookup_polys : seq (seq {poly F}) :=
  [seq lookup_constraints (row_selector d 0) (row_selector d (pa_usable_rows pa)) (opoly (as_qb A))
         beta%:P gamma%:P (opoly (lo_a t.1)) (opoly (lo_s t.1)) (opoly (lo_a' t.1)) (opoly (lo_s' t.1))
         (scaled_arg (dgen d)^-1 (opoly (lo_a' t.1))) (opoly t.2) (scaled_arg (dgen d) (opoly t.2))
    | t <- zip (as_los A) (as_lzs A)].
Definition constraint_polys : seq {poly F} := vo_polys ++ perm_polys ++ flatten lookup_polys.
Definition numerator (alpha : F) : {poly F} :=
  aggregate alpha%:P (size (as_zs A)) vo_polys perm_polys lookup_polys.
End Constraints.

(** Chunks t_0 + X^n t_1 + X^2n t_2 + ... *)
Definition recombined (n : nat) (ts : seq {poly F}) : {poly F} := \sum_(k < size ts) 'X^(n * k) * ts`_k.

(** The shape the prover and the verifier check: matching numbers of columns and chunks. *)
Definition shape_ok (d : domain F) (pa : permutation_argument F) (A : assignment) (lookups : nat) : Prop :=
  let K := size (copied (as_ws A)) in
  [/\ (1 < dsize d)%N, (pa_usable_rows pa < dsize d)%N,
      size (as_los A) = lookups, size (as_lzs A) = lookups &
      if K == 0%N then as_zs A = [::]
      else [/\ (0 < pa_max_cols pa)%N, size (as_sigmas A) = K, size (pa_deltas pa) = K &
             size (as_zs A) = size (chunks (pa_max_cols pa) (copied (as_ws A)))]].

(** The prover's oracles are consistent: distinct labels where columns are found by label, columns
    interpolated over [d] and extended evaluations over [ext]. *)
Definition prepared (env : fenv F) (d ext : domain F) (o : poracle F) : Prop :=
  interpolates d o /\ compute_extended_evals env ext o = o.
Record assignment_ok (env : fenv F) (d ext : domain F) (A : assignment) : Prop := AssignmentOk {
  ao_ws : well_formed env d ext (as_ws A);
  ao_ins : well_formed env d ext (as_ins A);
  ao_fs : well_formed env d ext (as_fs A);
  ao_qb : prepared env d ext (as_qb A);
  ao_sigmas : forall o, occurs o (as_sigmas A) -> prepared env d ext o;
  ao_zs : forall o, occurs o (as_zs A) -> prepared env d ext o;
  ao_los : forall lo, occurs lo (as_los A) -> [/\ prepared env d ext (lo_a lo), prepared env d ext (lo_s lo),
                        prepared env d ext (lo_a' lo) & prepared env d ext (lo_s' lo)];
  ao_lzs : forall o, occurs o (as_lzs A) -> prepared env d ext o }.

(** The verifier's oracles. *)
Section View.
Variable C : Type.
Record view := View {
  v_ws : seq (voracle F C);
  v_ins : seq (ioracle F);
  v_fs : seq (voracle F C);
  v_qb : voracle F C;
  v_sigmas : seq (voracle F C);
  v_zs : seq (voracle F C);
  v_los : seq (lookup_oracles (voracle F C));
  v_lzs : seq (voracle F C);
  v_chunks : seq (voracle F C) }.
Definition v_copied (v : view) : seq (voracle F C) := [seq o <- v_ws v | vd_permute (o_data o)].
(** All claimed evaluations at [x] are the values of the polynomials of [A] and of the
    quotient chunks [ts]. *)
Record sees (w x : F) (u : nat) (v : view) (A : assignment) (ts : seq (poracle F)) : Prop := Sees {
  se_ws : truthful w x (v_ws v) (as_ws A);
  se_ins : same_instances (v_ins v) (as_ins A);
  se_fs : truthful w x (v_fs v) (as_fs A);
  se_qb : answers x (v_qb v) (as_qb A);
  se_copied : all_answer x (v_copied v) (copied (as_ws A));
  se_sigmas : all_answer x (v_sigmas v) (as_sigmas A);
  se_zs : all_answer x (v_zs v) (as_zs A);
  se_zs_next : all_answer (w * x) (v_zs v) (as_zs A);
  se_zs_u : forall k o p, (k.+1 < size (as_zs A))%N -> idx (v_zs v) k = Ok o -> idx (as_zs A) k = Ok p ->
              answers (w ^+ u * x) o p;
  se_los : size (v_los v) = size (as_los A) /\
    forall j o p, idx (v_los v) j = Ok o -> idx (as_los A) j = Ok p ->
      [/\ answers x (lo_a o) (lo_a p), answers x (lo_s o) (lo_s p), answers x (lo_s' o) (lo_s' p) &
          answers x (lo_a' o) (lo_a' p) /\ answers (w^-1 * x) (lo_a' o) (lo_a' p)];
  se_lzs : all_answer x (v_lzs v) (as_lzs A);
  se_lzs_next : all_answer (w * x) (v_lzs v) (as_lzs A);
  se_chunks : all_answer x (v_chunks v) ts }.
End View.
End PIOP.
