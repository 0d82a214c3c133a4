(** Vocabulary for C60: where the prover's random values come from and where they go. *)
From mathcomp Require Import all_ssreflect all_algebra.
From Verif Require Import Base ModelPoly ModelVO ModelOracle ModelPC.

Set Implicit Arguments.
Unset Strict Implicit.
Unset Printing Implicit Defensive.

Section Blind.
Variables (F : fieldType) (PC : pcs F).

(** One use of the random generator: a field element, or the randomness of one commitment with
    hiding bound 1. *)
Inductive draw := DField of F | DRand of pc_rand PC.

(** [ds] are the values of successive uses of the generator, which [zk] and [zk'] are the states
    before and after. No state is used twice. *)
Fixpoint drawn (zk : pc_zk PC) (ds : seq draw) (zk' : pc_zk PC) : Prop :=
  match ds with
  | [::] => zk = zk'
  | DField x :: ds => x = (pc_zk_rand zk).1 /\ drawn (pc_zk_rand zk).2 ds zk'
  | DRand r :: ds => r = (pc_sample (Some 1) zk).1 /\ drawn (pc_sample (Some 1) zk).2 ds zk'
  end.

(** The rows of a column from row [k] on. *)
Definition rows_from (k : nat) (o : poracle F) : seq F := drop k (po_evals o).
(** x0, y0, x1, y1, ... *)
Definition alternate (xs ys : seq F) : seq F := flatten [seq [:: t.1; t.2] | t <- zip xs ys].

(** [cs] are the commitments to the polynomials of [os], the j-th with randomness [rs_j]. *)
Definition committed (ck : pc_ck PC) (os : seq (poracle F)) (rs : seq (pc_rand PC)) (cs : seq (pc_com PC)) : Prop :=
  [/\ size rs = size os, size cs = size os &
      forall j o r c, idx os j = Ok o -> idx rs j = Ok r -> idx cs j = Ok c -> pc_commit1 ck (po_poly o) r = Ok c].

(** The two sequences are of the same length and kinds, that is, the same calls were made. *)
Definition same_calls (ds ds' : seq draw) : Prop :=
  [seq if x is DField _ then true else false | x <- ds] = [seq if x is DField _ then true else false | x <- ds'].
End Blind.
Arguments DField {F PC}.
Arguments DRand {F PC}.

Section Hide.
Variable F : fieldType.
(** The sum of two columns. *)
Definition col_add (b e : seq F) : seq F := [seq t.1 + t.2 | t <- zip b e]%R.
(** The value of the polynomial of a column at [x]. *)
Definition opened (o : poracle F) (x : F) : F := peval (po_poly o) x.
End Hide.
