(** Concrete instances over F_97: toy generators, the KZG model with G1 = F, and helpers to
    build circuits. Only used by examples. *)
From mathcomp Require Import all_ssreflect all_algebra.
From Coq Require Import NArith String.
From Verif Require Import Base ModelPoly ModelVO ModelGates ModelOracle ModelPC ModelPermutation
  ModelLookup ModelIndexer ModelMultiproof ModelProtocol Field97.

Set Implicit Arguments.
Unset Strict Implicit.
Unset Printing Implicit Defensive.

(** A linear congruential generator standing in for ChaCha. *)
Definition lcg (s : N) : N := ((s * 75 + 74) mod 65537)%num.
Definition lcg_rand (s : N) : f97 * N := let s' := lcg s in (mk (s' / 7), s').
(** A toy hash standing in for Blake2s, and SimpleHashFiatShamirRng on top of it. *)
Definition toy_hash (b : bytes) : bytes :=
  [:: nat_of_bin (foldl (fun h x => ((h * 257 + bin_of_nat x + 1) mod 1009)%num) 7%num b)].
Definition toy_seed (b : bytes) : N := foldl (fun h x => (h * 31 + bin_of_nat x)%num) 3%num b.
Definition FS97 : fsrng f97_fieldType := simple_hash_rng toy_hash toy_seed lcg_rand.

Definition f97_bytes (x : f97) : bytes := [:: nat_of_bin (v97 x)].
Definition KZG97 : pcs f97_fieldType :=
  @kzg f97_fieldType [lmodType f97 of f97^o] N lcg_rand f97_bytes f97_bytes.
(** A structured reference string with secret 11, generator 3, hiding generator 7. *)
Definition srs97 : kzg_srs [lmodType f97 of f97^o] :=
  @KzgSrs f97_fieldType [lmodType f97 of f97^o] (mk 11) (mk 3) (mk 7) 40.

Definition col (s : seq nat) : seq f97 := map n97 s.
Definition dom97 (n : nat) : domain f97_fieldType :=
  odflt (Domain 1 1%R) (domain_new env97 n).

(** A prover oracle from its evaluations. *)
Definition porc (k : oracle_type) (n : nat) (l : string) (evals : seq f97) (perm : bool)
  : poracle f97_fieldType :=
  po_new k l (ptrim (ifft (dom97 n) evals)) evals perm.
