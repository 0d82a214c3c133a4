(** Specification of the lengths verify expects of the vectors in a proof. *)
From mathcomp Require Import all_ssreflect all_algebra.
From Verif Require Import Base ModelPoly ModelVO ModelOracle ModelPC ModelPermutation ModelLookup ModelIndexer
  ModelMultiproof ModelProtocol Spec SpecSound.

Set Implicit Arguments.
Unset Strict Implicit.
Unset Printing Implicit Defensive.

(** The number of openings of columns with these sets of rotations; the two rotations by 0 rows are one. *)
Definition unsigned_zero (r : rotation) : rotation := if r.1 == 0%N then curr else r.
Definition openings (rss : seq (seq rotation)) : nat := sumn [seq size (undup (map unsigned_zero rs)) | rs <- rss].

Section Shape.
Variables (F : fieldType) (PC : pcs F).
(** The number of permutation products: one for each block of copied columns. *)
Definition product_count (S : vinput PC) : nat :=
  let K := size [seq v <- s_ws S | vd_permute (o_data v)] in
  if K == 0%N then 0%N else size (chunks (pa_max_cols (s_perm S)) (iota 0 K)).
Definition product_rots (S : vinput PC) : seq (seq rotation) :=
  let nz := product_count S in
  [seq if k != nz.-1 then sinsert rot_lt (pa_usable_rows (s_perm S), Plus) [:: curr; next] else [:: curr; next] | k <- iota 0 nz].

(** All vectors besides the witness and quotient commitments and the q_evals have the length the circuit calls
    for, and there is an evaluation for each quotient commitment. *)
Definition right_lengths (S : vinput PC) (pf : tp_proof PC) : bool :=
  let nl := size (s_lookups S) in let pre := s_pre S in
  [&& (size (tp_quotient_commitments pf) <= size (tp_quotient_evals pf))%N,
      size (tp_witness_evals pf) == openings (map (@o_rots _) (s_ws S)),
      size (tp_fixed_evals pf) == openings (map (@o_rots _) (vp_fixed pre)),
      size (tp_table_evals pf) == openings (map (@o_rots _) (vp_table pre)),
      size (tp_perm_evals pf) == size (vp_perm pre),
      size (tp_lookup_commitments pf) == (2 * nl)%N,
      size (tp_lookup_evals pf) == (3 * nl)%N,
      size (tp_lookup_z_commitments pf) == nl,
      size (tp_lookup_z_evals pf) == (2 * nl)%N,
      size (tp_z_commitments pf) == product_count S &
      size (tp_z_evals pf) == openings (product_rots S)].
End Shape.

(** What the arguments of verify have become when a call on the proof [pf] ends: it has mutable access to the
    witness oracles and the preprocessed input. *)
Definition after (F : fieldType) (env : fenv F) (PC : pcs F) (FS : fsrng F) (pvk : pc_vk PC) (S : vinput PC) (pf : tp_proof PC) : vinput PC :=
  let st := (tp_verify env FS pvk (s_vk S) (s_pre S) pf (s_ws S) (s_ins S) (s_vos S) (dsize (s_d S)) (s_zh S)).2 in
  VInput (s_vk S) st.2 st.1 (s_ins S) (s_vos S) (s_d S) (s_zh S).
(** The same after calls on the proofs [pfs], whatever their outcomes. *)
Definition after_all (F : fieldType) (env : fenv F) (PC : pcs F) (FS : fsrng F) (pvk : pc_vk PC) (S : vinput PC) (pfs : seq (tp_proof PC)) : vinput PC :=
  foldl (after env FS pvk) S pfs.
(** The witness oracles with the commitments such calls register, and nothing else. *)
Definition with_commitments (F : fieldType) (PC : pcs F) (S : vinput PC) (css : seq (seq (pc_com PC))) : vinput PC :=
  VInput (s_vk S) (s_pre S) (foldl (@register_commitments F PC) (s_ws S) css) (s_ins S) (s_vos S) (s_d S) (s_zh S).
