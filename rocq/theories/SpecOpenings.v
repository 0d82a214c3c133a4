(** Vocabulary for C75: what the multi-opening publishes besides the evaluations at rotated xi. *)
From mathcomp Require Import all_ssreflect all_algebra.
From Verif Require Import Base ModelPoly ModelVO ModelOracle ModelPC ModelPermutation ModelIndexer ModelMultiproof ModelProtocol.

Set Implicit Arguments.
Unset Strict Implicit.
Unset Printing Implicit Defensive.

Import GRing.Theory.
Local Open Scope ring_scope.

(** v0 + x v1 + x^2 v2 + ... *)
Fixpoint combined {F : fieldType} (x : F) (vs : seq F) : F :=
  match vs with [::] => 0 | v :: vs' => v + x * combined x vs' end.

(** The sets of rotations of all columns prove opens: the witness columns, the two permuted columns
    of each lookup, the product of each lookup, [nq] quotient chunks, [nz] products of the copy
    constraints, and the preprocessed columns. *)
Definition published_rots {F : fieldType} {PC : pcs F} (vk : verifier_key F) (pre : prover_pre PC) (ws : seq (poracle F))
    (nz nq : nat) : seq (seq rotation) :=
  let u := pa_usable_rows (ix_perm (vk_index vk)) in
  map (@o_rots _) ws ++ flatten [seq [:: [:: curr; prev]; [:: curr]] | l <- ix_lookups (vk_index vk)] ++
  [seq [:: curr; next] | l <- ix_lookups (vk_index vk)] ++ nseq nq [:: curr] ++
  [seq if k.+1 == nz then [:: curr; next] else sinsert rot_lt (u, Plus) [:: curr; next] | k <- iota 0 nz] ++
  map (@o_rots _) (pp_fixed pre ++ pp_table pre ++ pp_perm pre ++ [:: pp_q_blind pre]).

(** The number of different sets of rotations before [k]: the place of the set [k] in the list of q_evals. *)
Definition place (k : seq rotation) (ks : seq (seq rotation)) : nat := count (fun k' => rots_lt k' k) (undup ks).
