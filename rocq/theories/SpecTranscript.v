(** The nine challenges of a proof, as the verifier derives them. *)
From mathcomp Require Import all_ssreflect all_algebra.
From Verif Require Import Base ModelPoly ModelVO ModelOracle ModelPC ModelMultiproof ModelProtocol.

Set Implicit Arguments.
Unset Strict Implicit.
Unset Printing Implicit Defensive.

Section Challenges.
Variables (F : fieldType) (PC : pcs F) (FS : fsrng F).

(** x1, x2, then x3 after absorbing the commitment to f, then x4 after absorbing the q_evals. *)
Definition mo_challenges (fs : fs_state FS) (pf : mo_proof PC) : seq F :=
  let: (x1, fs) := fs_rand fs in
  let: (x2, fs) := fs_rand fs in
  let: (x3, fs) := fs_rand (fs_absorb fs (pc_bytes (mp_f_commit pf))) in
  let: (x4, fs) := fs_rand (fs_absorb fs (fs_bytes PC (mp_q_evals pf))) in
  [:: x1; x2; x3; x4].

(** theta, beta, gamma, alpha, xi, x1, x2, x3, x4. *)
Definition verifier_challenges (pf : tp_proof PC) : seq F :=
  let ch := derive_challenges FS pf in
  [:: ch_theta ch; ch_beta ch; ch_gamma ch; ch_alpha ch; ch_xi ch] ++ mo_challenges (ch_fs ch) (tp_multiopen pf).
End Challenges.
