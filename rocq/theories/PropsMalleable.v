(** C70: proofs are malleable in their quotient evaluations ([with_quotient_evals] is defined in SpecShift.v). *)
From mathcomp Require Import all_ssreflect all_algebra.
From Coq Require Import String.
From Verif Require Import Base ModelPoly ModelVO ModelOracle ModelPC ModelPermutation ModelLookup ModelIndexer
  ModelMultiproof ModelProtocol Spec SpecProtocol SpecPIOP SpecMultiopen SpecSound SpecShift ProofBase ProofEach ProofProver ProofFront.

Set Implicit Arguments.
Unset Strict Implicit.
Unset Printing Implicit Defensive.

Import GRing.Theory.
Local Open Scope ring_scope.

Section Malleable.
Variables (F : fieldType) (env : fenv F) (PC : pcs F).

Lemma rmapM_agree A B (f f' : A -> res B) s : (forall a, occurs a s -> f' a = f a) -> rmapM f' s = rmapM f s.
Proof.
elim: s => [|a s IH] H //=; rewrite (H a (or_introl erefl)); case: (f a) => //= b.
by rewrite IH // => a' Ha; apply: H; right.
Qed.
Lemma enumerate_below A (s : seq A) kc : occurs kc (enumerate s) -> (kc.1 < size s)%N.
Proof.
move=> H; have [i Hi] := occurs_ex_idx H; move: Hi; rewrite idx_enumerate; case E: (idx s i) => [c|e|e] //= [<-]; exact: idx_lt E.
Qed.
Lemma idx_cat A (s t : seq A) i : (i < size s)%N -> idx (s ++ t) i = idx s i.
Proof. by elim: s i => [|a s IH] [|i] //=; exact: IH. Qed.

Lemma trailing FS pvk (S : vinput PC) pf xs : (size (tp_quotient_commitments pf) <= size (tp_quotient_evals pf))%N ->
  verdict env FS pvk S (with_quotient_evals pf (tp_quotient_evals pf ++ xs)) = verdict env FS pvk S pf.
Proof.
move=> H; rewrite /verdict; apply: (etrans (proj1 (verify_frontE env FS pvk _ _ _ _ _ _ _ _))); apply: esym.
apply: (etrans (proj1 (verify_frontE env FS pvk _ _ _ _ _ _ _ _))); apply: esym.
have -> : derive_challenges FS (with_quotient_evals pf (tp_quotient_evals pf ++ xs)) = derive_challenges FS pf by [].
set ch := derive_challenges FS pf.
suff -> : verify_front env (s_vk S) (s_pre S) (with_quotient_evals pf (tp_quotient_evals pf ++ xs)) (s_ws S) (s_ins S) (dsize (s_d S)) (ch_theta ch) (ch_xi ch)
  = verify_front env (s_vk S) (s_pre S) pf (s_ws S) (s_ins S) (dsize (s_d S)) (ch_theta ch) (ch_xi ch) by [].
rewrite /verify_front; cbn [tp_witness_commitments tp_witness_evals tp_fixed_evals tp_table_evals tp_perm_evals tp_q_blind_eval
  tp_lookup_commitments tp_lookup_z_commitments tp_lookup_evals tp_lookup_z_evals tp_z_commitments tp_z_evals
  tp_quotient_commitments tp_quotient_evals with_quotient_evals].
rewrite (rmapM_agree (f := quotient_oracle_v (ch_xi ch) (tp_quotient_evals pf))) // => kc Hk.
by rewrite /quotient_oracle_v idx_cat // (leq_trans (enumerate_below Hk)).
Qed.
Lemma missing FS pvk (S : vinput PC) pf : (size (tp_quotient_evals pf) < size (tp_quotient_commitments pf))%N ->
  verdict env FS pvk S pf = Panic PIndex.
Proof.
move=> H; rewrite /verdict; apply: (etrans (proj1 (verify_frontE env FS pvk _ _ _ _ _ _ _ _))); rewrite /verify_front.
suff -> : rmapM (quotient_oracle_v (ch_xi (derive_challenges FS pf)) (tp_quotient_evals pf)) (enumerate (tp_quotient_commitments pf)) = Panic PIndex by [].
move: (ch_xi _) H => xi; move: (tp_quotient_evals pf) (tp_quotient_commitments pf) => es cs.
suff Hk k : (k <= size es)%N -> (size es < k + size cs)%N -> rmapM (quotient_oracle_v xi es) (zip (iota k (size cs)) cs) = Panic PIndex by move=> H; exact: (Hk 0%N).

elim: cs k => [|c cs IH] k le; first by rewrite addn0 ltnNge le.
rewrite addnS -addSn => lt; rewrite [rmapM _ _]/= /quotient_oracle_v -/(quotient_oracle_v xi es) /=.
case: (ltnP k (size es)) => Hk; last first.
  suff -> : idx es k = Panic PIndex by [].
  by elim: (es) k Hk {IH le lt} => [|a s IHs] [|k] //=; exact: IHs.
have [e ->] := idx_some Hk; cbn [rbind]; by rewrite (IH k.+1).
Qed.
End Malleable.

(** ** C70 *)
(** verify reads one quotient evaluation for each quotient commitment and ignores the others: whatever is
    appended, the outcome is the same. *)
Theorem c70_trailing_quotient_evals_ignored (F : fieldType) (env : fenv F) (PC : pcs F) (FS : fsrng F) (pvk : pc_vk PC)
    (S : vinput PC) (pf : tp_proof PC) (xs : seq F) :
  (size (tp_quotient_commitments pf) <= size (tp_quotient_evals pf))%N ->
  verdict env FS pvk S (with_quotient_evals pf (tp_quotient_evals pf ++ xs)) = verdict env FS pvk S pf.
Proof. exact: trailing. Qed.
Print Assumptions c70_trailing_quotient_evals_ignored.

(** With fewer evaluations than commitments verify panics. *)
Theorem c70_missing_quotient_evals_panic (F : fieldType) (env : fenv F) (PC : pcs F) (FS : fsrng F) (pvk : pc_vk PC)
    (S : vinput PC) (pf : tp_proof PC) :
  (size (tp_quotient_evals pf) < size (tp_quotient_commitments pf))%N -> verdict env FS pvk S pf = Panic PIndex.
Proof. exact: missing. Qed.
Print Assumptions c70_missing_quotient_evals_panic.

(** Anyone can turn an accepted proof into another one (as many as there are lists of field elements). *)
Theorem c70_accepted_proofs_are_malleable (F : fieldType) (env : fenv F) (PC : pcs F) (FS : fsrng F) (pvk : pc_vk PC)
    (S : vinput PC) (pf : tp_proof PC) (x : F) (xs : seq F) :
  verdict env FS pvk S pf = Ok tt ->
  let pf' := with_quotient_evals pf (tp_quotient_evals pf ++ x :: xs) in
  verdict env FS pvk S pf' = Ok tt /\ tp_quotient_evals pf' <> tp_quotient_evals pf.
Proof.
move=> ok; split; last by move/(congr1 size)/eqP; rewrite size_cat /= -[X in _ == X]addn0 eqn_add2l.
case: (leqP (size (tp_quotient_commitments pf)) (size (tp_quotient_evals pf))) => H; last by move: ok; rewrite missing.
by rewrite trailing.
Qed.
Print Assumptions c70_accepted_proofs_are_malleable.

(** ** Concrete cases *)
From Coq Require Import NArith.
From Verif Require Import Field97 Concrete Run97.
Local Close Scope ring_scope.

(** The proof of r_run is accepted, and so is it with 7 and 9 appended. *)
Definition m_S : vinput KZG97 := VInput r_vk r_vpre r_vws r_vins r_vos r_d r_zh.
Lemma r_accepted : verdict env97 FS97 (PC := KZG97) srs97 m_S r_proof = Ok tt. Proof. by vm_compute. Qed.
Example ex_c70 : verdict env97 FS97 (PC := KZG97) srs97 m_S (with_quotient_evals r_proof (tp_quotient_evals r_proof ++ [:: n97 7; n97 9])) = Ok tt.
Proof.
exact (proj1 (@c70_accepted_proofs_are_malleable F97 env97 KZG97 FS97 srs97 m_S r_proof (n97 7) [:: n97 9] r_accepted)).
Qed.
Example ex_c70_missing : verdict env97 FS97 (PC := KZG97) srs97 m_S (with_quotient_evals r_proof [::]) = Panic PIndex.
Proof. apply c70_missing_quotient_evals_panic. by vm_compute. Qed.
