(** C76: an accepted proof is rejected when one of its evaluations is changed. *)
From mathcomp Require Import all_ssreflect all_algebra.
From Coq Require Import String.
From Verif Require Import Base ModelPoly ModelVO ModelOracle ModelPC ModelPermutation ModelLookup ModelIndexer ModelMultiproof ModelProtocol
  Spec SpecProtocol SpecPIOP SpecMultiopen SpecCircuit SpecSound SpecShape SpecShift SpecSingle
  ProofBase ProofPoly ProofEach ProofLookup ProofPermutation ProofProver ProofFront ProofTotal3 ProofShift ProofSingle ProofSingle2 ProofSingle3.

Set Implicit Arguments.
Unset Strict Implicit.
Unset Printing Implicit Defensive.

Import GRing.Theory.
Local Open Scope ring_scope.

Section Quotient.
Variables (F : fieldType) (env : fenv F) (PC : pcs F).

Lemma sum_read xi ds es (cs : seq (pc_com PC)) T :
  rmapM (quotient_oracle_v xi es) (enumerate cs) = Ok T -> check_sum xi ds T = Ok (\sum_(i < size cs) (xi ^+ ds) ^+ i * es`_i).
Proof.
suff G k s a : rmapM (quotient_oracle_v xi es) (zip (iota k (size cs)) cs) = Ok T ->
    rfoldM (fun acc (xc : F * voracle F (pc_com PC)) => y <- vo_query xc.2 xi ;; Ok (acc + xc.1 * y)) a (zip (powers (size T) s (xi ^+ ds)) T)
    = Ok (a + \sum_(i < size cs) s * (xi ^+ ds) ^+ i * es`_(k + i)).
  move=> H; rewrite /check_sum (G 0%N 1 0 H) add0r; congr Ok; apply: eq_bigr => i _; by rewrite mul1r.
elim: cs k s a T => [|c cs IH] k s a T.
  by case=> <-; rewrite big_ord0 addr0.
rewrite [zip (iota _ _) _]/= => H; have [x Hx {}H] := rbind_ok H; have [R HR {}H] := rbind_ok H; case: H => <-.
have [e He {}Hx] := rbind_ok Hx; case: Hx => <-; have [_ /(_ 0) <-] := idx_ok He.
rewrite [zip _ _]/= [rfoldM _ _ _]/= /vo_query /= eqxx rbind_Ok (IH _ _ _ _ HR) big_ord_recl /= expr0 mulr1 addn0 addrA; congr (Ok (_ + _)).
by apply: eq_bigr => i _; rewrite /bump /= add1n exprS mulrA addnS addSn.
Qed.

Lemma quotient_noticed FS pvk (S : vinput PC) pf j v : let xi := ch_xi (derive_challenges FS pf) in
  verdict env FS pvk S pf = Ok tt -> (j < size (tp_quotient_commitments pf))%N -> v != (tp_quotient_evals pf)`_j ->
  xi != 0 -> (Poly (s_zh S)).[xi] != 0 ->
  verdict env FS pvk S (with_eval pf PQuotient j v) = Err QuotientNotZero.
Proof.
move=> xi; rewrite !verdictE => H Hj ne x0 z0.
have [T Hf {}H] := rbind_ok H; have [[] Hc _] := rbind_ok H.
have Ech := front_some Hf.
have read i c : occurs (i, c) (enumerate (tp_quotient_commitments pf)) -> (i < size (tp_quotient_evals pf))%N.
  move=> Hi; have [m Hm] := occurs_ex_idx Hi; have E2 := rmapM_each Ech; have [t Ht] := idx_size2 (each2_size E2) Hm.
  by have Hq := each2_idx E2 Hm Ht; have [e He _] := rbind_ok Hq; exact: idx_lt He.
have sz : (j < size (tp_quotient_evals pf))%N.
  have [c Hi] := idx_some Hj; have Hk : idx (enumerate (tp_quotient_commitments pf)) j = Ok (j, c) by rewrite idx_enumerate Hi.
  exact: read (occurs_idx Hk).
have [cs' Ecs] : exists cs', rmapM (quotient_oracle_v xi (set_nth 0 (tp_quotient_evals pf) j v)) (enumerate (tp_quotient_commitments pf)) = Ok cs'.
  have ss : size (set_nth 0 (tp_quotient_evals pf) j v) = size (tp_quotient_evals pf) by rewrite size_set_nth (maxn_idPr sz).
  elim: (enumerate _) read {Ech} => [|[i c] l IH] read; first by exists [::].
  have [t Et] := IH (fun i c Hi => read i c (or_intror Hi)).
  have [|e He] := @idx_some _ (set_nth 0 (tp_quotient_evals pf) j v) i; first by rewrite ss; apply: (read i c); left.
  have Eq : quotient_oracle_v xi (set_nth 0 (tp_quotient_evals pf) j v) (i, c) = Ok (Oracle ("quotient_chunk_" ++ show_nat i)%string [:: curr] (VData Witness [:: (xi, e)] (Some c) false)) by rewrite /quotient_oracle_v He.
  by eexists; rewrite [rmapM _ _]/= Eq Et.
have [Hf' Ec] := front_chunks Ech Ecs Hf.
rewrite (_ : with_eval pf PQuotient j v = with_quotient_evals pf (set_nth 0 (tp_quotient_evals pf) j v)) //.
rewrite (_ : derive_challenges FS (with_quotient_evals pf _) = derive_challenges FS pf) // Hf' rbind_Ok.
move: Hc; rewrite !vt_checkE [vt_chunks (rechunk _ _)]/= (sum_read _ Ech) (sum_read _ Ecs).
have -> : forall cs, check_lhs (s_vk S) (s_ins S) (s_vos S) (dsize (s_d S)) (ch_beta (derive_challenges FS pf)) (ch_gamma (derive_challenges FS pf))
   (ch_alpha (derive_challenges FS pf)) xi (rechunk cs T) = check_lhs (s_vk S) (s_ins S) (s_vos S) (dsize (s_d S)) (ch_beta (derive_challenges FS pf)) (ch_gamma (derive_challenges FS pf))
   (ch_alpha (derive_challenges FS pf)) xi T by [].
case: (check_lhs _ _ _ _ _ _ _ _ _) => [e|//|//]; rewrite !rbind_Ok; case: eqP => // E _.
suff -> : e - (\sum_(i < size (tp_quotient_commitments pf)) (xi ^+ dsize (s_d S)) ^+ i * (set_nth 0 (tp_quotient_evals pf) j v)`_i) * peval (s_zh S) xi != 0 by [].
rewrite (subr0_eq E) -/xi -mulrBl mulf_neq0 ?pevalE //.
rewrite -sumrB (bigD1 (Ordinal Hj)) //= big1 ?addr0 => [|i /eqP ni].
  by rewrite nth_set_nth /= eqxx -mulrBr mulf_neq0 ?expf_neq0 // subr_eq0 eq_sym.
rewrite nth_set_nth /=; case: eqP => [Ei|_]; last by rewrite subrr.
by case: ni; apply: val_inj.
Qed.
End Quotient.

(** ** C76 *)
(** Let verify accept a proof. If one evaluation of a column is replaced by another value (and nothing else is
    changed), verify does not accept, for any circuit it can read, if the commitment scheme accepts one value for a
    commitment, point and opening proof, x1 and x2 are not 0, and there are as many witness commitments as witness columns and
    at least one opening value for each set of rotations. *)
Theorem c76_changed_evaluation_rejected (F : fieldType) (env : fenv F) (PC : pcs F) (FS : fsrng F) (pvk : pc_vk PC)
    (S : vinput PC) (es : seq (expr F oquery)) (pf : tp_proof PC) (g : part) (j : nat) (v : F) :
  let fs := ch_fs (derive_challenges FS pf) in
  fenv_ok env -> std_domain env (s_d S) -> verifiable S es -> one_value pvk ->
  verdict env FS pvk S pf = Ok tt ->
  size (tp_witness_commitments pf) = size (s_ws S) ->
  (size (undup (opened_rots S (size (tp_quotient_commitments pf)))) <= size (mp_q_evals (tp_multiopen pf)))%N ->
  (fs_rand fs).1 != 0 -> (fs_rand (fs_rand fs).2).1 != 0 ->
  (j < size (evals_of g pf))%N -> v != (evals_of g pf)`_j ->
  verdict env FS pvk S (with_eval pf g j v) <> Ok tt.
Proof. by move=> fs eok sd rdy; exact: (verdict_single eok sd rdy). Qed.
Print Assumptions c76_changed_evaluation_rejected.

(** If the evaluation is one of a quotient chunk, verify's answer is the error QuotientNotZero, whatever the commitment scheme and the
    proof are, if xi is neither 0 nor a root of z_h. *)
Theorem c76_changed_quotient_evaluation (F : fieldType) (env : fenv F) (PC : pcs F) (FS : fsrng F) (pvk : pc_vk PC)
    (S : vinput PC) (pf : tp_proof PC) (j : nat) (v : F) :
  let xi := ch_xi (derive_challenges FS pf) in
  verdict env FS pvk S pf = Ok tt -> (j < size (tp_quotient_commitments pf))%N -> v != (tp_quotient_evals pf)`_j ->
  xi != 0 -> (Poly (s_zh S)).[xi] != 0 ->
  verdict env FS pvk S (with_eval pf PQuotient j v) = Err QuotientNotZero.
Proof. exact: quotient_noticed. Qed.
Print Assumptions c76_changed_quotient_evaluation.

(** KZG10 accepts one value only if the generator of its group is not 0. *)
Theorem c76_kzg_one_value (F : fieldType) (G : lmodType F) (Z : Type) (zk_rand : Z -> F * Z) (cbytes : G -> bytes) (fbytes : F -> bytes)
    (s : kzg_srs G) : k_g s != 0 <-> one_value (PC := kzg zk_rand cbytes fbytes) s.
Proof.
split=> [g0 c x v v' p /= [/eqP E] [/eqP E']|H].
  have : (v - v') *: k_g s == 0.
    rewrite scalerBl subr_eq0; apply/eqP; move: E; rewrite -E' => /addIr /addrI /oppr_inj; exact.
  by rewrite scaler_eq0 (negbTE g0) orbF subr_eq0 => /eqP.
apply/eqP => g0; have := H (0 : G) 0 0 1 ((0, None) : G * option F).
rewrite /= /kzg_check g0 !scaler0 !subr0 scale0r subr0 eqxx => /(_ erefl erefl) /eqP.
by rewrite eq_sym oner_eq0.
Qed.
Print Assumptions c76_kzg_one_value.

(** ** Concrete cases *)
From Coq Require Import NArith.
From Verif Require Import ModelGates Field97 Concrete ProofPC ProofConcrete ProofTools ProofCheck ProofCheck2 Run97 PropsTranscript PropsEndToEnd PropsAttack.
Local Close Scope ring_scope.

(** The circuit of Run97.v with the permutation and blinding columns opened at xi, and its proof. *)
Definition s_run := tp_prove env97 (PC := KZG97) FS97 srs97 r_vk
  (prover_pre_new env97 KZG97 r_fs (map flat r_sigma) r_ts (flat r_qblind) (vk_index r_vk)) r_ws r_ins r_vos 8 11%num.
Definition s_proof := (ok_or (r_dummy, 0%num) s_run).1.
(** It is accepted and has evaluations of each kind: with any one of them changed it is not. *)
Lemma s_accepted : verdict env97 FS97 (PC := KZG97) srs97 r_S s_proof = Ok tt. Proof. by vm_compute. Qed.
Example ex_c76_kinds : all (fun g => 0 < size (evals_of g s_proof)) [:: PWitness; PFixed; PTable; PSigma; PBlind; PLookup; PLookupZ; PProduct; PQuotient].
Proof. by vm_compute. Qed.
Lemma kzg97_one : one_value (PC := KZG97) srs97.
Proof. by apply c76_kzg_one_value; vm_compute. Qed.
Example ex_c76 (g : part) (j : nat) (v : F97) : j < size (evals_of g s_proof) -> v != nth 0%R (evals_of g s_proof) j ->
  verdict env97 FS97 (PC := KZG97) srs97 r_S (with_eval s_proof g j v) <> Ok tt.
Proof.
pose proof (@c76_changed_evaluation_rejected F97 env97 KZG97 FS97 srs97 r_S (r_exprs r_C) s_proof g j v env97_ok dom97_8 r_verifiable kzg97_one s_accepted) as H.
have h1 : size (tp_witness_commitments s_proof) = size (s_ws r_S) by apply/eqP; vm_compute.
have h2 : size (undup (opened_rots r_S (size (tp_quotient_commitments s_proof)))) <= size (mp_q_evals (tp_multiopen s_proof)) by vm_compute.
have h3 : ((fs_rand (ch_fs (derive_challenges FS97 s_proof))).1 != 0)%R by vm_compute.
have h4 : ((fs_rand (fs_rand (ch_fs (derive_challenges FS97 s_proof))).2).1 != 0)%R by vm_compute.
exact (H h1 h2 h3 h4).
Qed.
(** Its second quotient evaluation plus 1. *)
Example ex_c76_quotient : verdict env97 FS97 (PC := KZG97) srs97 r_S (with_eval s_proof PQuotient 1 (nth 0 (tp_quotient_evals s_proof) 1 + 1))%R = Err QuotientNotZero.
Proof.
by apply c76_changed_quotient_evaluation; [exact s_accepted|vm_compute|vm_compute|vm_compute|rewrite -pevalE; vm_compute].
Qed.
