(** The verifier cut in three: evaluating and registering the claims, the quotient check, and the
    multi-opening. *)
From mathcomp Require Import all_ssreflect all_algebra.
From Coq Require Import String.
From Verif Require Import Base ModelPoly ModelVO ModelOracle ModelPC ModelPermutation
  ModelLookup ModelIndexer ModelMultiproof ModelProtocol Spec SpecProtocol SpecMultiopen SpecTranscript ProofBase ProofProver.

Set Implicit Arguments.
Unset Strict Implicit.
Unset Printing Implicit Defensive.

Import GRing.Theory.
Local Open Scope ring_scope.

Section Front.
Variables (F : fieldType) (env : fenv F) (PC : pcs F).
Notation com := (pc_com PC).

(** Everything the verifier has registered when it reaches the quotient check. *)
Record vtrace := VTrace {
  vt_d : domain F;
  vt_ws : seq (voracle F com);
  vt_fixed : seq (voracle F com);
  vt_table : seq (voracle F com);
  vt_perm : seq (voracle F com);
  vt_qb : voracle F com;
  vt_los : seq (lookup_oracles (voracle F com));
  vt_lzs : seq (voracle F com);
  vt_zs : seq (voracle F com);
  vt_chunks : seq (voracle F com) }.
Definition vt_pre (T : vtrace) : verifier_pre PC := VerifierPre (vt_fixed T) (vt_table T) (vt_perm T) (vt_qb T).
Definition vt_copied (T : vtrace) := [seq o <- vt_ws T | vd_permute (o_data o)].
Definition vt_oracles (T : vtrace) : seq (voracle F com) :=
  vt_ws T ++ lookup_primes (vt_los T) ++ vt_lzs T ++ vt_chunks T ++ vt_zs T
  ++ vt_fixed T ++ vt_table T ++ vt_perm T ++ [:: vt_qb T].

Section Run.
Variables (vk : verifier_key F) (pre : verifier_pre PC) (proof : tp_proof PC) (ws0 : seq (voracle F com))
  (ins : seq (ioracle F)) (ds : nat) (theta xi : F).
Let ix := vk_index vk.
Let lookups := ix_lookups ix.

Definition verify_front : res vtrace :=
  qchunks <- rmapM (quotient_oracle_v xi (tp_quotient_evals proof)) (enumerate (tp_quotient_commitments proof)) ;;
  d <- opt_unwrap (domain_new env ds) ;;
  w_qs <- get_query_set (register_commitments ws0 (tp_witness_commitments proof)) xi_label xi (elements d) ;;
  _ <- rassert (size w_qs == size (tp_witness_evals proof)) ;;
  ws <- register_evals (register_commitments ws0 (tp_witness_commitments proof)) MissingWitnessOracle (zip w_qs (tp_witness_evals proof)) ;;
  f_qs <- get_query_set (vp_fixed pre) xi_label xi (elements d) ;;
  _ <- rassert (size f_qs == size (tp_fixed_evals proof)) ;;
  fixed <- register_evals (vp_fixed pre) MissingFixedOracle (zip f_qs (tp_fixed_evals proof)) ;;
  t_qs <- get_query_set (vp_table pre) xi_label xi (elements d) ;;
  _ <- rassert (size t_qs == size (tp_table_evals proof)) ;;
  table <- register_evals (vp_table pre) MissingLookupTableOracle (zip t_qs (tp_table_evals proof)) ;;
  _ <- rassert (size (vp_perm pre) == size (tp_perm_evals proof)) ;;
  let perm := [seq register_eval_at_challenge xi se.2 se.1 | se <- zip (vp_perm pre) (tp_perm_evals proof)] in
  omega_inv <- finv (element d 1) ;;
  _ <- rassert (size (chunks 2 (tp_lookup_commitments proof)) == size lookups) ;;
  _ <- rassert (size (chunks 3 (tp_lookup_evals proof)) == size lookups) ;;
  los <- rmapM (lookup_oracles_v ws ins (VerifierPre fixed table perm (vp_q_blind pre)) theta xi omega_inv (elements d))
           (enumerate (zip (zip lookups (chunks 2 (tp_lookup_commitments proof))) (chunks 3 (tp_lookup_evals proof)))) ;;
  _ <- rassert (size (tp_lookup_z_commitments proof) == size lookups) ;;
  _ <- rassert (size (chunks 2 (tp_lookup_z_evals proof)) == size lookups) ;;
  lzs <- rmapM (lookup_z_oracle_v xi (element d 1))
           (enumerate (zip (tp_lookup_z_commitments proof) (chunks 2 (tp_lookup_z_evals proof)))) ;;
  nz <- number_of_z_polys (ix_perm ix) (size [seq o <- ws | vd_permute (o_data o)]) ;;
  _ <- rassert (nz == size (tp_z_commitments proof)) ;;
  z_qs <- get_query_set [seq z_oracle_v (pa_usable_rows (ix_perm ix)) nz kc | kc <- enumerate (tp_z_commitments proof)] xi_label xi (elements d) ;;
  _ <- rassert (size z_qs == size (tp_z_evals proof)) ;;
  zs <- register_evals [seq z_oracle_v (pa_usable_rows (ix_perm ix)) nz kc | kc <- enumerate (tp_z_commitments proof)]
          MissingPermutationOracle (zip z_qs (tp_z_evals proof)) ;;
  Ok (VTrace d ws fixed table perm (register_eval_at_challenge xi (tp_q_blind_eval proof) (vp_q_blind pre)) los lzs zs qchunks).
End Run.

Section Whole.
Variables (FS : fsrng F) (pvk : pc_vk PC) (vk : verifier_key F) (pre : verifier_pre PC) (proof : tp_proof PC) (ws0 : seq (voracle F com))
  (ins : seq (ioracle F)) (vos : seq (generic_vo F)) (ds : nat) (z_h : lpoly F).
Let ch := derive_challenges FS proof.

Definition vt_check (ch_beta ch_gamma ch_alpha xi : F) (T : vtrace) : res unit :=
  quotient_check vk (vt_ws T) ins (vt_pre T) (vt_copied T) (vt_zs T) (vt_los T) (vt_lzs T) (vt_chunks T) vos
    ch_beta ch_gamma ch_alpha xi (vt_d T) ds z_h.

Lemma verify_frontE :
  (tp_verify env FS pvk vk pre proof ws0 ins vos ds z_h).1 =
  (T <- verify_front vk pre proof ws0 ins ds (ch_theta ch) (ch_xi ch) ;;
   _ <- vt_check (ch_beta ch) (ch_gamma ch) (ch_alpha ch) (ch_xi ch) T ;;
   mo_verify env pvk (tp_multiopen proof) (vt_oracles T) (ch_xi ch) ds (ch_fs ch))
  /\ forall T, verify_front vk pre proof ws0 ins ds (ch_theta ch) (ch_xi ch) = Ok T ->
     (tp_verify env FS pvk vk pre proof ws0 ins vos ds z_h).2 = (vt_ws T, vt_pre T).
Proof.
rewrite /tp_verify -/ch /verify_front.
case: ch => theta beta gamma alpha xi fs; cbn [ch_theta ch_beta ch_gamma ch_alpha ch_xi ch_fs].
repeat match goal with |- (fst (sbind ?r _ _) = _) /\ _ =>
  case: r => [?|?|?]; [|by split..]; cbn [sbind rbind fst vp_fixed vp_table vp_perm vp_q_blind] end.
rewrite /vt_check /vt_pre /vt_copied /vt_oracles; cbn [vt_d vt_ws vt_fixed vt_table vt_perm vt_qb vt_los vt_lzs vt_zs vt_chunks].
by case: (quotient_check _ _ _ _ _ _ _ _ _ _ _ _ _ _ _ _ _) => [?|?|?]; split=> // T [<-].
Qed.
End Whole.
End Front.
