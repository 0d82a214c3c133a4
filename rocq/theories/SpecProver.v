(** Vocabulary for C52 and C54: the prover without its length assertion, and the contents of a
    proof as two lists. *)
From mathcomp Require Import all_ssreflect all_algebra.
From Verif Require Import Base ModelPoly ModelVO ModelOracle ModelPC ModelPermutation
  ModelLookup ModelIndexer ModelMultiproof ModelProtocol.

Set Implicit Arguments.
Unset Strict Implicit.
Unset Printing Implicit Defensive.

Import GRing.Theory.
Local Open Scope ring_scope.

Section Prover.
Variables (F : fieldType) (env : fenv F) (PC : pcs F) (FS : fsrng F).

(** src/turbo_plonk.rs:203-676 as in ModelProtocol.v, with the assertion on the number of
    randomness values (line 538) left out. *)
Definition tp_prove_unasserted (ck : pc_ck PC) (vk : verifier_key F) (pre : prover_pre PC)
    (ws ins : seq (poracle F)) (vos : seq (generic_vo F)) (domain_size : nat) (zk : pc_zk PC)
  : res (tp_proof PC * pc_zk PC) :=
  let ix := vk_index vk in
  let fs := fs_init FS PROTOCOL_NAME in
  let ws := map (compute_extended_evals env (ix_ext ix)) ws in
  let ins := map (compute_extended_evals env (ix_ext ix)) ins in
  '(w_coms, w_rands, zk) <- commit_all ck (labeled ws) zk ;;
  let fs := fs_absorb fs (coms_bytes w_coms) in
  d <- opt_unwrap (domain_new env domain_size) ;;
  let to_copy := oracles_to_copy ws in
  let: (theta, fs) := fs_rand fs in
  (* lookup round *)
  '(los, zk) <- prover_lookup_round env pre ix ws ins theta d (enumerate (ix_lookups ix)) zk ;;
  '(l_coms, l_rands, zk) <- commit_all ck (labeled (lookup_primes los)) zk ;;
  let fs := fs_absorb fs (coms_bytes l_coms) in
  (* permutation round *)
  let: (beta, fs) := fs_rand fs in
  let: (gamma, fs) := fs_rand fs in
  '(zs, zk) <- prover_permutation_round env (ix_perm ix) pre to_copy beta gamma d (ix_ext ix) zk ;;
  '(z_coms, z_rands, zk) <- commit_all ck (labeled zs) zk ;;
  let fs := fs_absorb fs (coms_bytes z_coms) in
  (* subset equality round *)
  '(lzs, zk) <- prover_subset_round env ix beta gamma d (enumerate los) zk ;;
  '(lz_coms, lz_rands, zk) <- commit_all ck (labeled lzs) zk ;;
  let fs := fs_absorb fs (coms_bytes lz_coms) in
  (* quotient round *)
  let: (alpha, fs) := fs_rand fs in
  chunks <- prover_quotient_round env vk pre ws ins to_copy zs los lzs vos beta gamma alpha d ;;
  '(q_coms, q_rands, zk) <- commit_all ck (labeled chunks) zk ;;
  let fs := fs_absorb fs (coms_bytes q_coms) in
  let: (xi, fs) := fs_rand fs in
  let omegas := elements d in
  (* evaluations *)
  w_qs <- get_query_set ws xi_label xi omegas ;;
  w_evals <- evaluate_query_set ws w_qs ;;
  f_qs <- get_query_set (pp_fixed pre) xi_label xi omegas ;;
  f_evals <- evaluate_query_set (pp_fixed pre) f_qs ;;
  t_qs <- get_query_set (pp_table pre) xi_label xi omegas ;;
  t_evals <- evaluate_query_set (pp_table pre) t_qs ;;
  let omega := element d 1 in
  omega_inv <- finv omega ;;
  let l_evals := flatten [seq [:: peval (po_poly (lo_a' lo)) xi;
                                  peval (po_poly (lo_a' lo)) (xi * omega_inv);
                                  peval (po_poly (lo_s' lo)) xi] | lo <- los] in
  let lz_evals := flatten [seq [:: peval (po_poly z) xi; peval (po_poly z) (xi * omega)]
                          | z <- lzs] in
  let q_evals := [seq peval (po_poly c) xi | c <- chunks] in
  let p_evals := [seq peval (po_poly s) xi | s <- pp_perm pre] in
  z_qs <- get_query_set zs xi_label xi omegas ;;
  z_evals <- evaluate_query_set zs z_qs ;;
  let q_blind_eval := peval (po_poly (pp_q_blind pre)) xi in
  (* multiopen *)
  let oracles := ws ++ lookup_primes los ++ lzs ++ chunks ++ zs
                 ++ pp_fixed pre ++ pp_table pre ++ pp_perm pre ++ [:: pp_q_blind pre] in
  let rands := w_rands ++ l_rands ++ lz_rands ++ q_rands ++ z_rands ++ pp_empty_rands pre in
  '(mo, fs, zk) <- mo_prove env ck oracles rands xi domain_size fs zk ;;
  Ok (TPProof w_coms w_evals f_evals t_evals p_evals q_blind_eval l_coms lz_coms l_evals lz_evals
        z_coms z_evals q_coms q_evals mo, zk).

(** Every commitment, and every field element, in a proof (src/turbo_plonk.rs:46-71,
    src/multiproof/mod.rs:17-23). *)
Definition proof_commitments (pf : tp_proof PC) : seq (pc_com PC) :=
  tp_witness_commitments pf ++ tp_lookup_commitments pf ++ tp_z_commitments pf ++ tp_lookup_z_commitments pf
  ++ tp_quotient_commitments pf ++ [:: mp_f_commit (tp_multiopen pf)].
Definition proof_evals (pf : tp_proof PC) : seq F :=
  tp_witness_evals pf ++ tp_fixed_evals pf ++ tp_table_evals pf ++ tp_perm_evals pf ++ [:: tp_q_blind_eval pf]
  ++ tp_lookup_evals pf ++ tp_lookup_z_evals pf ++ tp_z_evals pf ++ tp_quotient_evals pf ++ mp_q_evals (tp_multiopen pf).
End Prover.
