(** Model of src/piop/prover.rs, src/piop/verifier.rs, src/turbo_plonk.rs, src/mock_prover.rs
    and the preprocessed inputs of src/data_structures.rs. Definitions only. *)
From mathcomp Require Import all_ssreflect all_algebra.
From Coq Require Import String Ascii.
From Verif Require Import Base ModelPoly ModelVO ModelOracle ModelPC ModelPermutation
  ModelLookup ModelIndexer ModelMultiproof.

Set Implicit Arguments.
Unset Strict Implicit.
Unset Printing Implicit Defensive.

Import GRing.Theory.
Local Open Scope ring_scope.

(** An outcome together with the state reached by the [&mut] arguments of [verify] (src/turbo_plonk.rs:678-688):
    an early return or panic leaves the state as it is at that point. *)
Definition sbind {A B S} (r : res A) (st : S) (k : A -> res B * S) : res B * S :=
  match r with Ok a => k a | Err e => (Err e, st) | Panic p => (Panic p, st) end.
Notation "x <-[ st ] a ;; b" := (sbind a st (fun x => b))
  (at level 100, st at next level, a at next level, right associativity) : res_scope.
Notation "' p <-[ st ] a ;; b" := (sbind a st (fun x => let p := x in b))
  (at level 100, p pattern, st at next level, a at next level, right associativity) : res_scope.

(** [Self::PROTOCOL_NAME], src/turbo_plonk.rs:182 *)
Definition PROTOCOL_NAME : bytes :=
  [seq nat_of_ascii c | c <- list_ascii_of_string "TurboPlonk-0.0.1"].

(** Label of the evaluation challenge, src/piop/verifier.rs:105 *)
Definition xi_label : label := "xi"%string.

Section Protocol.
Variables (F : fieldType) (env : fenv F) (PC : pcs F) (FS : fsrng F).
(** [PC::Commitment], src/turbo_plonk.rs:46-71. *)
Notation com := (pc_com PC).

(** src/data_structures.rs:56-63 *)
Record prover_pre := ProverPre {
  pp_fixed : seq (poracle F);
  pp_perm : seq (poracle F);
  pp_table : seq (poracle F);
  pp_q_blind : poracle F;
  pp_empty_rands : seq (pc_rand PC) }.

(** src/data_structures.rs:68-107 *)
Definition prover_pre_new (fixed perm table : seq (poracle F)) (q_blind : poracle F)
    (ix : index_info F) : prover_pre :=
  let ext := map (compute_extended_evals env (ix_ext ix)) in
  ProverPre (ext fixed) (ext perm) (ext table)
    (compute_extended_evals env (ix_ext ix) q_blind)
    (nseq (size fixed + size perm + size table + 1) (pc_empty PC)).

(** src/data_structures.rs:110-136 *)
Record verifier_pre := VerifierPre {
  vp_fixed : seq (voracle F com);
  vp_table : seq (voracle F com);
  vp_perm : seq (voracle F com);
  vp_q_blind : voracle F com }.
(** src/data_structures.rs:139-152 *)
Definition verifier_pre_wo_blind (fixed table perm : seq (voracle F com)) : verifier_pre :=
  VerifierPre fixed table perm (vo_new F Fixed "q_blind"%string (Some (pc_zero PC)) false).

(** src/turbo_plonk.rs:46-71 *)
Record tp_proof := TPProof {
  tp_witness_commitments : seq com;
  tp_witness_evals : seq F;
  tp_fixed_evals : seq F;
  tp_table_evals : seq F;
  tp_perm_evals : seq F;
  tp_q_blind_eval : F;
  tp_lookup_commitments : seq com;
  tp_lookup_z_commitments : seq com;
  tp_lookup_evals : seq F;
  tp_lookup_z_evals : seq F;
  tp_z_commitments : seq com;
  tp_z_evals : seq F;
  tp_quotient_commitments : seq com;
  tp_quotient_evals : seq F;
  tp_multiopen : mo_proof PC }.

(** src/turbo_plonk.rs:129-152: number of commitments and of field elements. *)
Definition cumulative_info (p : tp_proof) : nat * nat :=
  ((size (tp_witness_commitments p) + size (tp_lookup_commitments p)
    + size (tp_lookup_z_commitments p) + size (tp_quotient_commitments p)
    + size (tp_z_commitments p) + 1)%N,
   (size (tp_witness_evals p) + size (tp_fixed_evals p) + size (tp_table_evals p)
    + size (tp_perm_evals p) + 1 + size (tp_lookup_evals p) + size (tp_lookup_z_evals p)
    + size (tp_quotient_evals p) + size (tp_z_evals p)
    + size (mp_q_evals (tp_multiopen p)))%N).

(** src/piop/prover.rs:146-171 *)
Definition prover_permutation_round (pa : permutation_argument F) (pre : prover_pre)
    (to_copy : seq (poracle F)) (beta gamma : F) (d ext : domain F) (zk : pc_zk PC)
  : res (seq (poracle F) * pc_zk PC) :=
  if nilp to_copy then Ok ([::], zk)
  else construct_agg_polys env (@pc_zk_rand F PC) pa to_copy (pp_perm pre) beta gamma d ext zk.

(** src/piop/prover.rs:173-209: lookups in order, threading the randomness. *)
Fixpoint prover_lookup_round (pre : prover_pre) (ix : index_info F) (ws ins : seq (poracle F))
    (theta : F) (d : domain F) (ls : seq (nat * generic_lookup_vo F)) (zk : pc_zk PC)
  : res (seq (lookup_oracles (poracle F)) * pc_zk PC) :=
  match ls with
  | [::] => Ok ([::], zk)
  | (k, l) :: ls' =>
      es <- gl_get_expressions l ;;
      tqs <- gl_get_table_queries l ;;
      '(lo, zk1) <- construct_a_and_s_polys_prover env (@pc_zk_rand F PC) ws ins (pp_fixed pre)
                      (pp_table pre) (ix_usable_rows ix) k es tqs theta d (ix_ext ix) zk ;;
      '(los, zk2) <- prover_lookup_round pre ix ws ins theta d ls' zk1 ;;
      Ok (lo :: los, zk2)
  end.

(** src/piop/prover.rs:211-238 *)
Fixpoint prover_subset_round (ix : index_info F) (beta gamma : F) (d : domain F)
    (los : seq (nat * lookup_oracles (poracle F))) (zk : pc_zk PC)
  : res (seq (poracle F) * pc_zk PC) :=
  match los with
  | [::] => Ok ([::], zk)
  | (k, lo) :: los' =>
      '(z, zk1) <- se_construct_agg_poly env (@pc_zk_rand F PC) lo beta gamma k
                     (ix_usable_rows ix) d (ix_ext ix) zk ;;
      '(zs, zk2) <- prover_subset_round ix beta gamma d los' zk1 ;;
      Ok (z :: zs, zk2)
  end.

(** The powers of alpha assigned to the virtual oracles, the permutation argument and the
    lookups: src/piop/prover.rs:247-300 and src/turbo_plonk.rs:1085-1122. *)
Record alpha_powers := AlphaPowers {
  ap_vos : seq F; ap_perm : seq F; ap_lookups : seq (seq F) }.
(** src/piop/prover.rs:247-300, src/turbo_plonk.rs:1085-1122 *)
Definition alpha_schedule (alpha : F) (nvos nz nlookups : nat) : res alpha_powers :=
  let vo_alphas := powers nvos 1 alpha in
  la <- last_unwrap vo_alphas ;;
  let perm_alphas := powers (number_of_alphas nz) (la * alpha) alpha in
  let begin := match perm_alphas with [::] => la | a :: s => last a s end in
  Ok (AlphaPowers vo_alphas perm_alphas (chunks 5 (powers (5 * nlookups) begin alpha))).

(** [l0]/[lu] of src/piop/prover.rs:303-315 and src/turbo_plonk.rs:1125-1133: the polynomial
    that is 1 at row [i] and 0 at the other rows; [n] is the length of the vector. *)
Definition unit_poly (d : domain F) (n i : nat) : res (lpoly F) :=
  if (i < n)%N then Ok (ptrim (ifft d (set_nth 0 (nseq n 0) i 1))) else Panic PIndex.

(** src/piop/prover.rs:318-409, one index [i] of the extended coset. *)
Definition numerator_at (ix : index_info F) (pre : prover_pre) (ws ins : seq (poracle F))
    (to_copy zs : seq (poracle F)) (los : seq (lookup_oracles (poracle F)))
    (lzs : seq (poracle F)) (vos : seq (generic_vo F)) (beta gamma : F)
    (al : alpha_powers) (l0_coset lu_coset : seq F) (i : nat) : res F :=
  let q o r := query_in_coset o i r in
  v <- rfoldM (fun acc va =>
          e <- gv_get_expression va.1 ;;
          x <- eval_res e (query_leaf ws ins (pp_fixed pre) q q q) ;;
          Ok (acc + va.2 * x)) 0 (zip vos (ap_vos al)) ;;
  p <- (if nilp to_copy then Ok 0
        else perm_instantiate env (ix_perm ix) l0_coset lu_coset (pp_q_blind pre) to_copy
               (pp_perm pre) zs i (element (ix_ext ix) i) beta gamma (ap_perm al)) ;;
  rfoldM (fun acc lza =>
            x <- lookup_instantiate l0_coset lu_coset (pp_q_blind pre) lza.1.1 lza.1.2
                   beta gamma i lza.2 ;;
            Ok (acc + x)) (v + p) (zip (zip los lzs) (ap_lookups al)).

(** src/piop/prover.rs:430-444 *)
Definition quotient_chunk_oracle (d : domain F) (kc : nat * seq F) : poracle F :=
  let poly := ptrim kc.2 in
  Oracle ("quotient_chunk_" ++ show_nat kc.1)%string [:: curr]
    (PData Witness poly (fft d poly) None false).

(** src/piop/prover.rs:240-448 *)
Definition prover_quotient_round (vk : verifier_key F) (pre : prover_pre)
    (ws ins to_copy zs : seq (poracle F)) (los : seq (lookup_oracles (poracle F)))
    (lzs : seq (poracle F)) (vos : seq (generic_vo F)) (beta gamma alpha : F) (d : domain F)
  : res (seq (poracle F)) :=
  let ix := vk_index vk in
  let ext := ix_ext ix in
  al <- alpha_schedule alpha (size vos) (size zs) (size (ix_lookups ix)) ;;
  l0 <- unit_poly d (dsize d) 0 ;;
  lu <- unit_poly d (dsize d) (pa_usable_rows (ix_perm ix)) ;;
  nums <- rmapM (numerator_at ix pre ws ins to_copy zs los lzs vos beta gamma al
                   (coset_fft env ext l0) (coset_fft env ext lu)) (iota 0 (dsize ext)) ;;
  let qevals := [seq e.1 * e.2 | e <- zip nums (vk_zh_inverses vk)] in
  let quotient := ptrim (coset_ifft env ext qevals) in
  pad <- usub (dsize ext) (size quotient) ;;
  cs <- chunksR (dsize d) (quotient ++ nseq pad 0) ;;
  Ok [seq quotient_chunk_oracle d kc | kc <- enumerate cs].

(** [to_labeled] of a witness oracle: hiding bound 1 (src/oracles/witness.rs:82-89). *)
Definition labeled (os : seq (poracle F)) : seq (lpoly F * option nat) :=
  [seq (po_poly o, Some 1%N) | o <- os].

(** The witness oracles marked for copy constraints: src/piop/prover.rs:124-127. *)
Definition oracles_to_copy (ws : seq (poracle F)) : seq (poracle F) :=
  [seq o <- ws | pd_permute (o_data o)].

(** a' and s' of every lookup, in order: src/turbo_plonk.rs:285-287. *)
Definition lookup_primes {O} (los : seq (lookup_oracles O)) : seq O :=
  flatten [seq [:: lo_a' lo; lo_s' lo] | lo <- los].

(** src/turbo_plonk.rs:203-676. Also returns the final state of the zero-knowledge
    randomness. The mutated witness and instance oracles differ from the inputs only in
    their extended evaluations, which are recomputed by every call. *)
Definition tp_prove (ck : pc_ck PC) (vk : verifier_key F) (pre : prover_pre)
    (ws ins : seq (poracle F)) (vos : seq (generic_vo F)) (domain_size : nat) (zk : pc_zk PC)
  : res (tp_proof * pc_zk PC) :=
  let ix := vk_index vk in
  let fs := fs_init FS PROTOCOL_NAME in
  let ws := map (compute_extended_evals env (ix_ext ix)) ws in
  let ins := map (compute_extended_evals env (ix_ext ix)) ins in
  '(w_coms, w_rands, zk) <- commit_all ck (labeled ws) zk ;;
  let fs := fs_absorb fs (coms_bytes w_coms) in
  d <- opt_unwrap (domain_new env domain_size) ;;
  let to_copy := oracles_to_copy ws in
  let: (theta, fs) := fs_rand fs in
  (* lookup round *)
  '(los, zk) <- prover_lookup_round pre ix ws ins theta d (enumerate (ix_lookups ix)) zk ;;
  '(l_coms, l_rands, zk) <- commit_all ck (labeled (lookup_primes los)) zk ;;
  let fs := fs_absorb fs (coms_bytes l_coms) in
  (* permutation round *)
  let: (beta, fs) := fs_rand fs in
  let: (gamma, fs) := fs_rand fs in
  '(zs, zk) <- prover_permutation_round (ix_perm ix) pre to_copy beta gamma d (ix_ext ix) zk ;;
  '(z_coms, z_rands, zk) <- commit_all ck (labeled zs) zk ;;
  let fs := fs_absorb fs (coms_bytes z_coms) in
  (* subset equality round *)
  '(lzs, zk) <- prover_subset_round ix beta gamma d (enumerate los) zk ;;
  '(lz_coms, lz_rands, zk) <- commit_all ck (labeled lzs) zk ;;
  let fs := fs_absorb fs (coms_bytes lz_coms) in
  (* quotient round *)
  let: (alpha, fs) := fs_rand fs in
  chunks <- prover_quotient_round vk pre ws ins to_copy zs los lzs vos beta gamma alpha d ;;
  '(q_coms, q_rands, zk) <- commit_all ck (labeled chunks) zk ;;
  let fs := fs_absorb fs (coms_bytes q_coms) in
  let: (xi, fs) := fs_rand fs in
  let omegas := elements d in
  (* evaluations *)
  w_qs <- get_query_set ws xi_label xi omegas ;;
  w_evals <- evaluate_query_set ws w_qs ;;
  f_qs <- get_query_set (pp_fixed pre) xi_label xi omegas ;;
  f_evals <- evaluate_query_set (pp_fixed pre) f_qs ;;
  t_qs <- get_query_set (pp_table pre) xi_label xi omegas ;;
  t_evals <- evaluate_query_set (pp_table pre) t_qs ;;
  let omega := element d 1 in
  omega_inv <- finv omega ;;
  let l_evals := flatten [seq [:: peval (po_poly (lo_a' lo)) xi;
                                  peval (po_poly (lo_a' lo)) (xi * omega_inv);
                                  peval (po_poly (lo_s' lo)) xi] | lo <- los] in
  let lz_evals := flatten [seq [:: peval (po_poly z) xi; peval (po_poly z) (xi * omega)]
                          | z <- lzs] in
  let q_evals := [seq peval (po_poly c) xi | c <- chunks] in
  let p_evals := [seq peval (po_poly s) xi | s <- pp_perm pre] in
  z_qs <- get_query_set zs xi_label xi omegas ;;
  z_evals <- evaluate_query_set zs z_qs ;;
  let q_blind_eval := peval (po_poly (pp_q_blind pre)) xi in
  (* multiopen *)
  let oracles := ws ++ lookup_primes los ++ lzs ++ chunks ++ zs
                 ++ pp_fixed pre ++ pp_table pre ++ pp_perm pre ++ [:: pp_q_blind pre] in
  let rands := w_rands ++ l_rands ++ lz_rands ++ q_rands ++ z_rands ++ pp_empty_rands pre in
  _ <- rassert (size oracles == size rands) ;;
  '(mo, fs, zk) <- mo_prove env ck oracles rands xi domain_size fs zk ;;
  Ok (TPProof w_coms w_evals f_evals t_evals p_evals q_blind_eval l_coms lz_coms l_evals lz_evals
        z_coms z_evals q_coms q_evals mo, zk).

(** The challenges, in the order the verifier derives them: src/turbo_plonk.rs:690-768 and
    src/piop/verifier.rs:56-109. [ch_fs] is the transcript handed to the multi-opening. *)
Record challenges := Challenges {
  ch_theta : F; ch_beta : F; ch_gamma : F; ch_alpha : F; ch_xi : F; ch_fs : fs_state FS }.
(** src/turbo_plonk.rs:690-768 *)
Definition derive_challenges (p : tp_proof) : challenges :=
  let fs := fs_init FS PROTOCOL_NAME in
  let fs := fs_absorb fs (coms_bytes (tp_witness_commitments p)) in
  let: (theta, fs) := fs_rand fs in
  let fs := fs_absorb fs (coms_bytes (tp_lookup_commitments p)) in
  let: (beta, fs) := fs_rand fs in
  let: (gamma, fs) := fs_rand fs in
  let fs := fs_absorb fs (coms_bytes (tp_z_commitments p)) in
  let fs := fs_absorb fs (coms_bytes (tp_lookup_z_commitments p)) in
  let: (alpha, fs) := fs_rand fs in
  let fs := fs_absorb fs (coms_bytes (tp_quotient_commitments p)) in
  let: (xi, fs) := fs_rand fs in
  Challenges theta beta gamma alpha xi fs.

(** src/turbo_plonk.rs:771-776 *)
Fixpoint register_commitments (ws : seq (voracle F com)) (cs : seq com) : seq (voracle F com) :=
  match ws, cs with
  | w :: ws', c :: cs' => register_commitment c w :: register_commitments ws' cs'
  | _, _ => ws
  end.

(** src/turbo_plonk.rs:779-790 *)
Definition quotient_oracle_v (xi : F) (evals : seq F) (kc : nat * com) : res (voracle F com) :=
  e <- idx evals kc.1 ;;
  Ok (Oracle ("quotient_chunk_" ++ show_nat kc.1)%string [:: curr]
        (VData Witness [:: (xi, e)] (Some kc.2) false)).

(** src/turbo_plonk.rs:923-976 *)
Definition lookup_oracles_v (ws : seq (voracle F com)) (ins : seq (ioracle F))
    (pre : verifier_pre) (theta xi omega_inv : F) (omegas : seq F)
    (klce : nat * (generic_lookup_vo F * seq com * seq F)) : res (lookup_oracles (voracle F com)) :=
  let: (k, (l, cs, es)) := klce in
  exprs <- gl_get_expressions l ;;
  tqs <- gl_get_table_queries l ;;
  '(a, s) <- construct_a_and_s_verifier ws ins (vp_fixed pre) (vp_table pre) k exprs tqs
               theta xi omegas ;;
  e0 <- idx es 0 ;;
  e1 <- idx es 1 ;;
  c0 <- idx cs 0 ;;
  e2 <- idx es 2 ;;
  c1 <- idx cs 1 ;;
  Ok (LookupOracles a s
        (Oracle ("lookup_a_prime_" ++ show_nat k ++ "_poly")%string [:: curr; prev]
           (VData Witness (ains (ains [::] xi e0) (xi * omega_inv) e1) (Some c0) false))
        (Oracle ("lookup_s_prime_" ++ show_nat k ++ "_poly")%string [:: curr]
           (VData Witness [:: (xi, e2)] (Some c1) false))).

(** src/turbo_plonk.rs:996-1010 *)
Definition lookup_z_oracle_v (xi omega : F) (kce : nat * (com * seq F)) : res (voracle F com) :=
  let: (k, (c, es)) := kce in
  e0 <- idx es 0 ;;
  e1 <- idx es 1 ;;
  Ok (Oracle ("lookup_" ++ show_nat k ++ "_agg_poly")%string [:: curr; next]
        (VData Witness (ains (ains [::] xi e0) (xi * omega) e1) (Some c) false)).

(** src/turbo_plonk.rs:1026-1045 *)
Definition z_oracle_v (u nz : nat) (kc : nat * com) : voracle F com :=
  let: (k, c) := kc in
  Oracle ("agg_permutation_" ++ show_nat k)%string
    (if k != nz.-1 then sinsert rot_lt (u, Plus) [:: curr; next] else [:: curr; next])
    (@VData F com Witness [::] (Some c) false).

(** src/turbo_plonk.rs:1142-1179 *)
Definition verifier_leaf (ws : seq (voracle F com)) (ins : seq (ioracle F))
    (fs : seq (voracle F com)) (xi : F) (omegas : seq F) (q : oquery) : res F :=
  p <- compute_evaluation_point (oq_rot q) xi omegas ;;
  query_leaf ws ins fs (fun o _ => vo_query o p) (fun o _ => io_query o p)
    (fun o _ => vo_query o p) q.

(** src/turbo_plonk.rs:1085-1246: the combined identity at xi. *)
Definition quotient_check (vk : verifier_key F) (ws : seq (voracle F com)) (ins : seq (ioracle F))
    (pre : verifier_pre) (to_copy zs : seq (voracle F com))
    (los : seq (lookup_oracles (voracle F com))) (lzs chunks : seq (voracle F com))
    (vos : seq (generic_vo F)) (beta gamma alpha xi : F) (d : domain F) (domain_size : nat)
    (z_h : lpoly F) : res unit :=
  let ix := vk_index vk in
  let omegas := elements d in
  al <- alpha_schedule alpha (size vos) (size zs) (size (ix_lookups ix)) ;;
  l0 <- unit_poly d domain_size 0 ;;
  lu <- unit_poly d domain_size (pa_usable_rows (ix_perm ix)) ;;
  let l0_eval := peval l0 xi in
  let lu_eval := peval lu xi in
  v <- rfoldM (fun acc va =>
          e <- gv_get_expression va.1 ;;
          x <- eval_res e (verifier_leaf ws ins (vp_fixed pre) xi omegas) ;;
          Ok (acc + va.2 * x)) 0 (zip vos (ap_vos al)) ;;
  p <- (if nilp to_copy then Ok 0
        else perm_open (ix_perm ix) l0_eval lu_eval (vp_q_blind pre) zs (vp_perm pre) to_copy
               beta gamma d xi (ap_perm al)) ;;
  e <- rfoldM (fun acc lza =>
            x <- lookup_open l0_eval lu_eval (vp_q_blind pre) lza.1.1 lza.1.2
                   beta gamma xi d lza.2 ;;
            Ok (acc + x)) (v + p) (zip (zip los lzs) (ap_lookups al)) ;;
  let x_n := xi ^+ domain_size in
  t <- rfoldM (fun acc xc => y <- vo_query xc.2 xi ;; Ok (acc + xc.1 * y)) 0
         (zip (powers (size chunks) 1 x_n) chunks) ;;
  if e - t * peval z_h xi != 0 then Err QuotientNotZero else Ok tt.

(** src/turbo_plonk.rs:678-1279. The second component is the state of the mutable arguments
    [witness_oracles] and [preprocessed] when the call ends. A registration loop that returns
    an error would leave the oracles it had already updated; the model keeps the state from
    before that loop (for the inputs of [verifiable] that error is unreachable, see front_goes in ProofTotal.v). *)
Definition tp_verify (pvk : pc_vk PC) (vk : verifier_key F) (pre : verifier_pre)
    (proof : tp_proof) (ws : seq (voracle F com)) (ins : seq (ioracle F))
    (vos : seq (generic_vo F)) (domain_size : nat) (z_h : lpoly F)
  : res unit * (seq (voracle F com) * verifier_pre) :=
  let ix := vk_index vk in
  let lookups := ix_lookups ix in
  let ch := derive_challenges proof in
  let xi := ch_xi ch in
  let ws := register_commitments ws (tp_witness_commitments proof) in
  qchunks <-[ (ws, pre) ] rmapM (quotient_oracle_v xi (tp_quotient_evals proof))
                           (enumerate (tp_quotient_commitments proof)) ;;
  d <-[ (ws, pre) ] opt_unwrap (domain_new env domain_size) ;;
  let omegas := elements d in
  w_qs <-[ (ws, pre) ] get_query_set ws xi_label xi omegas ;;
  _ <-[ (ws, pre) ] rassert (size w_qs == size (tp_witness_evals proof)) ;;
  ws <-[ (ws, pre) ] register_evals ws MissingWitnessOracle (zip w_qs (tp_witness_evals proof)) ;;
  f_qs <-[ (ws, pre) ] get_query_set (vp_fixed pre) xi_label xi omegas ;;
  _ <-[ (ws, pre) ] rassert (size f_qs == size (tp_fixed_evals proof)) ;;
  fixed <-[ (ws, pre) ] register_evals (vp_fixed pre) MissingFixedOracle
                          (zip f_qs (tp_fixed_evals proof)) ;;
  let pre := VerifierPre fixed (vp_table pre) (vp_perm pre) (vp_q_blind pre) in
  t_qs <-[ (ws, pre) ] get_query_set (vp_table pre) xi_label xi omegas ;;
  _ <-[ (ws, pre) ] rassert (size t_qs == size (tp_table_evals proof)) ;;
  table <-[ (ws, pre) ] register_evals (vp_table pre) MissingLookupTableOracle
                          (zip t_qs (tp_table_evals proof)) ;;
  let pre := VerifierPre (vp_fixed pre) table (vp_perm pre) (vp_q_blind pre) in
  _ <-[ (ws, pre) ] rassert (size (vp_perm pre) == size (tp_perm_evals proof)) ;;
  let perm := [seq register_eval_at_challenge xi se.2 se.1
              | se <- zip (vp_perm pre) (tp_perm_evals proof)] in
  let pre := VerifierPre (vp_fixed pre) (vp_table pre) perm (vp_q_blind pre) in
  let to_copy := [seq o <- ws | vd_permute (o_data o)] in
  let omega := element d 1 in
  omega_inv <-[ (ws, pre) ] finv omega ;;
  let l_coms := chunks 2 (tp_lookup_commitments proof) in
  _ <-[ (ws, pre) ] rassert (size l_coms == size lookups) ;;
  let l_evals := chunks 3 (tp_lookup_evals proof) in
  _ <-[ (ws, pre) ] rassert (size l_evals == size lookups) ;;
  los <-[ (ws, pre) ] rmapM (lookup_oracles_v ws ins pre (ch_theta ch) xi omega_inv omegas)
                        (enumerate (zip (zip lookups l_coms) l_evals)) ;;
  let lz_evals := chunks 2 (tp_lookup_z_evals proof) in
  _ <-[ (ws, pre) ] rassert (size (tp_lookup_z_commitments proof) == size lookups) ;;
  _ <-[ (ws, pre) ] rassert (size lz_evals == size lookups) ;;
  lzs <-[ (ws, pre) ] rmapM (lookup_z_oracle_v xi omega)
                        (enumerate (zip (tp_lookup_z_commitments proof) lz_evals)) ;;
  nz <-[ (ws, pre) ] number_of_z_polys (ix_perm ix) (size to_copy) ;;
  _ <-[ (ws, pre) ] rassert (nz == size (tp_z_commitments proof)) ;;
  let zs := [seq z_oracle_v (pa_usable_rows (ix_perm ix)) nz kc
            | kc <- enumerate (tp_z_commitments proof)] in
  z_qs <-[ (ws, pre) ] get_query_set zs xi_label xi omegas ;;
  _ <-[ (ws, pre) ] rassert (size z_qs == size (tp_z_evals proof)) ;;
  zs <-[ (ws, pre) ] register_evals zs MissingPermutationOracle (zip z_qs (tp_z_evals proof)) ;;
  let pre := VerifierPre (vp_fixed pre) (vp_table pre) (vp_perm pre)
               (register_eval_at_challenge xi (tp_q_blind_eval proof) (vp_q_blind pre)) in
  _ <-[ (ws, pre) ] quotient_check vk ws ins pre to_copy zs los lzs qchunks vos
                      (ch_beta ch) (ch_gamma ch) (ch_alpha ch) xi d domain_size z_h ;;
  let oracles := ws ++ lookup_primes los ++ lzs ++ qchunks ++ zs
                 ++ vp_fixed pre ++ vp_table pre ++ vp_perm pre ++ [:: vp_q_blind pre] in
  (mo_verify env pvk (tp_multiopen proof) oracles xi domain_size (ch_fs ch), (ws, pre)).

(** [unwrap] on a [Result]: src/mock_prover.rs:121-156. *)
Definition res_unwrap {A} (r : res A) (p : panic) : res A :=
  match r with Err _ => Panic p | _ => r end.

(** src/mock_prover.rs:121-156: every error is a panic. *)
Definition mock_leaf (ws ins fixed : seq (poracle F)) (omegas : seq F) (c : F) (q : oquery)
  : res F :=
  p <- compute_evaluation_point (oq_rot q) c omegas ;;
  res_unwrap (query_leaf ws ins fixed (fun o _ => po_query o p) (fun o _ => po_query o p)
                (fun o _ => po_query o p) q) PExplicit.

(** src/mock_prover.rs:103-206. [ProverKey] and the randomness are not used. *)
Definition mock_prove (pre : prover_pre) (ws ins : seq (poracle F)) (vos : seq (generic_vo F))
    (domain_size : nat) : res unit :=
  d <- opt_unwrap (domain_new env domain_size) ;;
  let omegas := elements d in
  rfoldM (fun _ ro => rfoldM (fun _ kv =>
            e <- res_unwrap (gv_get_expression kv.2) PUnwrap ;;
            v <- eval_res e (mock_leaf ws ins (pp_fixed pre) omegas ro.2) ;;
            if v != 0 then Panic (PMock kv.1 ro.1) else Ok tt) tt (enumerate vos))
    tt (enumerate omegas).

(** src/mock_prover.rs:209-220 *)
Definition mock_verify : res unit := Ok tt.

End Protocol.
