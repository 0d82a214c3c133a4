(** Inversion of the prover: every intermediate value of a successful run, in terms of the
    challenges the verifier derives from the proof. *)
From mathcomp Require Import all_ssreflect all_algebra.
From Coq Require Import String.
From Verif Require Import Base ModelPoly ModelVO ModelOracle ModelPC ModelPermutation
  ModelLookup ModelIndexer ModelMultiproof ModelProtocol Spec SpecProtocol SpecMultiopen SpecTranscript ProofBase.

Set Implicit Arguments.
Unset Strict Implicit.
Unset Printing Implicit Defensive.

Import GRing.Theory.
Local Open Scope ring_scope.

Section Inv.
Variables (F : fieldType) (env : fenv F) (PC : pcs F).

(** The intermediate values of a run of the prover. *)
Record ptrace := PTrace {
  t_d : domain F;
  t_wr : seq (pc_rand PC); t_zk1 : pc_zk PC;
  t_los : seq (lookup_oracles (poracle F)); t_zk2 : pc_zk PC;
  t_lr : seq (pc_rand PC); t_zk3 : pc_zk PC;
  t_zs : seq (poracle F); t_zk4 : pc_zk PC;
  t_zr : seq (pc_rand PC); t_zk5 : pc_zk PC;
  t_lzs : seq (poracle F); t_zk6 : pc_zk PC;
  t_lzr : seq (pc_rand PC); t_zk7 : pc_zk PC;
  t_chunks : seq (poracle F);
  t_qr : seq (pc_rand PC); t_zk8 : pc_zk PC;
  t_wqs : seq (qentry F); t_fqs : seq (qentry F); t_tqs : seq (qentry F); t_zqs : seq (qentry F) }.

Definition t_oracles (pre : prover_pre PC) (ws : seq (poracle F)) (T : ptrace) : seq (poracle F) :=
  ws ++ lookup_primes (t_los T) ++ t_lzs T ++ t_chunks T ++ t_zs T
  ++ pp_fixed pre ++ pp_table pre ++ pp_perm pre ++ [:: pp_q_blind pre].
Definition t_rands (pre : prover_pre PC) (T : ptrace) : seq (pc_rand PC) :=
  t_wr T ++ t_lr T ++ t_lzr T ++ t_qr T ++ t_zr T ++ pp_empty_rands pre.

Section Run.
Variables (ck : pc_ck PC) (vk : verifier_key F) (pre : prover_pre PC) (ws0 ins0 : seq (poracle F))
  (vos : seq (generic_vo F)) (ds : nat) (zk : pc_zk PC).
Let ix := vk_index vk.
Let ext := ix_ext ix.
Definition ws_ext := map (compute_extended_evals env ext) ws0.
Definition ins_ext := map (compute_extended_evals env ext) ins0.
Notation ws := ws_ext.
Notation ins := ins_ext.

Record prover_trace (theta beta gamma alpha xi : F) (pf : tp_proof PC) (T : ptrace) : Prop := ProverTrace {
  pt_w : commit_all ck (labeled ws) zk = Ok (tp_witness_commitments pf, t_wr T, t_zk1 T);
  pt_d : domain_new env ds = Some (t_d T);
  pt_los : prover_lookup_round env pre ix ws ins theta (t_d T) (enumerate (ix_lookups ix)) (t_zk1 T) = Ok (t_los T, t_zk2 T);
  pt_l : commit_all ck (labeled (lookup_primes (t_los T))) (t_zk2 T) = Ok (tp_lookup_commitments pf, t_lr T, t_zk3 T);
  pt_zs : prover_permutation_round env (ix_perm ix) pre (oracles_to_copy ws) beta gamma (t_d T) ext (t_zk3 T) = Ok (t_zs T, t_zk4 T);
  pt_z : commit_all ck (labeled (t_zs T)) (t_zk4 T) = Ok (tp_z_commitments pf, t_zr T, t_zk5 T);
  pt_lzs : prover_subset_round env ix beta gamma (t_d T) (enumerate (t_los T)) (t_zk5 T) = Ok (t_lzs T, t_zk6 T);
  pt_lz : commit_all ck (labeled (t_lzs T)) (t_zk6 T) = Ok (tp_lookup_z_commitments pf, t_lzr T, t_zk7 T);
  pt_chunks : prover_quotient_round env vk pre ws ins (oracles_to_copy ws) (t_zs T) (t_los T) (t_lzs T) vos beta gamma alpha (t_d T) = Ok (t_chunks T);
  pt_q : commit_all ck (labeled (t_chunks T)) (t_zk7 T) = Ok (tp_quotient_commitments pf, t_qr T, t_zk8 T);
  pt_wqs : get_query_set ws xi_label xi (elements (t_d T)) = Ok (t_wqs T);
  pt_wevals : evaluate_query_set ws (t_wqs T) = Ok (tp_witness_evals pf);
  pt_fqs : get_query_set (pp_fixed pre) xi_label xi (elements (t_d T)) = Ok (t_fqs T);
  pt_fevals : evaluate_query_set (pp_fixed pre) (t_fqs T) = Ok (tp_fixed_evals pf);
  pt_tqs : get_query_set (pp_table pre) xi_label xi (elements (t_d T)) = Ok (t_tqs T);
  pt_tevals : evaluate_query_set (pp_table pre) (t_tqs T) = Ok (tp_table_evals pf);
  pt_winv : is_ok (finv (element (t_d T) 1));
  pt_levals : tp_lookup_evals pf = flatten [seq [:: peval (po_poly (lo_a' lo)) xi;
                 peval (po_poly (lo_a' lo)) (xi * (element (t_d T) 1)^-1); peval (po_poly (lo_s' lo)) xi] | lo <- t_los T];
  pt_lzevals : tp_lookup_z_evals pf = flatten [seq [:: peval (po_poly z) xi; peval (po_poly z) (xi * element (t_d T) 1)] | z <- t_lzs T];
  pt_qevals : tp_quotient_evals pf = [seq peval (po_poly c) xi | c <- t_chunks T];
  pt_pevals : tp_perm_evals pf = [seq peval (po_poly s) xi | s <- pp_perm pre];
  pt_zqs : get_query_set (t_zs T) xi_label xi (elements (t_d T)) = Ok (t_zqs T);
  pt_zevals : evaluate_query_set (t_zs T) (t_zqs T) = Ok (tp_z_evals pf);
  pt_qb : tp_q_blind_eval pf = peval (po_poly (pp_q_blind pre)) xi;
  pt_size : size (t_oracles pre ws T) = size (t_rands pre T) }.

Variable FS : fsrng F.
(** The prover uses the challenges the verifier derives. *)
Lemma prover_inv pf zk' :
  tp_prove env FS ck vk pre ws0 ins0 vos ds zk = Ok (pf, zk') ->
  let ch := derive_challenges FS pf in
  exists T, prover_trace (ch_theta ch) (ch_beta ch) (ch_gamma ch) (ch_alpha ch) (ch_xi ch) pf T /\
    exists fs', mo_prove env ck (t_oracles pre ws T) (t_rands pre T) (ch_xi ch) ds (ch_fs ch) (t_zk8 T) = Ok (tp_multiopen pf, fs', zk').
Proof.
rewrite /tp_prove -/ix -/ext -/ws_ext -/ins_ext.
case E1: (commit_all ck (labeled ws) zk) => [[[wc wr] zk1]|//|//] /=.
case E2: (domain_new env ds) => [d|//] /=.
set fs1 := fs_absorb _ _; case Eth: (fs_rand fs1) => [theta fs2].
case E3: (prover_lookup_round _ _ _ _ _ _ _ _ _) => [[los zk2]|//|//] /=.
case E4: (commit_all ck (labeled (lookup_primes los)) _) => [[[lc lr] zk3]|//|//] /=.
case Eb: (fs_rand _) => [beta fs3]; case Eg: (fs_rand fs3) => [gamma fs4].
case E5: (prover_permutation_round _ _ _ _ _ _ _ _ _) => [[zs zk4]|//|//] /=.
case E6: (commit_all ck (labeled zs) _) => [[[zc zr] zk5]|//|//] /=.
case E7: (prover_subset_round _ _ _ _ _ _ _) => [[lzs zk6]|//|//] /=.
case E8: (commit_all ck (labeled lzs) _) => [[[lzc lzr] zk7]|//|//] /=.
case Ea: (fs_rand _) => [alpha fs5].
case E9: (prover_quotient_round _ _ _ _ _ _ _ _ _ _ _ _ _ _) => [cs|//|//] /=.
case E10: (commit_all ck (labeled cs) _) => [[[qc qr] zk8]|//|//] /=.
case Ex: (fs_rand _) => [xi fs6].
case E11: (get_query_set ws _ _ _) => [wqs|//|//] /=; case E12: (evaluate_query_set ws _) => [we|//|//] /=.
case E13: (get_query_set (pp_fixed pre) _ _ _) => [fqs|//|//] /=; case E14: (evaluate_query_set (pp_fixed pre) _) => [fe|//|//] /=.
case E15: (get_query_set (pp_table pre) _ _ _) => [tqs|//|//] /=; case E16: (evaluate_query_set (pp_table pre) _) => [te|//|//] /=.
case E17: (finv _) => [winv|//|//] /=.
case E18: (get_query_set zs _ _ _) => [zqs|//|//] /=; case E19: (evaluate_query_set zs _) => [ze|//|//] /=.
case E20: (rassert _) => [[]|//|//] /=.
case E21: (mo_prove _ _ _ _ _ _ _ _) => [[[mo fs7] zk9]|//|//] /= [<- <-].
have Ech : derive_challenges FS (TPProof wc we fe te
   [seq peval (po_poly s) xi | s <- pp_perm pre] (peval (po_poly (pp_q_blind pre)) xi) lc lzc
   (flatten [seq [:: peval (po_poly (lo_a' lo)) xi; peval (po_poly (lo_a' lo)) (xi * winv); peval (po_poly (lo_s' lo)) xi] | lo <- los])
   (flatten [seq [:: peval (po_poly z) xi; peval (po_poly z) (xi * element d 1)] | z <- lzs])
   zc ze qc [seq peval (po_poly c) xi | c <- cs] mo) = Challenges theta beta gamma alpha xi fs6.
  by rewrite /derive_challenges /= -/fs1 Eth Eb Eg Ea Ex.
rewrite Ech /=.
exists (PTrace d wr zk1 los zk2 lr zk3 zs zk4 zr zk5 lzs zk6 lzr zk7 cs qr zk8 wqs fqs tqs zqs).
have Ew : winv = (element d 1)^-1 by move: E17; rewrite /finv; case: eqP => // _ [].
split; last by exists fs7.
split=> //=; first by rewrite E17.
  by rewrite -Ew.
by move: E20; rewrite /rassert /t_oracles /t_rands /=; case: eqP.
Qed.

(** A run can be replayed from its trace. *)
Lemma prover_replay theta beta gamma alpha xi rest pf T fs' zk' :
  prover_trace theta beta gamma alpha xi pf T ->
  mo_prove (FS := scripted [::]) env ck (t_oracles pre ws T) (t_rands pre T) xi ds rest (t_zk8 T) = Ok (tp_multiopen pf, fs', zk') ->
  tp_prove env (scripted [:: theta, beta, gamma, alpha, xi & rest]) ck vk pre ws0 ins0 vos ds zk = Ok (pf, zk').
Proof.
case=> e1 e2 e3 e4 e5 e6 e7 e8 e9 e10 e11 e12 e13 e14 e15 e16 e17 e18 e19 e20 e21 e22 e23 e24 e25 Hmo.
rewrite /tp_prove -/ix -/ext -/ws_ext -/ins_ext e1 /= e2 /= e3 /= e4 /= e5 /= e6 /= e7 /= e8 /= e9 /= e10 /=.
rewrite e11 /= e12 /= e13 /= e14 /= e15 /= e16 /=.
case E: (finv _) => [winv|//|//] /=; [|by move: e17; rewrite E..].
have Ew : winv = (element (t_d T) 1)^-1 by move: E; rewrite /finv; case: eqP => // _ [].
rewrite e22 /= e23 /= -/(t_oracles pre ws T) -/(t_rands pre T) e25 eqxx /=.
rewrite [mo_prove _ _ _ _ _ _ _ _](Hmo : _ = _) /=.
by rewrite Ew -e18 -e19 -e20 -e21 -e24; case: (pf).
Qed.
End Run.

(** The multi-opening prover uses the challenges its verifier derives. *)
Lemma mo_prove_replay (FS : fsrng F) (ck : pc_ck PC) os rs xi ds (fs fs' : fs_state FS) zk zk' pf :
  mo_prove env ck os rs xi ds fs zk = Ok (pf, fs', zk') ->
  exists fs'', mo_prove (FS := scripted [::]) env ck os rs xi ds (mo_challenges fs pf) zk = Ok (pf, fs'', zk').
Proof.
rewrite /mo_prove; case E1: (fs_rand fs) => [x1 fs1]; case E2: (fs_rand fs1) => [x2 fs2].
case Ed: (domain_new env ds) => [d|//] /=.
case Ei: (rmapM _ _) => [items|//|//] /=; case Ef: (rmapM _ items) => [fp|//|//] /=.
set fagg := foldl _ _ _.
case Es: (pc_sample _ zk) => [fr zk1] /=.
case Ec: (pc_commit1 _ _ _) => [fc|//|//] /=.
rewrite /coms_bytes /= cats0.
case E3: (fs_rand _) => [x3 fs3]; case E4: (fs_rand _) => [x4 fs4].
case Ec2: (pc_commit1 _ _ _) => [c2|//|//] /=; case Eo: (pc_open _ _ _ _) => [op|//|//] /= [<- _ <-].
have -> : mo_challenges fs (MoProof [seq peval it.1.1 x3 | it <- items] fc op) = [:: x1; x2; x3; x4].
  by rewrite /mo_challenges E1 E2 /= E3 /= E4.
exists [::]; cbn [fs_rand scripted head behead]; rewrite Ei /rbind Ef -/fagg Ec.
by rewrite /= Ec2 Eo.
Qed.
Lemma mo_verify_replay (FS : fsrng F) (pvk : pc_vk PC) pf vs xi ds (fs : fs_state FS) :
  mo_verify env pvk pf vs xi ds fs = mo_verify (FS := scripted [::]) env pvk pf vs xi ds (mo_challenges fs pf).
Proof.
rewrite /mo_verify /mo_challenges; case: (domain_new env ds) => [d|//] /=.
case E1: (fs_rand fs) => [x1 fs1]; case E2: (fs_rand fs1) => [x2 fs2] /=.
by case E3: (fs_rand _) => [x3 fs3] /=; case E4: (fs_rand _) => [x4 fs4].
Qed.
End Inv.
