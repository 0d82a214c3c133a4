(** Lengths of the lists the prover builds. *)
From mathcomp Require Import all_ssreflect all_algebra zify.
From Verif Require Import Base ModelPoly ModelVO ModelOracle ModelPC ModelPermutation ModelLookup ModelIndexer ModelMultiproof ModelProtocol
  Spec SpecProtocol SpecTranscript SpecProver ProofBase ProofPoly ProofIndexer ProofProver ProofInstances.

Set Implicit Arguments.
Unset Strict Implicit.
Unset Printing Implicit Defensive.

Import GRing.Theory.
Local Open Scope ring_scope.

Section Counts.
Variables (F : fieldType) (env : fenv F) (PC : pcs F).

Lemma commit_all_size (ck : pc_ck PC) ps zk cs rs zk' : commit_all ck ps zk = Ok (cs, rs, zk') -> size cs = size ps /\ size rs = size ps.
Proof.
elim: ps zk cs rs zk' => [|[p h] ps IH] zk cs rs zk' /=; first by case=> <- <-.
case: (pc_sample h zk) => r zk1 H; have [c _ H1] := rbind_ok H; have [[[cs1 rs1] zk2] H2 [<- <- _]] := rbind_ok H1.
by rewrite /=; have [-> ->] := IH _ _ _ _ H2.
Qed.
Lemma size_labeled (os : seq (poracle F)) : size (labeled os) = size os. Proof. by rewrite size_map. Qed.
Lemma size_lookup_primes O (los : seq (lookup_oracles O)) : size (lookup_primes los) = (2 * size los)%N.
Proof. by rewrite /lookup_primes; elim: los => //= lo los ->; rewrite mulnS. Qed.

Lemma lookup_round_size (pre : prover_pre PC) ix ws ins theta d ls zk los zk' :
  prover_lookup_round env pre ix ws ins theta d ls zk = Ok (los, zk') -> size los = size ls.
Proof.
elim: ls zk los zk' => [|[k l] ls IH] zk los zk' /=; first by case=> <-.
move=> H; have [es _ H1] := rbind_ok H; have [tqs _ H2] := rbind_ok H1; have [[lo zk1] _ H3] := rbind_ok H2.
by have [[los1 zk2] /IH E [<- _]] := rbind_ok H3; rewrite /= E.
Qed.
Lemma subset_round_size (ix : index_info F) beta gamma d los (zk : pc_zk PC) zs zk' :
  prover_subset_round env ix beta gamma d los zk = Ok (zs, zk') -> size zs = size los.
Proof.
elim: los zk zs zk' => [|[k l] ls IH] zk zs zk' /=; first by case=> <-.
move=> H; have [[z zk1] _ H3] := rbind_ok H.
by have [[zs1 zk2] /IH E [<- _]] := rbind_ok H3; rewrite /= E.
Qed.

Lemma ceil_bounds k m : (0 < m)%N -> (k <= cdiv k m * m < k + m)%N.
Proof.
move=> m0; rewrite /cdiv mulnDl; have := ltn_pmod k m0; have := divn_eq k m.
case: eqP => [->|H] /=; first by lia.
by move: (k %/ m * m)%N (k %% m)%N H => a b; lia.
Qed.

Lemma permutation_round_size (pa : permutation_argument F) (pre : prover_pre PC) tc beta gamma d ext zk zs zk' :
  prover_permutation_round env pa pre tc beta gamma d ext zk = Ok (zs, zk') ->
  (tc = [::] /\ zs = [::]) \/ [/\ (0 < size tc)%N, (0 < pa_max_cols pa)%N & (size tc <= size zs * pa_max_cols pa < size tc + pa_max_cols pa)%N].
Proof.
rewrite /prover_permutation_round; case: tc => [|o tc] /=; first by case=> <-; left.
move=> H; right; have := construct_agg_size H; rewrite /number_of_z_polys /= /udiv /umod; case: eqP => //= m0 [<-].
have m1 : (0 < pa_max_cols pa)%N by rewrite lt0n; apply/eqP.
split=> //; have := @ceil_bounds (size tc).+1 _ m1; rewrite /cdiv.
by case: eqP => /= _; rewrite ?addn0 ?addn1.
Qed.

Lemma quotient_round_size vk (pre : prover_pre PC) ws ins tc zs los lzs vos beta gamma alpha d cs :
  prover_quotient_round env vk pre ws ins tc zs los lzs vos beta gamma alpha d = Ok cs ->
  (0 < dsize d)%N /\ (dsize (ix_ext (vk_index vk)) <= size cs * dsize d < dsize (ix_ext (vk_index vk)) + dsize d)%N.
Proof.
move=> H; have [al _ H1] := rbind_ok H; have [l0 _ H2] := rbind_ok H1; have [lu _ H3] := rbind_ok H2.
have [nums _ H4] := rbind_ok H3; have [pad /usub_ok[le ->] H5] := rbind_ok H4.
have [ch Hc [<-]] := rbind_ok H5; move: Hc; rewrite /chunksR; case: eqP => // d0 [<-].
have d1 : (0 < dsize d)%N by rewrite lt0n; apply/eqP.
rewrite size_map size_enumerate size_chunks // size_cat size_nseq subnKC //; split=> //; exact: ceil_bounds.
Qed.

Section Run.
Variables (ck : pc_ck PC) (vk : verifier_key F) (ws0 ins0 : seq (poracle F))
  (vos : seq (generic_vo F)) (ds : nat) (zk : pc_zk PC).

Lemma trace_counts pre theta beta gamma alpha xi pf T :
  prover_trace env ck vk pre ws0 ins0 vos ds zk theta beta gamma alpha xi pf T ->
  [/\ size (tp_witness_commitments pf) = size ws0,
      size (tp_lookup_commitments pf) = (2 * size (ix_lookups (vk_index vk)))%N,
      size (tp_lookup_z_commitments pf) = size (ix_lookups (vk_index vk)),
      size (tp_z_commitments pf) = size (t_zs T) & size (tp_quotient_commitments pf) = size (t_chunks T)] /\
  [/\ size (tp_lookup_evals pf) = (3 * size (ix_lookups (vk_index vk)))%N,
      size (tp_lookup_z_evals pf) = (2 * size (ix_lookups (vk_index vk)))%N,
      size (tp_quotient_evals pf) = size (t_chunks T) & size (tp_perm_evals pf) = size (pp_perm pre)].
Proof.
move=> H.
have [w1 _] := commit_all_size (pt_w H); have [l1 _] := commit_all_size (pt_l H).
have [z1 _] := commit_all_size (pt_z H); have [lz1 _] := commit_all_size (pt_lz H); have [q1 _] := commit_all_size (pt_q H).
have sl := lookup_round_size (pt_los H); have slz := subset_round_size (pt_lzs H).
rewrite size_enumerate in sl; rewrite size_enumerate in slz.
split; split.
- by rewrite w1 size_labeled size_map.
- by rewrite l1 size_labeled size_lookup_primes sl.
- by rewrite lz1 size_labeled slz sl.
- by rewrite z1 size_labeled.
- by rewrite q1 size_labeled.
- by rewrite (pt_levals H) -sl; elim: (t_los T) => //= lo los ->; rewrite mulnS.
- by rewrite (pt_lzevals H) -sl -slz; elim: (t_lzs T) => //= lo los ->; rewrite mulnS.
- by rewrite (pt_qevals H) size_map.
- by rewrite (pt_pevals H) size_map.
Qed.

Variables (FS : fsrng F) (fixed perm table : seq (poracle F)) (q_blind : poracle F) (ix : index_info F).
Let pre := prover_pre_new env PC fixed perm table q_blind ix.
Lemma unassertedE : tp_prove env FS ck vk pre ws0 ins0 vos ds zk = tp_prove_unasserted env FS ck vk pre ws0 ins0 vos ds zk.
Proof.
rewrite /tp_prove /tp_prove_unasserted.
apply: rbind_congr => -[[wc wr] zk1] E1; have [_ r1] := commit_all_size E1.
apply: rbind_congr => d _; case: (fs_rand _) => theta fs2.
apply: rbind_congr => -[los zk2] E2.
apply: rbind_congr => -[[lc lr] zk3] E3; have [_ r2] := commit_all_size E3.
case: (fs_rand _) => beta fs3; case: (fs_rand _) => gamma fs4.
apply: rbind_congr => -[zs zk4] E4.
apply: rbind_congr => -[[zc zr] zk5] E5; have [_ r3] := commit_all_size E5.
apply: rbind_congr => -[lzs zk6] E6.
apply: rbind_congr => -[[lzc lzr] zk7] E7; have [_ r4] := commit_all_size E7.
case: (fs_rand _) => alpha fs5.
apply: rbind_congr => cs E8.
apply: rbind_congr => -[[qc qr] zk8] E9; have [_ r5] := commit_all_size E9.
case: (fs_rand _) => xi fs6.
apply: rbind_congr => wqs _; apply: rbind_congr => we _; apply: rbind_congr => fqs _; apply: rbind_congr => fe _.
apply: rbind_congr => tqs _; apply: rbind_congr => te _; apply: rbind_congr => winv _.
apply: rbind_congr => zqs _; apply: rbind_congr => ze _.
set os := _ ++ lookup_primes los ++ _; set rs := wr ++ _.
have -> : size os == size rs; last by [].
rewrite /os /rs !size_cat r1 r2 r3 r4 r5 !size_labeled /pre /= !size_map size_nseq.
by apply/eqP; lia.
Qed.
End Run.
End Counts.
