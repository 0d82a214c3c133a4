(** C74: the number of usable rows is given twice, to the indexer and in the permutation info; the
    two are neither compared nor bounded. *)
From mathcomp Require Import all_ssreflect all_algebra.
From mathcomp Require Import zify.
From Verif Require Import Base ModelPoly ModelVO ModelOracle ModelPC ModelPermutation ModelLookup ModelIndexer ModelMultiproof ModelProtocol
  Spec SpecProtocol SpecPIOP SpecMultiopen SpecCircuit SpecProve ProofBase ProofPoly ProofDomain ProofColumns ProofMultiopen ProofIndexer ProofPIOP ProofPIOP2 ProofPIOP3 ProofProver ProofHonest ProofSound ProofReject ProofExact.

Set Implicit Arguments.
Unset Strict Implicit.
Unset Printing Implicit Defensive.

Import GRing.Theory.
Local Open Scope ring_scope.

(** With a lookup and as many usable rows as rows, or more, prove returns no proof. The indexer
    accepts such a circuit. *)
Theorem c74_too_many_usable_rows (F : fieldType) (env : fenv F) (PC : pcs F) (FS : fsrng F) (ck : pc_ck PC)
    (C : circuit F) (vk : verifier_key F) (zk zk' : pc_zk PC) (pf : tp_proof PC) :
  fenv_ok env -> std_domain env (c_d C) -> indexed env C vk -> (0 < size (c_lookups C))%N -> (c_rows C <= c_u C)%N ->
  tp_prove env FS ck vk (preprocessed env PC C vk) (c_ws C) (c_ins C) (c_vos C) (c_rows C) zk <> Ok (pf, zk').
Proof.
move=> eok sd ixd sl nu Hp; have [T [tr _]] := prover_inv Hp; have et := early_of tr.
have [_ uE] := usable ixd; have dE := t_dE sd et; have H := et_los et; have H2 := et_lzs et.
rewrite dE in H H2; move: H; rewrite (ix_lookupsE eok sd ixd) /enumerate.
case: (c_lookups C) sl => [//|l ls] _ /=; case: (gl_get_expressions l) => //= es; case: (gl_get_table_queries l) => //= tq.
case: (construct_a_and_s_polys_prover _ _ _ _ _ _ _ _ _ _ _ _ _ _) => //= -[lo zk1].
case: (prover_lookup_round _ _ _ _ _ _ _ _ _) => //= -[los zk2] [E _].
rewrite -E in H2; have [z Hz _] := rbind_ok H2; have [zs _ Hz1] := rbind_ok Hz.
have [zu _ Hz2] := rbind_ok Hz1; have [_ _ Hz3] := rbind_ok Hz2.
have [t1 /usub_ok[_ e1] Hz4] := rbind_ok Hz3; have [t /usub_ok[h2 _] _] := rbind_ok Hz4.
move: h2 nu; rewrite uE e1 /c_rows; have := dsize_gt0 (std_domain_ok eok sd); lia.
Qed.
Print Assumptions c74_too_many_usable_rows.

From Coq Require Import NArith String.
From Verif Require Import Field97 Concrete ProofPC ProofConcrete ProofTools ProofCheck ProofIndexerExamples Run97 PropsTranscript PropsEndToEnd PropsProve PropsUnopened PropsReject PropsVerdict.
Local Close Scope ring_scope.

(** The transition gate and the lookup of Run97.v without copy constraints. In the rows 0 to 4 the
    pair (c, d) is in the table; [u] is in the permutation info and the blinding column, [v] is given
    to the indexer. *)
Definition k_w : seq (poracle F97) :=
  [:: porc Witness 8 "a" (col [:: 3; 12; 15; 7; 1; 31; 5; 66]) false;
      porc Witness 8 "b" (col [:: 4; 3; 2; 9; 8; 17; 2; 14]) false;
      porc Witness 8 "c" (col [:: 12; 15; 5; 6; 7; 8; 20; 90]) false;
      porc Witness 8 "d" (col [:: 2; 2; 4; 5; 1; 2; 77; 4]) false].
Definition k_t : seq (poracle F97) :=
  [:: porc Fixed 8 "t1" (col [:: 15; 12; 6; 5; 7; 0; 0; 0]) false;
      porc Fixed 8 "t2" (col [:: 2; 2; 5; 4; 1; 0; 0; 0]) false].
Definition k_conf := ok_or (r_trans, r_lookup, (k_w, [::], r_f), k_t)
  (rbind (gv_configure r_trans (k_w, [::] : seq (poracle F97), r_f)) (fun '(g, st) =>
   rbind (gl_configure r_lookup st k_t) (fun '(l, st, t) => Ok (g, l, st, t)))).
Definition k_qb (u : nat) : poracle F97 := porc Fixed 8 "q_blind" [seq ((u < i)%nat%:R)%R | i <- iota 0 8] false.
Definition k_C (u v : nat) : circuit F97 :=
  Circuit k_conf.1.2.1.1 [::] k_conf.1.2.2 k_conf.2 [::] (k_qb u) [:: k_conf.1.1.1] [:: k_conf.1.1.2] r_d r_zh (PermutationInfo u [::]) v.
Definition k_vk u v := ok_or r_vk0 (ModelIndexer.index env97 (fun o : pdata F97 => pd_permute o) (c_vos (k_C u v)) (c_lookups (k_C u v))
   (c_ws (k_C u v)) (c_ins (k_C u v)) (c_fs (k_C u v)) (c_d (k_C u v)) (c_zh (k_C u v)) (c_info (k_C u v)) (c_u (k_C u v))).
Definition k_run u v zk := tp_prove env97 (PC := KZG97) FS97 srs97 (k_vk u v) (preprocessed env97 KZG97 (k_C u v) (k_vk u v)) (c_ws (k_C u v)) (c_ins (k_C u v)) (c_vos (k_C u v)) 8 zk.
Definition k_proof u v zk := (ok_or (r_dummy, 0%num) (k_run u v zk)).1.
Definition k_verify u v zk := (tp_verify env97 FS97 (PC := KZG97) srs97 (k_vk u v) (vpre97 (k_C u v)) (k_proof u v zk) (map vwit (c_ws (k_C u v))) (map vinst (c_ins (k_C u v))) (c_vos (k_C u v)) (c_rows (k_C u v)) (c_zh (k_C u v))).1.

(** The same circuit, with another number of usable rows given to the indexer. *)
Definition with_usable (F : fieldType) (C : circuit F) (v : nat) : circuit F :=
  Circuit (c_ws C) (c_ins C) (c_fs C) (c_ts C) (c_sigmas C) (c_qb C) (c_vos C) (c_lookups C) (c_d C) (c_zh C) (c_info C) v.
(** Everything C55 and C59 ask for but the last clause of [lookups_ok], and a proof returned by prove. *)
Definition provable_run (F : fieldType) (env : fenv F) (PC : pcs F) (FS : fsrng F) (ck : pc_ck PC) (pvk : pc_vk PC)
    (C : circuit F) (vk : verifier_key F) (es : seq (expr F oquery))
    (vws : seq (voracle F (pc_com PC))) (vins : seq (ioracle F)) (vpre : verifier_pre PC)
    (zk zk' : pc_zk PC) (pf : tp_proof PC) : Prop :=
  let N := dsize (ix_ext (vk_index vk)) in let n := c_rows C in let ch := derive_challenges FS pf in
  [/\ [/\ fenv_ok env, pcs_correct ck pvk, std_domain env (c_d C), indexed env C vk & laid_out C],
      [/\ gates_ok C es, forall l, occurs l (c_lookups C) -> lookup_ok C N l, vanishes_on C (iota 0 n) N &
          quotient_room C es n (pa_max_cols (ix_perm (vk_index vk))) N],
      [/\ satisfied C es (iota 0 n), lookups_hold C, copied (c_ws C) = [::] & verifier_copy ck C vws vins vpre] &
      tp_prove env FS ck vk (preprocessed env PC C vk) (c_ws C) (c_ins C) (c_vos C) n zk = Ok (pf, zk') /\
      (forall r, rot_point (dgen (c_d C)) r (ch_xi ch) != x3_of (ch_fs ch) (tp_multiopen pf))].

Lemma k_run_ok u v zk : k_run u v zk = Ok (k_proof u v zk, (ok_or (r_dummy, 0%num) (k_run u v zk)).2) ->
  indexed env97 (k_C u v) (k_vk u v) -> laid_out (k_C u v) -> dsize (ix_ext (vk_index (k_vk u v))) = dsize (ix_ext (vk_index (k_vk 5 5))) ->
  quotient_room (k_C u v) (r_exprs (k_C 5 5)) 8 (pa_max_cols (ix_perm (vk_index (k_vk u v)))) (dsize (ix_ext (vk_index (k_vk u v)))) ->
  lookups_hold (k_C u v) -> verifier_copy (PC := KZG97) srs97 (k_C u v) (map vwit (c_ws (k_C 5 5))) (map vinst (c_ins (k_C 5 5))) (vpre97 (k_C u v)) ->
  (forall r, rot_point (dgen (c_d (k_C u v))) r (ch_xi (derive_challenges FS97 (k_proof u v zk))) !=
     x3_of (ch_fs (derive_challenges FS97 (k_proof u v zk))) (tp_multiopen (k_proof u v zk))) ->
  provable_run env97 FS97 (PC := KZG97) srs97 srs97 (k_C u v) (k_vk u v) (r_exprs (k_C 5 5)) (map vwit (c_ws (k_C 5 5))) (map vinst (c_ins (k_C 5 5)))
    (vpre97 (k_C u v)) zk (ok_or (r_dummy, 0%num) (k_run u v zk)).2 (k_proof u v zk).
Proof.
move=> Hp ixd lay NE room lkh copy x3; have dok := std_domain_ok env97_ok dom97_8.
have r8 : c_rows (k_C u v) = 8 by apply/eqP; vm_compute.
rewrite /provable_run r8; split; [split|split|split|split].
- exact: env97_ok.
- exact: law97.
- exact: dom97_8.
- exact: ixd.
- exact: lay.
- have G : gates_ok (k_C 5 5) (r_exprs (k_C 5 5)) by apply: gates_okP; vm_compute.
  exact: G.
- rewrite NE; have [L _] : lookups_ok (k_C 5 5) (dsize (ix_ext (vk_index (k_vk 5 5)))) by apply: lookups_okP; vm_compute.
  exact: L.
- rewrite -r8; apply: vanishes_everywhere; first exact: dok.
  exact: (@Poly_vanishing F97 r_d (dsize_gt0 dok)).
- exact: room.
- have S : satisfied (k_C 5 5) (r_exprs (k_C 5 5)) (iota 0 8) by apply: satisfiedP; vm_compute.
  exact: S.
- exact: lkh.
- have N0 : nilp (copied (c_ws (k_C 5 5))) by vm_compute.
  by move/nilP: N0.
- exact: copy.
- exact: Hp.
- exact: x3.
Qed.

(** A circuit as in C55, whose lookup holds both for the number of usable rows in the permutation
    info and for one fewer. When the indexer is given one fewer, the honest proof is rejected. *)
Theorem c74_row_counts_disagree :
  exists (F : fieldType) (env : fenv F) (PC : pcs F) (FS : fsrng F) (ck : pc_ck PC) (pvk : pc_vk PC)
    (C : circuit F) (vk : verifier_key F) (es : seq (expr F oquery))
    (vws : seq (voracle F (pc_com PC))) (vins : seq (ioracle F)) (vpre : verifier_pre PC)
    (zk zk' : pc_zk PC) (pf : tp_proof PC),
  let N := dsize (ix_ext (vk_index vk)) in let n := c_rows C in let C' := with_usable C (c_u C).-1 in
  [/\ [/\ lookups_ok C N, lookups_hold C, 0 < c_u C' & ~~ nilp (c_lookups C')],
      provable_run env FS ck pvk C' vk es vws vins vpre zk zk' pf &
      (tp_verify env FS pvk vk vpre pf vws vins (c_vos C') n (c_zh C')).1 = Err QuotientNotZero].
Proof.
exists F97, env97, KZG97, FS97, srs97, srs97, (k_C 5 5), (k_vk 5 4), (r_exprs (k_C 5 5)), (map vwit (c_ws (k_C 5 5))), (map vinst (c_ins (k_C 5 5))),
  (vpre97 (k_C 5 4)), 42%num, (ok_or (r_dummy, 0%num) (k_run 5 4 42%num)).2, (k_proof 5 4 42%num) => N n C'.
have dok := std_domain_ok env97_ok dom97_8; have r8 : n = 8 by apply/eqP; vm_compute.
split; [split| |].
- by apply: lookups_okP; vm_compute.
- by apply: lookups_holdP; vm_compute.
- by vm_compute.
- by vm_compute.
- rewrite -[C']/(k_C 5 4); apply: k_run_ok.
  + have H : ok_any (k_run 5 4 42%num) by vm_compute.
    by rewrite {1}(ok_anyP (r_dummy, 0%num) H) /k_proof; case: (ok_or _ _).
  + by apply: (ok_anyP r_vk0); vm_compute.
  + by apply: laid_outP; vm_compute.
  + by apply/eqP; vm_compute.
  + by apply: quotient_roomP; vm_compute.
  + by apply: lookups_holdP; vm_compute.
  + by apply: copy97; vm_compute.
  + by apply: (x3_clear (C := k_C 5 4) dok); vm_compute.
- by rewrite r8; vm_compute.
Qed.
Print Assumptions c74_row_counts_disagree.

(** With no usable row the two numbers agree, the lookup demands nothing, and the honest proof is
    rejected. *)
Theorem c74_no_usable_rows :
  exists (F : fieldType) (env : fenv F) (PC : pcs F) (FS : fsrng F) (ck : pc_ck PC) (pvk : pc_vk PC)
    (C : circuit F) (vk : verifier_key F) (es : seq (expr F oquery))
    (vws : seq (voracle F (pc_com PC))) (vins : seq (ioracle F)) (vpre : verifier_pre PC)
    (zk zk' : pc_zk PC) (pf : tp_proof PC),
  [/\ pi_u (c_info C) = 0 /\ c_u C = 0, ~~ nilp (c_lookups C),
      provable_run env FS ck pvk C vk es vws vins vpre zk zk' pf &
      (tp_verify env FS pvk vk vpre pf vws vins (c_vos C) (c_rows C) (c_zh C)).1 = Err QuotientNotZero].
Proof.
exists F97, env97, KZG97, FS97, srs97, srs97, (k_C 0 0), (k_vk 0 0), (r_exprs (k_C 5 5)), (map vwit (c_ws (k_C 5 5))), (map vinst (c_ins (k_C 5 5))),
  (vpre97 (k_C 0 0)), 11%num, (ok_or (r_dummy, 0%num) (k_run 0 0 11%num)).2, (k_proof 0 0 11%num).
have dok := std_domain_ok env97_ok dom97_8; have r8 : c_rows (k_C 0 0) = 8 by apply/eqP; vm_compute.
split; [by split|by vm_compute| |by rewrite r8; vm_compute].
apply: k_run_ok.
- have H : ok_any (k_run 0 0 11%num) by vm_compute.
  by rewrite {1}(ok_anyP (r_dummy, 0%num) H) /k_proof; case: (ok_or _ _).
- by apply: (ok_anyP r_vk0); vm_compute.
- by apply: laid_outP; vm_compute.
- by apply/eqP; vm_compute.
- by apply: quotient_roomP; vm_compute.
- by apply: lookups_holdP; vm_compute.
- by apply: copy97; vm_compute.
- by apply: (x3_clear (C := k_C 0 0) dok); vm_compute.
Qed.
Print Assumptions c74_no_usable_rows.

(** With four or five usable rows in both places the proof is accepted, with four and five it is not;
    the indexer accepts eight usable rows out of eight, and prove panics. *)
Example ex_c74_counts : [/\ k_verify 5 5 11%num = Ok tt, k_verify 4 4 11%num = Ok tt, k_verify 5 4 42%num = Err QuotientNotZero &
  k_verify 4 5 40%num = Err QuotientNotZero].
Proof. by vm_compute. Qed.
Lemma k_index8 : indexed env97 (k_C 5 8) (k_vk 5 8).
Proof. by apply: (ok_anyP r_vk0); vm_compute. Qed.
Example ex_c74_too_many (FS : fsrng F97) zk pf zk' :
  tp_prove env97 FS (PC := KZG97) srs97 (k_vk 5 8) (preprocessed env97 KZG97 (k_C 5 8) (k_vk 5 8)) (c_ws (k_C 5 8)) (c_ins (k_C 5 8)) (c_vos (k_C 5 8)) (c_rows (k_C 5 8)) zk <> Ok (pf, zk').
Proof. exact (@c74_too_many_usable_rows F97 env97 KZG97 FS srs97 (k_C 5 8) (k_vk 5 8) zk zk' pf env97_ok dom97_8 k_index8 isT isT). Qed.
