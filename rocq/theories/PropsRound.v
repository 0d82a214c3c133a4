(** Property theorems C66: prove and verify treat a domain_size that is not a power of two differently. *)
From mathcomp Require Import all_ssreflect all_algebra.
From mathcomp Require Import zify.
From Verif Require Import Base ModelPoly ModelVO ModelOracle ModelPC ModelPermutation ModelLookup ModelIndexer ModelMultiproof ModelProtocol
  Spec SpecProtocol SpecPIOP SpecMultiopen ProofBase ProofPoly ProofDomain ProofLookup ProofColumns ProofPermutation ProofProver ProofFront ProofInstances ProofEach ProofComplete.

Set Implicit Arguments.
Unset Strict Implicit.
Unset Printing Implicit Defensive.

Import GRing.Theory.
Local Open Scope ring_scope.

(** [n] is the least power of two that is at least [m]. *)
Definition rounds_up (m n : nat) : Prop := (exists k, n = 2 ^ k)%N /\ (m <= n < 2 * m)%N.

Section Round.
Variables (F : fieldType) (env : fenv F) (m n : nat).
Hypothesis mn : rounds_up m n.

Lemma rounds_log : up_log 2 m = up_log 2 n.
Proof.
have [[k ->] /andP[h1 h2]] := mn; rewrite up_expnK //; case: k h1 h2 => [|k] h1 h2.
  by have -> : m = 1%N by rewrite expn0 in h1 h2; lia.
by apply: up_log_eq => //; rewrite expnS in h1 h2 *; apply/andP; split; lia.
Qed.
Lemma rounds_domain : domain_new env m = domain_new env n.
Proof. by rewrite /domain_new rounds_log. Qed.

(** prove, and MockProver::prove, do what they do with the next power of two. *)
Theorem c66_prove_rounds_up (PC : pcs F) (FS : fsrng F) (ck : pc_ck PC) (vk : verifier_key F) (pre : prover_pre PC)
    (ws ins : seq (poracle F)) (vos : seq (generic_vo F)) (zk : pc_zk PC) :
  tp_prove env FS ck vk pre ws ins vos m zk = tp_prove env FS ck vk pre ws ins vos n zk /\
  mock_prove env pre ws ins vos m = mock_prove env pre ws ins vos n.
Proof. by rewrite /tp_prove /mock_prove /mo_prove rounds_domain. Qed.

Variables (PC : pcs F) (FS : fsrng F) (pvk : pc_vk PC) (vk : verifier_key F) (pre : verifier_pre PC) (proof : tp_proof PC)
  (ws : seq (voracle F (pc_com PC))) (ins : seq (ioracle F)) (vos : seq (generic_vo F)) (z_h : lpoly F).

Lemma unit_poly_short (d : domain F) i : dsize d = n -> (i < m)%N -> unit_poly d m i = unit_poly d n i.
Proof.
move=> dn Hi; have [_ /andP[h1 _]] := mn; have Hn := leq_trans Hi h1.
rewrite /unit_poly Hi Hn; congr (Ok (ptrim _)); rewrite /ifft !take_oversize ?size_set_nth ?size_nseq ?dn; try by rewrite geq_max ?Hn ?h1 ?leqnn.
apply: eq_map => x; congr (_ * _); rewrite !pevalE; congr (_.[_]); apply/polyP => j.
by rewrite !coef_Poly !nth_set_nth /= !nth_nseq; case: eqP => // _; case: ifP; case: ifP.
Qed.

Lemma rounds_size (d : domain F) : domain_new env n = Some d -> dsize d = n.
Proof. by rewrite /domain_new; have [[k ->] _] := mn; rewrite up_expnK //; case: ifP => // _ [<-]. Qed.

Lemma occurs_zip2 A B (s : seq A) (t : seq B) x y : occurs (x, y) (zip s t) -> occurs y t.
Proof. by elim: s t => [|a s IH] [|b t] //= [[_ ->]|/IH]; [left|right]. Qed.

Lemma chunks_sum xi (qe : seq F) (Q : seq (pc_com PC)) qc y : rmapM (quotient_oracle_v xi qe) (enumerate Q) = Ok qc ->
  rfoldM (fun acc xc => z <- vo_query xc.2 xi ;; Ok (acc + xc.1 * z)) 0 (zip (powers (size qc) 1 y) qc) = Ok (\sum_(i < size Q) y ^+ i * qe`_i).
Proof.
move=> E; have sq : size qc = size Q by rewrite (rmapM_ok E) size_enumerate.
have at_ k v : idx qc k = Ok v -> vo_query v xi = Ok qe`_k.
  move=> Hv; have [c Hc] : exists c, idx Q k = Ok c by apply: idx_some; rewrite -sq; exact: idx_lt Hv.
  have := each2_idx (rmapM_each E) _ Hv; rewrite idx_enumerate Hc => /(_ _ erefl); rewrite /quotient_oracle_v; cbn [fst snd] => H.
  have {H} [e He H] := rbind_ok H; by rewrite -(Ok_inj H) /vo_query /= eqxx (idx_ok_nth 0 He).
rewrite (@rfoldM_sum _ _ _ (fun xc => xc.1 * ok_or 0 (vo_query xc.2 xi))) => [|st [x v] Hxv]; last first.
  by have [k Hk] := occurs_ex_idx (occurs_zip2 Hxv); rewrite /= (at_ _ _ Hk).
rewrite add0r; congr Ok; case: qc sq at_ {E} => [|v0 qc] sq at_.
  by rewrite /= big_nil -sq big_ord0.
rewrite (sum_zip_ord _ 0 v0) ?size_powers // sq; apply: eq_bigr => i _.
have Hi : (i < size (v0 :: qc))%N by rewrite sq.
by rewrite nth_powers ?mul1r -?sq //= (at_ i) //; exact: idx_nth.
Qed.

(** A proof that verify accepts with the power of two: with [m] it panics when the usable rows do not fit, and otherwise
    accepts exactly when the powers of xi to the [m] recombine the quotient to the same value. *)
Theorem c66_verify_does_not :
  let xi := ch_xi (derive_challenges FS proof) in
  let quotient y := \sum_(i < size (tp_quotient_commitments proof)) y ^+ i * (tp_quotient_evals proof)`_i in
  (tp_verify env FS pvk vk pre proof ws ins vos n z_h).1 = Ok tt ->
  (tp_verify env FS pvk vk pre proof ws ins vos m z_h).1 =
    if (m <= pa_usable_rows (ix_perm (vk_index vk)))%N then Panic PIndex
    else if quotient (xi ^+ m) * peval z_h xi == quotient (xi ^+ n) * peval z_h xi then Ok tt else Err QuotientNotZero.
Proof.
move=> xi quotient Hv; have {}Hv := etrans (esym (proj1 (verify_frontE _ _ _ _ _ _ _ _ _ _ _))) Hv.
have {Hv} [T Hf Hv] := rbind_ok Hv; have {Hv} [[] Hq Hm] := rbind_ok Hv.
apply: (etrans (proj1 (verify_frontE _ _ _ _ _ _ _ _ _ _ _))).
have -> : verify_front env vk pre proof ws ins m (ch_theta (derive_challenges FS proof)) (ch_xi (derive_challenges FS proof)) =
          verify_front env vk pre proof ws ins n (ch_theta (derive_challenges FS proof)) (ch_xi (derive_challenges FS proof)).
  by rewrite /verify_front rounds_domain.
rewrite Hf rbind_Ok.
have -> : mo_verify env pvk (tp_multiopen proof) (vt_oracles T) (ch_xi (derive_challenges FS proof)) m (ch_fs (derive_challenges FS proof)) = Ok tt.
  by rewrite /mo_verify rounds_domain.
have [dn Ec] : dsize (vt_d T) = n /\
    rmapM (quotient_oracle_v xi (tp_quotient_evals proof)) (enumerate (tp_quotient_commitments proof)) = Ok (vt_chunks T).
  move: Hf; rewrite /verify_front => H; have {H} [q Hc H] := rbind_ok H; have {H} [d Ed H] := rbind_ok H.
  do 22 (let x := fresh "x" in let Ex := fresh "Ex" in have {H} [x Ex H] := rbind_ok H).
  rewrite -(Ok_inj H); split; last exact: Hc.
  by apply: rounds_size; case: (domain_new env n) Ed => //= ? [->].
have [[k E2] /andP[h1 h2]] := mn; have m0 : (0 < m)%N by rewrite E2 in h2; have := expn_gt0 2 k; lia.
move: Hq; rewrite /vt_check /quotient_check -/xi.
case: (alpha_schedule _ _ _ _) => // al; rewrite !rbind_Ok (unit_poly_short dn m0).
case: (unit_poly _ _ 0) => // l0; rewrite !rbind_Ok.
case: (leqP m _) => Hu; first by rewrite {2}/unit_poly ltnNge Hu.
rewrite (unit_poly_short dn Hu); case: (unit_poly _ _ _) => // lu; rewrite !rbind_Ok.
case: (rfoldM _ _ _) => // v; rewrite !rbind_Ok; case: (if _ then _ else _) => // pp; rewrite !rbind_Ok.
case: (rfoldM _ _ _) => // e; rewrite !rbind_Ok !(chunks_sum _ Ec) !rbind_Ok -/(quotient _) -/(quotient _).
case: eqP => // /eqP; rewrite subr_eq0 => /eqP -> _; rewrite subr_eq0 eq_sym; by case: eqP.
Qed.
End Round.
Print Assumptions c66_prove_rounds_up.
Print Assumptions c66_verify_does_not.

(** ** Concrete cases: the proof of Run97.v, for eight rows of which five are usable *)
From Coq Require Import NArith String.
From Verif Require Import Field97 Concrete ProofPC ProofConcrete ProofTools ProofIndexerExamples Run97 PropsTranscript PropsEndToEnd.
Local Close Scope ring_scope.

Lemma sum_foldr (f : nat -> F97) k : (\sum_(i < k) f i = foldr (fun i q => f i + q) 0 (iota 0 k))%R.
Proof. by rewrite -(big_mkord xpredT f) /index_iota subn0 unlock; elim: (iota 0 k) => //= i s ->. Qed.
Example ex_c66_seven : rounds_up 7 8 /\
  (tp_verify env97 FS97 (PC := KZG97) srs97 r_vk r_vpre r_proof r_vws r_vins r_vos 7 r_zh).1 = Err QuotientNotZero.
Proof.
have mn : rounds_up 7 8 by split; [exists 3|].
split; first exact mn.
rewrite (@c66_verify_does_not F97 env97 7 8 mn KZG97 FS97 srs97 r_vk r_vpre r_proof r_vws r_vins r_vos r_zh ex_c44).
have -> : (7 <= pa_usable_rows (ix_perm (vk_index r_vk))) = false by vm_compute.
rewrite (sum_foldr (fun i => (ch_xi (derive_challenges FS97 r_proof) ^+ 7) ^+ i * nth 0 (tp_quotient_evals r_proof) i)%R).
rewrite (sum_foldr (fun i => (ch_xi (derive_challenges FS97 r_proof) ^+ 8) ^+ i * nth 0 (tp_quotient_evals r_proof) i)%R).
set b := (_ == _); have Eb : b = false by rewrite /b; vm_compute.
by rewrite Eb.
Qed.
Example ex_c66_five : rounds_up 5 8 /\
  (tp_verify env97 FS97 (PC := KZG97) srs97 r_vk r_vpre r_proof r_vws r_vins r_vos 5 r_zh).1 = Panic PIndex.
Proof.
have mn : rounds_up 5 8 by split; [exists 3|].
split; first exact mn.
rewrite (@c66_verify_does_not F97 env97 5 8 mn KZG97 FS97 srs97 r_vk r_vpre r_proof r_vws r_vins r_vos r_zh ex_c44).
by have -> : (5 <= pa_usable_rows (ix_perm (vk_index r_vk))) = true by vm_compute.
Qed.
