(** Properties the verifier does not have, and what it does guarantee: C30, C45, C48. *)
From mathcomp Require Import all_ssreflect all_algebra zify.
From Coq Require Import String Lia.
From Verif Require Import Base ModelPoly ModelVO ModelOracle ModelPC ModelPermutation ModelLookup
  ModelIndexer ModelMultiproof ModelProtocol Spec SpecProtocol SpecPIOP SpecMultiopen SpecCircuit SpecSound SpecShape
  ProofBase ProofPoly ProofDomain ProofVO ProofOracle ProofPermutation ProofIndexer ProofLookup ProofColumns ProofOpen
  ProofVerifierCols ProofPIOP ProofPIOP2 ProofForge ProofTotal3.

Set Implicit Arguments.
Unset Strict Implicit.
Unset Printing Implicit Defensive.

Import GRing.Theory.
Local Open Scope ring_scope.

(** ** C30 *)
(** Refutation on the check the verifier makes. The circuit was indexed with [PermutationInfo::dummy()] and
    has no copied column; [A] satisfies the gates, and its lookup columns [a], [s] are arbitrary: no row
    of [a] need be in the table. A cheating prover commits, in place of permuted columns, to
    constants (before beta and gamma are drawn), then to products [lzs] (before alpha), then to
    chunks [ts] (before xi), and the verifier's quotient check passes for every xi. *)
Theorem c30_verifier_accepts_refuted (F : fieldType) (env : fenv F) (PC : pcs F) (d : domain F) (vk : verifier_key F)
    (vos : seq (generic_vo F)) (es : seq (expr F oquery)) (lookups : seq (generic_lookup_vo F))
    (A : assignment F) (z_h : lpoly F) (usable_rows : nat) (c0 : F) (rows : seq nat) (c : F) :
  let ix := vk_index vk in let n := dsize d in let w := dgen d in
  fenv_ok env -> std_domain env d ->
  ModelIndexer.index env (fun o : pdata F => pd_permute o) vos lookups (as_ws A) (as_ins A) (as_fs A) d z_h
    (permutation_info_dummy F) usable_rows = Ok vk ->
  (usable_rows.+1 < n)%N ->
  (forall i, (i < n)%N -> (opoly (as_qb A)).[w ^+ i] = (usable_rows < i)%N%:R) ->
  map (@gv_get_expression F) vos = map Ok es -> (0 < size vos)%N ->
  exprs_ok (as_ws A) (as_ins A) (as_fs A) n es -> exprs_declared (as_ws A) (as_fs A) es ->
  uniq (map (@o_label _) (as_ws A)) -> uniq (map (@o_label _) (as_ins A)) -> uniq (map (@o_label _) (as_fs A)) ->
  copied (as_ws A) = [::] -> size (as_los A) = size lookups ->
  c0 != 0 -> uniq rows -> (forall i, i \in rows -> (i < n)%N) -> Poly z_h = c0 *: \prod_(i <- rows) ('X - (w ^+ i)%:P) ->
  (forall e i, occurs e es -> i \in rows -> (expr_poly (as_ws A) (as_ins A) (as_fs A) w e).[w ^+ i] = 0) ->
  exists los, [/\ map (@lo_a _) los = map (@lo_a _) (as_los A), map (@lo_s _) los = map (@lo_s _) (as_los A) &
  forall beta gamma, c + beta != 0 -> c + gamma != 0 -> exists lzs, forall alpha, exists ts,
  forall xi (v : view F (pc_com PC)) vpre,
    sees w xi (pa_usable_rows (ix_perm ix)) v
      (Assignment (as_ws A) (as_ins A) (as_fs A) (as_qb A) (as_sigmas A) [::] los lzs) ts ->
    vp_fixed vpre = v_fs v -> vp_perm vpre = v_sigmas v -> vp_q_blind vpre = v_qb v ->
    quotient_check vk (v_ws v) (v_ins v) vpre (v_copied v) (v_zs v) (v_los v) (v_lzs v) (v_chunks v) vos beta gamma alpha xi d n z_h
    = Ok tt].
Proof.
move=> ix n w eok sd Hix un bl ev k0 eqok dec uw ui uf nc sl nz ur rn zE gates.
have [qd [_ [_ lE] _ _ _]] := index_inv eok sd Hix.
have u0 : pa_usable_rows (ix_perm ix) = 0%N.
  rewrite /ix; move: Hix; rewrite /ModelIndexer.index => H; have [? _ {}H] := rbind_ok H; have [? _ {}H] := rbind_ok H; case: ifP H => // _ H.
  have [? _ {}H] := rbind_ok H; have [pa Hpa {}H] := rbind_ok H; have [? _ {}H] := rbind_ok H.
  by have [? _ [<-]] := rbind_ok H; have [? _ [<-]] := rbind_ok Hpa.
exists (map (forged d c) (as_los A)); rewrite -!map_comp; split=> // beta gamma cb cg.
have [lzs slz Hz] := forged_all eok sd un bl cb cg (as_los A); exists lzs => alpha.
set A' := Assignment _ _ _ _ _ _ _ _; have shape : shape_ok d (ix_perm ix) A' (size (ix_lookups ix)).
  split=> //=; rewrite ?size_map ?slz -?lE // ?lE //; last by rewrite nc.
  - by apply: leq_ltn_trans un.
  - by rewrite u0; apply: leq_ltn_trans un.
apply (@vanishing_accepted F env eok d sd PC vk vos es A' z_h c0 rows beta gamma alpha ev k0 eqok dec shape uw ui uf nz ur rn zE).
move=> p i; rewrite /constraint_polys mem_cat => /orP[Hp|].
  by have [e He ->] := in_map_occurs Hp; exact: gates.
rewrite mem_cat /perm_polys /= nc /= => Hp Hi; apply: (Hz p i (rn _ Hi)).
by move: Hp; rewrite /lookup_polys /= u0.
Qed.
Print Assumptions c30_verifier_accepts_refuted.

(** ** C45 *)
(** The property fails. Whatever polynomials a prover commits to ([cm], [Q] are arbitrary commitments, so
    in particular for a circuit no witness satisfies), there is a proof with these commitments that verify
    accepts: for every circuit the verifier can read, every transcript, and every correct commitment
    scheme. The conditions on the challenge xi (which depends on the commitments alone) fail for few xi. The
    proof has no q_evals, so the multi-opening compares nothing (C41), and its evaluations are made
    up. *)
Theorem c45_soundness_refuted (F : fieldType) (env : fenv F) (PC : pcs F) (FS : fsrng F) (ck : pc_ck PC) (pvk : pc_vk PC)
    (S : vinput PC) (es : seq (expr F oquery)) (cm : commitments PC) (Q : seq (pc_com PC)) :
  fenv_ok env -> pcs_correct ck pvk -> (forall x, exists pi, pc_open ck [::] x (pc_empty PC) = Ok pi) ->
  std_domain env (s_d S) -> verifiable S es -> well_counted S cm -> (0 < size Q)%N ->
  (forall pf, carries pf cm Q -> let xi := ch_xi (derive_challenges FS pf) in
     (Poly (s_zh S)).[xi] != 0 /\
     forall rs, rs \in opened_rots S (size Q) -> uniq [seq rot_point (dgen (s_d S)) r xi | r <- rs]) ->
  exists2 pf, carries pf cm Q & verdict env FS pvk S pf = Ok tt.
Proof. by move=> eok law o0 sd rdy cnt Q0 good; exact: (anything_accepted eok sd rdy cnt law o0 Q0 good). Qed.
Print Assumptions c45_soundness_refuted.

(** ** C48 *)
(** The property fails for every circuit: whenever the length of a vector of evaluations, or of commitments (other than the
    witness's and the quotient's), is not the one the circuit calls for, verify panics. *)
Theorem c48_wrong_lengths_panic_refuted (F : fieldType) (env : fenv F) (PC : pcs F) (FS : fsrng F) (pvk : pc_vk PC)
    (S : vinput PC) (es : seq (expr F oquery)) (pf : tp_proof PC) :
  fenv_ok env -> std_domain env (s_d S) -> verifiable S es -> ~~ right_lengths S pf ->
  exists p, verdict env FS pvk S pf = Panic p.
Proof. by move=> eok sd rdy; exact: (wrong_lengths eok sd rdy). Qed.
Print Assumptions c48_wrong_lengths_panic_refuted.

(** What holds: when those lengths are right and there are as many witness commitments as witness columns, verify does
    not panic whatever the contents of the proof - any number of quotient commitments, of q_evals, any values - as long
    as the scheme's check does not and the challenges avoid coincidences: no two rotations of one column give the same
    point, and x3 is not one of the opened points. *)
Theorem c48_right_lengths_partial (F : fieldType) (env : fenv F) (PC : pcs F) (FS : fsrng F) (pvk : pc_vk PC)
    (S : vinput PC) (es : seq (expr F oquery)) (pf : tp_proof PC) :
  let ch := derive_challenges FS pf in
  fenv_ok env -> std_domain env (s_d S) -> verifiable S es ->
  right_lengths S pf -> size (tp_witness_commitments pf) = size (s_ws S) ->
  (forall rs, rs \in opened_rots S (size (tp_quotient_commitments pf)) ->
     uniq [seq rot_point (dgen (s_d S)) r (ch_xi ch) | r <- rs] /\
     forall r, r \in rs -> x3_of (ch_fs ch) (tp_multiopen pf) != rot_point (dgen (s_d S)) r (ch_xi ch)) ->
  (forall c x v pi p, pc_check pvk c x v pi <> Panic p) ->
  forall p, verdict env FS pvk S pf <> Panic p.
Proof. by move=> ch eok sd rdy; exact: (right_lengths_total eok sd rdy). Qed.
Print Assumptions c48_right_lengths_partial.

(** ** Concrete cases *)
From Coq Require Import NArith.
From Verif Require Import ModelGates Field97 Concrete ProofPC ProofConcrete ProofTools ProofCheck ProofCheck2 Run97 PropsTranscript PropsEndToEnd.
Local Close Scope ring_scope.

(** The circuit of Run97.v as the verifier sees it, with the permutation and blinding columns opened at xi. *)
Definition r_S : vinput KZG97 :=
  VInput r_vk (VerifierPre (map vfix r_fs) (map vfix r_ts) (map vfix (map flat r_sigma)) (vfix (flat r_qblind))) r_vws r_vins r_vos r_d r_zh.
Lemma r_verifiable : verifiable r_S (r_exprs r_C).
Proof. by apply: verifiableP; [vm_compute|vm_compute|apply: (getsP (C := r_C)); vm_compute|vm_compute]. Qed.
Lemma kzg97_total (c : pc_com KZG97) x v pi p : pc_check (p := KZG97) srs97 c x v pi <> Panic p. Proof. by []. Qed.

(** The proof of r_run has the right lengths, and with one evaluation dropped it has not. *)
Definition r_short : tp_proof KZG97 :=
  TPProof (tp_witness_commitments r_proof) (behead (tp_witness_evals r_proof)) (tp_fixed_evals r_proof) (tp_table_evals r_proof) (tp_perm_evals r_proof)
    (tp_q_blind_eval r_proof) (tp_lookup_commitments r_proof) (tp_lookup_z_commitments r_proof) (tp_lookup_evals r_proof) (tp_lookup_z_evals r_proof)
    (tp_z_commitments r_proof) (tp_z_evals r_proof) (tp_quotient_commitments r_proof) (tp_quotient_evals r_proof) (tp_multiopen r_proof).
Example ex_c48_short : ~~ right_lengths r_S r_short /\ exists p, verdict env97 FS97 (PC := KZG97) srs97 r_S r_short = Panic p.
Proof.
have H : ~~ right_lengths r_S r_short by vm_compute.
split; [exact H|exact (c48_wrong_lengths_panic_refuted (PC := KZG97) (S := r_S) FS97 srs97 env97_ok dom97_8 r_verifiable H)].
Qed.
Example ex_c48_right : right_lengths r_S r_proof /\ forall p, verdict env97 FS97 (PC := KZG97) srs97 r_S r_proof <> Panic p.
Proof.
have H : right_lengths r_S r_proof by vm_compute.
split; [exact H|apply (c48_right_lengths_partial (PC := KZG97) (S := r_S) (pvk := srs97) (FS := FS97) env97_ok dom97_8 r_verifiable H); last exact kzg97_total].
  by apply/eqP; vm_compute.
move=> rs Hrs; split; last by move=> r _; rewrite eq_sym; exact (r_x3 r).
have H2 : all (fun rs => uniq [seq rot_point (dgen r_d) r (ch_xi (derive_challenges FS97 r_proof)) | r <- rs])
  (opened_rots r_S (size (tp_quotient_commitments r_proof))) by vm_compute.
exact (allP H2 _ Hrs).
Qed.

(** A circuit no witness satisfies: w0^2 = 5 on every row, and 5 is not a square modulo 97. *)
Definition u_col : voracle F97 (pc_com KZG97) := Oracle "w"%string [::] (@VData F97 (pc_com KZG97) Witness [::] None false).
Definition u_vo0 : generic_vo F97 := gv_init (esub (emul (Orc (wq 0 curr)) (Orc (wq 0 curr))) (Const (n97 5)), [:: wq 0 curr]).
Definition u_conf := ok_or (u_vo0, ([:: u_col], [::], [::]))
  (gv_configure u_vo0 ([:: u_col], [::] : seq (ioracle F97), [::] : seq (voracle F97 (pc_com KZG97)))).
Definition u_vk := ok_or r_vk0 (ModelIndexer.index env97 (fun o : vdata F97 (pc_com KZG97) => vd_permute o) [:: u_conf.1] [::]
   u_conf.2.1.1 u_conf.2.1.2 u_conf.2.2 r_d r_zh (permutation_info_dummy F97) 8).
Definition u_S : vinput KZG97 :=
  VInput u_vk (VerifierPre [::] [::] [::] (vfix (flat r_qblind))) u_conf.2.1.1 u_conf.2.1.2 [:: u_conf.1] r_d r_zh.
Definition u_e : expr F97 oquery :=
  esub (emul (Orc (OQuery "w"%string curr Witness)) (Orc (OQuery "w"%string curr Witness))) (Const (n97 5)).
Lemma u_unsatisfiable (leaf : oquery -> F97) : meaning leaf u_e <> 0%R.
Proof.
have H : all (fun x => (mk x * mk x - n97 5 != 0)%R) (upto 97) by vm_compute.
rewrite /=; move: (leaf _) => x; rewrite -[x]mk_v; apply/eqP; apply: (all_occurs H).
have := upto_in (n := 97) (v97_lt x); elim: (upto 97) => //= y s IH [->|/IH]; [by left|by right].
Qed.
Lemma u_indexed : ModelIndexer.index env97 (fun o : vdata F97 (pc_com KZG97) => vd_permute o) [:: u_conf.1] [::]
   u_conf.2.1.1 u_conf.2.1.2 u_conf.2.2 r_d r_zh (permutation_info_dummy F97) 8 = Ok u_vk.
Proof. by apply: (ok_anyP r_vk0); vm_compute. Qed.
Lemma u_verifiable : verifiable u_S [:: u_e].
Proof. by apply: verifiableP; [vm_compute|vm_compute|apply: (f_equal (cons^~ [::])); vm_compute|vm_compute]. Qed.
Definition u_cm : commitments KZG97 := @Commitments F97 KZG97 [:: n97 9] [::] [::] [::].
Definition u_Q : seq (pc_com KZG97) := [:: n97 1].
Definition u_pf : tp_proof KZG97 :=
  @TPProof F97 KZG97 [:: n97 9] [::] [::] [::] [::] 0%R [::] [::] [::] [::] [::] [::] [:: n97 1] [::] (@MoProof F97 KZG97 [::] (pc_zero KZG97) (0%R, None)).
Lemma same_challenges (F : fieldType) (PC : pcs F) (FS : fsrng F) (pf pf' : tp_proof PC) cm Q :
  carries pf cm Q -> carries pf' cm Q -> derive_challenges FS pf = derive_challenges FS pf'.
Proof. by rewrite /derive_challenges => -[-> -> -> -> ->] [-> -> -> -> ->]. Qed.
Example ex_c45 : (forall leaf, meaning leaf u_e <> 0%R) /\
  exists2 pf, carries pf u_cm u_Q & verdict env97 FS97 (PC := KZG97) srs97 u_S pf = Ok tt.
Proof.
split; first exact u_unsatisfiable.
apply (c45_soundness_refuted (PC := KZG97) (S := u_S) (es := [:: u_e]) (FS := FS97) (pvk := srs97) (ck := srs97) (cm := u_cm) (Q := u_Q)).
- exact env97_ok.
- exact law97.
- by move=> x; eexists.
- exact dom97_8.
- exact u_verifiable.
- by split; vm_compute.
- by [].
move=> pf car; have -> : derive_challenges FS97 pf = derive_challenges FS97 u_pf.
  by apply: same_challenges car _; split.
move=> xi; have Hx : (peval (s_zh u_S) (ch_xi (derive_challenges FS97 u_pf)) != 0)%R by vm_compute.
split; first by move: Hx; rewrite pevalE.
have H2 : all (fun rs => uniq [seq rot_point (dgen r_d) r (ch_xi (derive_challenges FS97 u_pf)) | r <- rs])
  (opened_rots u_S 1) by vm_compute.
by move=> rs Hrs; exact (allP H2 _ Hrs).
Qed.

(** The circuit of Run97.v indexed without copy constraints and with a dummy permutation; the lookup's column is 6 on
    every row, which is not in the table. *)
Definition nocopy (o : poracle F97) : poracle F97 :=
  Oracle (o_label o) (o_rots o) (PData (pd_kind (o_data o)) (po_poly o) (po_evals o) None false).
Definition d_A : assignment F97 :=
  let six := porc Witness 8 "a" (nseq 8 (n97 6)) false in
  Assignment (map nocopy r_ws) r_ins r_fs r_qblind [::] [::] [:: LookupOracles six (porc Fixed 8 "s" (nseq 8 (n97 7)) false) six six] [::].
Definition d_index := ModelIndexer.index env97 (fun o : pdata F97 => pd_permute o) r_vos [:: r_l]
  (as_ws d_A) (as_ins d_A) (as_fs d_A) r_d r_zh (permutation_info_dummy F97) r_u.
Definition d_vk := ok_or r_vk0 d_index.
Example ex_c30_verifier : let ix := vk_index d_vk in
  exists los, [/\ map (@lo_a _) los = map (@lo_a _) (as_los d_A), map (@lo_s _) los = map (@lo_s _) (as_los d_A) &
  forall beta gamma, (3 + beta != 0)%R -> (3 + gamma != 0)%R -> exists lzs, forall alpha, exists ts,
  forall xi (v : view F97 (pc_com KZG97)) vpre,
    sees (dgen r_d) xi (pa_usable_rows (ix_perm ix)) v
      (Assignment (as_ws d_A) (as_ins d_A) (as_fs d_A) (as_qb d_A) (as_sigmas d_A) [::] los lzs) ts ->
    vp_fixed vpre = v_fs v -> vp_perm vpre = v_sigmas v -> vp_q_blind vpre = v_qb v ->
    quotient_check d_vk (v_ws v) (v_ins v) vpre (v_copied v) (v_zs v) (v_los v) (v_lzs v) (v_chunks v) r_vos beta gamma alpha xi r_d (dsize r_d) r_zh
    = Ok tt].
Proof.
have d8 : dsize r_d = 8 by apply/eqP; vm_compute.
apply (@c30_verifier_accepts_refuted F97 env97 KZG97 r_d d_vk r_vos (r_exprs r_C) [:: r_l]
  d_A r_zh r_u 1%R (iota 0 (dsize r_d)) 3%R).
- exact env97_ok.
- exact dom97_8.
- by apply: (ok_anyP r_vk0); vm_compute.
- by rewrite d8.
- have H : all (fun i => peval (po_poly (as_qb d_A)) (dgen r_d ^+ i)%R == (r_u < i)%:R%R) (iota 0 (dsize r_d)) by vm_compute.
  by move=> i Hi; rewrite /opoly -pevalE; apply/eqP; apply: (allP H); rewrite mem_iota.
- by apply: (getsP (C := r_C)); vm_compute.
- by vm_compute.
- have H : all (fun e => all (query_ok (as_ws d_A) (as_ins d_A) (as_fs d_A) (dsize r_d)) (leaves e)) (r_exprs r_C) by vm_compute.
  by move=> e q He Hq; exact (all_occurs (all_occurs H He) Hq).
- have H : all (fun e => all (declared (as_ws d_A) (as_fs d_A)) (leaves e)) (r_exprs r_C) by vm_compute.
  by move=> e q He Hq; exact (all_occurs (all_occurs H He) Hq).
- by vm_compute.
- by vm_compute.
- by vm_compute.
- by apply/nilP; vm_compute.
- by [].
- exact: GRing.oner_neq0.
- exact: iota_uniq.
- by move=> i; rewrite mem_iota.
- by rewrite GRing.scale1r (r_zhE) -[c_rows r_C]/(dsize r_d) (vanishing_prod r_dok) big_map.
- have H : all (fun e => all (fun i => meaning (point_value (as_ws d_A) (as_ins d_A) (as_fs d_A) (dgen r_d) (dgen r_d ^+ i)%R) e == 0%R) (iota 0 (dsize r_d)))
    (r_exprs r_C) by vm_compute.
  by move=> e i He Hi; rewrite expr_poly_at; apply/eqP; exact (allP (all_occurs H He) i Hi).
Qed.
