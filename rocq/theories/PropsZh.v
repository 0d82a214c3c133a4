(** C73: vanishing polynomials outside C55 for which honest proofs are rejected. The proofs are in ProofZh.v. *)
From mathcomp Require Import all_ssreflect all_algebra.
From mathcomp Require Import zify.
From Verif Require Import Base ModelPoly ModelVO ModelOracle ModelPC ModelPermutation ModelLookup ModelIndexer ModelMultiproof ModelProtocol
  Spec SpecProtocol SpecPIOP SpecMultiopen SpecCircuit SpecProve ProofBase ProofPoly ProofDomain ProofColumns ProofMultiopen ProofIndexer ProofPIOP ProofPIOP2 ProofPIOP3 ProofSound ProofReject ProofVerdict ProofZh.

Set Implicit Arguments.
Unset Strict Implicit.
Unset Printing Implicit Defensive.

Import GRing.Theory.
Local Open Scope ring_scope.

(** z_h = c (X^n - 1) with c other than 0 and 1 vanishes on the same rows as X^n - 1. When the
    extended domain has no more points than the domain, its leading term is cut off, and a witness
    that satisfies every gate on every row is rejected: unless the gates combined with powers of
    alpha are the zero polynomial, verify accepts a proof returned by prove for fewer than 2n values
    of xi. *)
Theorem c73_scaled_vanishing_polynomial (F : fieldType) (env : fenv F) (PC : pcs F) (ck : pc_ck PC) (pvk : pc_vk PC)
    (C : circuit F) (vk : verifier_key F) (es : seq (expr F oquery)) (c : F)
    (vws : seq (voracle F (pc_com PC))) (vins : seq (ioracle F)) (vpre : verifier_pre PC)
    (theta beta gamma alpha : F) (zk : pc_zk PC) :
  let n := c_rows C in
  fenv_ok env -> std_domain env (c_d C) -> indexed env C vk -> laid_out C -> gates_ok C es ->
  verifier_copy ck C vws vins vpre -> satisfied C es (iota 0 n) ->
  c != 0 -> c != 1 -> Poly (c_zh C) = c *: ('X^n - 1) -> dsize (ix_ext (vk_index vk)) = n ->
  (forall e, occurs e es -> (expr_degree n.-1 e < n + n)%N) ->
  compressed alpha%:P [seq expr_poly (c_ws C) (c_ins C) (c_fs C) (dgen (c_d C)) e | e <- es] != 0 ->
  at_most (n + n).-1 (fun xi => exists rest pf zk',
    tp_prove env (scripted [:: theta, beta, gamma, alpha, xi & rest]) ck vk (preprocessed env PC C vk)
      (c_ws C) (c_ins C) (c_vos C) n zk = Ok (pf, zk') /\
    (tp_verify env (scripted [:: theta, beta, gamma, alpha, xi & rest]) pvk vk vpre pf vws vins (c_vos C) n (c_zh C)).1 = Ok tt).
Proof.
move=> n eok sd ixd lay gok copy sat c0 c1 zE Nn deg nz.
have [_ nl] := scaled_nocopy eok sd ixd lay Nn.
have lks : lookups_ok C (dsize (ix_ext (vk_index vk))).
  by move: nl; rewrite /lookups_ok; case: (c_lookups C).
apply: (scaled_few eok sd ixd lay gok lks c1 c0 zE Nn deg copy) nz => i Hi.
rewrite /gates_at; apply: ProofPIOP2.compressed0 => x.
case/in_map_occurs => e He ->; by apply: sat => //; rewrite mem_iota.
Qed.
Print Assumptions c73_scaled_vanishing_polynomial.

From Coq Require Import NArith String.
From Verif Require Import Field97 Concrete ProofPC ProofConcrete ProofTools ProofCheck ProofIndexerExamples Run97 PropsTranscript PropsEndToEnd PropsProve PropsUnopened PropsReject PropsVerdict.
Local Close Scope ring_scope.

(** Eight rows with a b = c on each, and z_h = 2 (X^8 - 1). *)
Definition s_cols : seq (poracle F97) := map flat
  [:: porc Witness 8 "a" (col [:: 3; 12; 15; 7; 1; 31; 5; 66]) false;
      porc Witness 8 "b" (col [:: 4; 3; 2; 9; 8; 1; 2; 0]) false;
      porc Witness 8 "c" (col [:: 12; 36; 30; 63; 8; 31; 10; 0]) false].
Definition s_gate : expr F97 oquery :=
  let W l := Orc (OQuery l curr Witness) in Sum (Prod (W "a"%string) (W "b"%string)) (Neg (W "c"%string)).
Definition s_C (c : F97) : circuit F97 :=
  Circuit s_cols [::] [::] [::] [::] (flat r_qblind) [:: v_gate s_gate] [::] r_d (pscale c r_zh) (permutation_info_dummy F97) 8.
Definition s_vk c := ok_or r_vk0 (ModelIndexer.index env97 (fun o : pdata F97 => pd_permute o) (c_vos (s_C c)) [::]
   (c_ws (s_C c)) (c_ins (s_C c)) (c_fs (s_C c)) (c_d (s_C c)) (c_zh (s_C c)) (c_info (s_C c)) (c_u (s_C c))).
Definition s_run c := tp_prove env97 (PC := KZG97) FS97 srs97 (s_vk c) (preprocessed env97 KZG97 (s_C c) (s_vk c)) (c_ws (s_C c)) [::] (c_vos (s_C c)) 8 11%num.
Definition s_proof c := (ok_or (r_dummy, 0%num) (s_run c)).1.
Definition s_verify c := (tp_verify env97 FS97 (PC := KZG97) srs97 (s_vk c) (vpre97 (s_C c)) (s_proof c) (map vwit (c_ws (s_C c))) (map vinst (c_ins (s_C c))) (c_vos (s_C c)) (c_rows (s_C c)) (c_zh (s_C c))).1.
Lemma s_dom c : std_domain env97 (c_d (s_C c)). Proof. exact dom97_8. Qed.
Lemma s_zhE c : Poly (c_zh (s_C c)) = (c *: ('X^(c_rows (s_C c)) - 1))%R.
Proof.
rewrite /s_C; cbn [c_zh c_rows c_d]; rewrite Poly_scale; congr (_ *: _)%R.
exact: (@Poly_vanishing F97 r_d (dsize_gt0 (std_domain_ok env97_ok dom97_8))).
Qed.
Lemma s_degree c : forall e, occurs e (r_exprs (s_C c)) -> expr_degree (c_rows (s_C c)).-1 e < c_rows (s_C c) + c_rows (s_C c).
Proof. by move=> e [E|[]]; subst e; vm_compute. Qed.
(** The polynomial a b - c is not zero. *)
Lemma s_nonzero (alpha : F97) c : compressed alpha%:P%R [seq expr_poly (c_ws (s_C c)) (c_ins (s_C c)) (c_fs (s_C c)) (dgen (c_d (s_C c))) e | e <- r_exprs (s_C c)] != 0%R.
Proof.
rewrite /r_exprs; cbn [s_C c_vos map]; rewrite compressed_cons compressed_nil mulr0 addr0.
apply/eqP => E; have := congr1 (horner^~ (n97 2)) E; rewrite /= expr_poly_at horner0 => /eqP; by vm_compute.
Qed.
Lemma s_two : [/\ indexed env97 (s_C (n97 2)) (s_vk (n97 2)), laid_out (s_C (n97 2)), gates_ok (s_C (n97 2)) (r_exprs (s_C (n97 2))),
  satisfied (s_C (n97 2)) (r_exprs (s_C (n97 2))) (iota 0 (c_rows (s_C (n97 2)))) & dsize (ix_ext (vk_index (s_vk (n97 2)))) = c_rows (s_C (n97 2))].
Proof.
split; [by apply: (ok_anyP r_vk0); vm_compute|by apply: laid_outP; vm_compute|by apply: gates_okP; vm_compute|by apply: satisfiedP; vm_compute|by apply/eqP; vm_compute].
Qed.
Lemma s_copy c : verifier_copy (PC := KZG97) srs97 (s_C c) (map vwit (c_ws (s_C c))) (map vinst (c_ins (s_C c))) (vpre97 (s_C c)).
Proof. by apply: copy97; vm_compute. Qed.
Definition s_accepts (theta beta gamma alpha : F97) (zk : N) (xi : F97) : Prop := let C := s_C (n97 2) in exists rest pf zk',
  tp_prove env97 (scripted [:: theta, beta, gamma, alpha, xi & rest]) (PC := KZG97) srs97 (s_vk (n97 2)) (preprocessed env97 KZG97 C (s_vk (n97 2)))
    (c_ws C) (c_ins C) (c_vos C) (c_rows C) zk = Ok (pf, zk') /\
  (tp_verify env97 (scripted [:: theta, beta, gamma, alpha, xi & rest]) (PC := KZG97) srs97 (s_vk (n97 2)) (vpre97 C) pf
    (map vwit (c_ws C)) (map vinst (c_ins C)) (c_vos C) (c_rows C) (c_zh C)).1 = Ok tt.
(** With X^8 - 1 the proof of this witness is accepted, with 2 (X^8 - 1) it is not, and at most 15 of
    the 97 values of xi are accepted. *)
Example ex_c73_scaled (theta beta gamma alpha : F97) (zk : N) :
  [/\ s_verify (n97 1) = Ok tt, s_verify (n97 2) = Err QuotientNotZero & at_most 15 (s_accepts theta beta gamma alpha zk)].
Proof.
split; [by vm_compute|by vm_compute|].
have [ixd lay gok sat Nn] := s_two; have z2 : n97 2 != 0%R by vm_compute. have o2 : n97 2 != 1%R by vm_compute.
have E : (c_rows (s_C (n97 2)) + c_rows (s_C (n97 2))).-1 = 15 by apply/eqP; vm_compute.
rewrite -E.
exact (@c73_scaled_vanishing_polynomial F97 env97 KZG97 srs97 srs97 (s_C (n97 2)) (s_vk (n97 2)) (r_exprs (s_C (n97 2))) (n97 2)
  (map vwit (c_ws (s_C (n97 2)))) (map vinst (c_ins (s_C (n97 2)))) (vpre97 (s_C (n97 2))) theta beta gamma alpha zk env97_ok (s_dom (n97 2)) ixd lay gok
  (s_copy (n97 2)) sat z2 o2 (s_zhE (n97 2)) Nn (@s_degree (n97 2)) (s_nonzero alpha (n97 2))).
Qed.

(** The copy constraints of Run97.v over the same columns, with one of its gates and without the
    lookup; z_h vanishes on the usable rows 0 to 4, where everything holds. *)
Definition t_conf := ok_or (r_trans, (map flat r_w, [::], r_f)) (gv_configure r_trans (map flat r_w, [::] : seq (poracle F97), r_f)).
Definition t_C (rows : seq nat) : circuit F97 :=
  Circuit t_conf.2.1.1 [::] t_conf.2.2 [::] r_sigma r_qblind [:: t_conf.1] [::] r_d (construct_vanishing [seq element r_d i | i <- rows])
    (PermutationInfo r_u r_deltas) r_u.
Definition t_vk rows := ok_or r_vk0 (ModelIndexer.index env97 (fun o : pdata F97 => pd_permute o) (c_vos (t_C rows)) [::]
   (c_ws (t_C rows)) (c_ins (t_C rows)) (c_fs (t_C rows)) (c_d (t_C rows)) (c_zh (t_C rows)) (c_info (t_C rows)) (c_u (t_C rows))).
Definition t_run rows := tp_prove env97 (PC := KZG97) FS97 srs97 (t_vk rows) (preprocessed env97 KZG97 (t_C rows) (t_vk rows)) (c_ws (t_C rows)) [::] (c_vos (t_C rows)) 8 11%num.
Definition t_proof rows := (ok_or (r_dummy, 0%num) (t_run rows)).1.
Definition t_verify rows := (tp_verify env97 FS97 (PC := KZG97) srs97 (t_vk rows) (vpre97 (t_C rows)) (t_proof rows) (map vwit (c_ws (t_C rows))) (map vinst (c_ins (t_C rows))) (c_vos (t_C rows)) (c_rows (t_C rows)) (c_zh (t_C rows))).1.

(** With a copy constraint and z_h vanishing on exactly the usable rows, all hypotheses of C55 hold
    but the room for the quotient of the copy constraints, which the indexer does not ensure: the
    gates hold on every row, the copies along [tau], and the gates' own quotient fits. The proof is
    rejected. *)
Theorem c73_usable_rows_vanishing_polynomial :
  exists (F : fieldType) (env : fenv F) (PC : pcs F) (FS : fsrng F) (ck : pc_ck PC) (pvk : pc_vk PC)
    (C : circuit F) (vk : verifier_key F) (es : seq (expr F oquery)) (tau : nat * nat -> nat * nat)
    (vws : seq (voracle F (pc_com PC))) (vins : seq (ioracle F)) (vpre : verifier_pre PC)
    (zk zk' : pc_zk PC) (pf : tp_proof PC),
  let N := dsize (ix_ext (vk_index vk)) in let n := c_rows C in let rows := iota 0 (pi_u (c_info C)) in
  let ch := derive_challenges FS pf in
  [/\ [/\ fenv_ok env, pcs_correct ck pvk, std_domain env (c_d C), indexed env C vk & laid_out C],
      [/\ gates_ok C es, lookups_ok C N, vanishes_on C rows N & forall e, occurs e es -> expr_degree n.-1 e < size rows + N],
      [/\ satisfied C es (iota 0 n), copies_hold C tau & verifier_copy ck C vws vins vpre],
      tp_prove env FS ck vk (preprocessed env PC C vk) (c_ws C) (c_ins C) (c_vos C) n zk = Ok (pf, zk') /\
      (forall r, rot_point (dgen (c_d C)) r (ch_xi ch) != x3_of (ch_fs ch) (tp_multiopen pf)) &
      (tp_verify env FS pvk vk vpre pf vws vins (c_vos C) n (c_zh C)).1 = Err QuotientNotZero].
Proof.
pose C := t_C (iota 0 5); pose vk := t_vk (iota 0 5).
have r8 : c_rows C = 8 by apply/eqP; vm_compute.
have u5 : pi_u (c_info C) = 5 by apply/eqP; vm_compute.
exists F97, env97, KZG97, FS97, srs97, srs97, C, vk, (r_exprs C), r_next, (map vwit (c_ws C)), (map vinst (c_ins C)), (vpre97 C),
  11%num, (ok_or (r_dummy, 0%num) (t_run (iota 0 5))).2, (t_proof (iota 0 5)) => N n rows ch.
have dok := std_domain_ok env97_ok dom97_8.
split; [split|split|split|split|].
- exact: env97_ok.
- exact: law97.
- exact: dom97_8.
- by apply: (ok_anyP r_vk0); vm_compute.
- by apply: laid_outP; vm_compute.
- by apply: gates_okP; vm_compute.
- by apply: lookups_okP; vm_compute.
- rewrite /rows u5; split; [by vm_compute|by apply/allP; vm_compute| |by left; vm_compute].
  exists 1%R; first exact: oner_neq0.
  rewrite scale1r /C /t_C; cbn [c_zh c_d]; by rewrite Poly_vanish big_map.
- by move=> e [E|[]]; subst e; rewrite /rows u5; vm_compute.
- by rewrite /n r8; apply: satisfiedP; vm_compute.
- by apply: copies_holdP; vm_compute.
- by apply: copy97; vm_compute.
- rewrite /n r8; have H : ok_any (t_run (iota 0 5)) by vm_compute.
  by have := ok_anyP (r_dummy, 0%num) H; rewrite {1}/t_run => ->; rewrite /t_proof; case: (ok_or _ _).
- by apply: (x3_clear (C := C) dok); vm_compute.
- by rewrite /n r8; vm_compute.
Qed.
Print Assumptions c73_usable_rows_vanishing_polynomial.
(** One more row in z_h, or all of them, and the proof is accepted. *)
Example ex_c73_rows : t_verify (iota 0 5) = Err QuotientNotZero /\ t_verify (iota 0 6) = Ok tt /\ t_verify (iota 0 8) = Ok tt.
Proof. by vm_compute. Qed.
