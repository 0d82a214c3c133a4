(** Property theorems C65: exactly when prove returns a proof, and how it fails otherwise. The vocabulary is in
    SpecProve.v; the proofs are in ProofProve.v and ProofExact.v. *)
From mathcomp Require Import all_ssreflect all_algebra.
From mathcomp Require Import zify.
From Verif Require Import Base ModelPoly ModelVO ModelOracle ModelPC ModelPermutation ModelLookup ModelIndexer ModelMultiproof ModelProtocol
  Spec SpecProtocol SpecPIOP SpecMultiopen SpecCircuit SpecProve ProofBase ProofPoly ProofDomain ProofOracle ProofProver ProofHonest ProofProve ProofExact.

Set Implicit Arguments.
Unset Strict Implicit.
Unset Printing Implicit Defensive.

Import GRing.Theory.
Local Open Scope ring_scope.

Section C65.
Variables (F : fieldType) (env : fenv F) (PC : pcs F) (ck : pc_ck PC) (C : circuit F) (vk : verifier_key F) (es : seq (expr F oquery)).
Let n := c_rows C.
Hypothesis eok : fenv_ok env.
Hypothesis sd : std_domain env (c_d C).
Hypothesis ixd : indexed env C vk.
Hypothesis lay : laid_out C.
Hypothesis lks : lookups_ok C n.

(** Two rotations of a column that name the same row always make prove fail, whatever the transcript. *)
Theorem c65_equivalent_rotations_refused (FS : fsrng F) (zk : pc_zk PC) (pf : tp_proof PC) (zk' : pc_zk PC) :
  ~ distinct_rotations C ->
  tp_prove env FS ck vk (preprocessed env PC C vk) (c_ws C) (c_ins C) (c_vos C) n zk <> Ok (pf, zk').
Proof.
move=> nd E; apply: nd; have [T [tr [fs' Hmo]]] := prover_inv E.
have [H _] := run_points eok sd ixd lay lks (early_of tr) tr Hmo; have dok := std_domain_ok eok sd.
set xi := ch_xi _ in H; move=> o /H; apply: uniq_map_fine => r r' e.
have [x0|x0] := eqVneq xi 0; last by apply/(rot_point_eq r r' dok x0).
by rewrite x0 /rot_point !mul0r; case: r.2; case: r'.2.
Qed.

Hypothesis gok : gates_ok C es.
Hypothesis tot : pcs_total ck n.

(** With the challenges theta, beta, gamma, alpha and xi, whatever the transcript and the random generator give besides,
    prove returns a proof exactly when there is a gate, a row is left for blinding, the lookups hold for the columns
    combined with theta, the two products over the copied cells agree, no denominator is zero and the points at which
    each column is opened are distinct. *)
Theorem c65_prove_returns_iff (theta beta gamma alpha xi : F) (rest : seq F) (zk : pc_zk PC) :
  (exists pf zk', tp_prove env (scripted [:: theta, beta, gamma, alpha, xi & rest]) ck vk (preprocessed env PC C vk)
     (c_ws C) (c_ins C) (c_vos C) n zk = Ok (pf, zk')) <->
  [/\ (0 < size (c_vos C))%N /\ (pi_u (c_info C) < n)%N, combined_lookups_hold C theta,
    ~~ nilp (copied (c_ws C)) -> products_agree C beta gamma, no_zero_denominator C theta beta gamma & distinct_points C xi].
Proof.
split=> [[pf [zk' E]]|[[vpos ult] g1 g2 g3 g4]]; last exact: (prove_ok_exact eok alpha zk sd ixd lay gok vpos ult lks g1 g2 g3 tot).
have [T [tr [fs' Hmo]]] := prover_inv E.
move: tr Hmo; rewrite /derive_challenges; cbn [fs_init fs_rand fs_absorb scripted ch_theta ch_beta ch_gamma ch_alpha ch_xi head behead] => tr Hmo.
have et := early_of tr; have [h1 h2] : (0 < size (c_vos C))%N /\ (pi_u (c_info C) < n)%N.
  split; first exact: (et_vos et).
  by have := et_u et; rewrite (t_dE sd et) (usable ixd).1.
split=> //; [exact: (run_combined eok sd ixd lay lks et)|exact: (run_products sd ixd lay et)
  |exact: (run_denominators eok sd ixd lay lks et)|exact: (run_points eok sd ixd lay lks et tr Hmo)].
Qed.

(** And how it fails when it has a gate and a row left for blinding: it panics when a lookup, a product or a
    denominator is wrong, and reports a repeated rotation when only the points are. *)
Theorem c65_prove_outcome (theta beta gamma alpha xi : F) (rest : seq F) (zk : pc_zk PC) :
  let run := tp_prove env (scripted [:: theta, beta, gamma, alpha, xi & rest]) ck vk (preprocessed env PC C vk)
               (c_ws C) (c_ins C) (c_vos C) n zk in
  let good := [/\ combined_lookups_hold C theta, ~~ nilp (copied (c_ws C)) -> products_agree C beta gamma
                & no_zero_denominator C theta beta gamma] in
  (0 < size (c_vos C))%N -> (pi_u (c_info C) < n)%N ->
  [/\ ~ good -> exists why, run = Panic why,
      good -> ~ distinct_points C xi -> exists k s, run = Err (RepeatedRotation k s) &
      good -> distinct_points C xi -> exists pf zk', run = Ok (pf, zk')].
Proof.
move=> run good vpos ult; split.
- by move=> ng; have [|/ng] := fails_early eok theta beta gamma alpha xi zk sd ixd lay vpos ult lks tot rest.
- by move=> g nd; exact: (fails_late eok alpha zk sd ixd lay gok vpos ult lks tot rest g nd).
- by case=> g1 g2 g3 g4; exact: (prove_ok_exact eok alpha zk sd ixd lay gok vpos ult lks g1 g2 g3 tot).
Qed.
End C65.
Print Assumptions c65_equivalent_rotations_refused.
Print Assumptions c65_prove_returns_iff.
Print Assumptions c65_prove_outcome.

(** ** Concrete cases *)
From Coq Require Import NArith String.
From Verif Require Import Field97 Concrete ProofPC ProofConcrete ProofTools ProofCheck ProofIndexerExamples Run97 PropsTranscript PropsEndToEnd PropsProve PropsRefuse.
Local Close Scope ring_scope.

(** The products of [products_agree], as a boolean. *)
Definition prodb (f : nat -> nat -> F97) k u : F97 := foldr (fun j p => (foldr (fun i q => f j i * q) 1 (iota 0 u)) * p)%R 1%R (iota 0 k).
Lemma prod_foldr (f : nat -> F97) k : (\prod_(i < k) f i = foldr (fun i q => f i * q) 1 (iota 0 k))%R.
Proof. by rewrite -(big_mkord xpredT f) /index_iota subn0 unlock; elim: (iota 0 k) => //= i s ->. Qed.
Lemma prodbE (f : nat -> nat -> F97) k u : (\prod_(j < k) \prod_(i < u) f j i = prodb f k u)%R.
Proof.
rewrite /prodb -(prod_foldr (fun j => foldr (fun i q => f j i * q) 1 (iota 0 u))%R); apply: eq_bigr => j _; exact: prod_foldr.
Qed.
Definition products_agreeb (C : circuit F97) (beta gamma : F97) : bool :=
  let ws := copied (c_ws C) in let k := size ws in let u := pi_u (c_info C) in
  [&& size (c_sigmas C) == k, size (pi_deltas (c_info C)) == k &
   (prodb (fun j i => cell_value ws j i + beta * (nth 0 (pi_deltas (c_info C)) j * dgen (c_d C) ^+ i) + gamma) k u ==
    prodb (fun j i => cell_value ws j i + beta * cell_value (c_sigmas C) j i + gamma) k u)%R].
Lemma products_agreeP C beta gamma : products_agreeb C beta gamma -> products_agree C beta gamma.
Proof.
case/and3P => /eqP h1 /eqP h2 /eqP h3; split=> //; rewrite -!prodbE in h3; exact: h3.
Qed.
(** The witness [v_copy] of PropsRefuse.v breaks a copy. With beta = 0 the cells lose their names, the products agree, and
    prove returns a proof. *)
Lemma v_copy_gates : gates_ok v_copy (r_exprs v_copy).
Proof. by apply: gates_okP; vm_compute. Qed.
Lemma v_copy_lookups_n : lookups_ok v_copy (c_rows v_copy). Proof. by apply: lookups_okP; vm_compute. Qed.
Lemma v_copy_lookups_hold : lookups_hold v_copy. Proof. by apply: lookups_holdP; vm_compute. Qed.
Lemma v_copy_distinct : distinct_rotations v_copy. Proof. by apply: distinct_rotationsP; vm_compute. Qed.
Lemma v_copy_total : pcs_total (PC := KZG97) srs97 (c_rows v_copy).
Proof. have -> : c_rows v_copy = c_rows r_C by vm_compute. exact r_total. Qed.
Lemma v_copy_nonzero : no_zero_denominator v_copy r_theta 0%R r_gamma. Proof. by apply: nonzeroP; vm_compute. Qed.
Lemma v_copy_products : products_agree v_copy 0%R r_gamma. Proof. by apply: products_agreeP; vm_compute. Qed.
Example ex_c65_lucky (alpha : F97) (rest : seq F97) (zk : pc_zk KZG97) : exists pf zk',
  tp_prove env97 (PC := KZG97) (scripted [:: r_theta, 0%R, r_gamma, alpha, r_xi & rest]) srs97 r_vk (preprocessed env97 KZG97 v_copy r_vk)
    (c_ws v_copy) (c_ins v_copy) (c_vos v_copy) (c_rows v_copy) zk = Ok (pf, zk').
Proof.
have h1 : 0 < size (c_vos v_copy) by vm_compute.
have h2 : pi_u (c_info v_copy) < c_rows v_copy by vm_compute.
have h3 : (r_xi != 0)%R by vm_compute.
have h4 := @rotations_distinct F97 v_copy r_xi r_dok h3 v_copy_distinct.
have h5 := @lookups_combined F97 v_copy r_theta v_copy_lookups_hold.
apply (@c65_prove_returns_iff F97 env97 KZG97 srs97 v_copy r_vk (r_exprs v_copy) env97_ok dom97_8 v_copy_indexed v_copy_laid
  v_copy_lookups_n v_copy_gates v_copy_total r_theta 0%R r_gamma alpha r_xi rest zk).
exact (And5 (conj h1 h2) h5 (fun _ => v_copy_products) v_copy_nonzero h4).
Qed.
(** With gamma = 7 a denominator of the satisfied circuit [r_C] is zero, and prove panics. *)
Lemma r_zero : ~ no_zero_denominator r_C r_theta r_beta (n97 7).
Proof.
case=> H _.
have [c Hc Ec] : exists2 c, is_cell (size (copied (c_ws r_C))) (pi_u (c_info r_C)) c &
  (cell_value (copied (c_ws r_C)) c.1 c.2 + r_beta * cell_value (c_sigmas r_C) c.1 c.2 + n97 7 == 0)%R.
  have : has (fun c => is_cell (size (copied (c_ws r_C))) (pi_u (c_info r_C)) c &&
    (cell_value (copied (c_ws r_C)) c.1 c.2 + r_beta * cell_value (c_sigmas r_C) c.1 c.2 + n97 7 == 0)%R) (cells 4 5) by vm_compute.
  by case/hasP => c _ /andP[h1 h2]; exists c.
by move: (H c Hc); rewrite Ec.
Qed.
Example ex_c65_panic (alpha xi : F97) (rest : seq F97) (zk : pc_zk KZG97) : exists why,
  tp_prove env97 (PC := KZG97) (scripted [:: r_theta, r_beta, n97 7, alpha, xi & rest]) srs97 r_vk (preprocessed env97 KZG97 r_C r_vk)
    (c_ws r_C) (c_ins r_C) (c_vos r_C) (c_rows r_C) zk = Panic why.
Proof.
have h1 : 0 < size (c_vos r_C) by vm_compute.
have h2 : pi_u (c_info r_C) < c_rows r_C by vm_compute.
have [H _ _] := @c65_prove_outcome F97 env97 KZG97 srs97 r_C r_vk (r_exprs r_C) env97_ok dom97_8 r_indexed r_laid_out r_lookups_n r_gates_ok r_total
  r_theta r_beta (n97 7) alpha xi rest zk h1 h2.
by apply H => -[_ _ h]; exact (r_zero h).
Qed.
(** With xi = 0 it reports a repeated rotation. *)
Example ex_c65_repeated (alpha : F97) (rest : seq F97) (zk : pc_zk KZG97) : exists k s,
  tp_prove env97 (PC := KZG97) (scripted [:: r_theta, r_beta, r_gamma, alpha, 0%R & rest]) srs97 r_vk (preprocessed env97 KZG97 r_C r_vk)
    (c_ws r_C) (c_ins r_C) (c_vos r_C) (c_rows r_C) zk = Err (RepeatedRotation k s).
Proof.
have h1 : 0 < size (c_vos r_C) by vm_compute.
have h2 : pi_u (c_info r_C) < c_rows r_C by vm_compute.
have h3 : ~~ nilp (copied (c_ws r_C)) || ~~ nilp (c_lookups r_C) by vm_compute.
have [_ H _] := @c65_prove_outcome F97 env97 KZG97 srs97 r_C r_vk (r_exprs r_C) env97_ok dom97_8 r_indexed r_laid_out r_lookups_n r_gates_ok r_total
  r_theta r_beta r_gamma alpha 0%R rest zk h1 h2.
apply H.
- exact (And3 (@lookups_combined F97 r_C r_theta r_lookups_hold) (fun _ => @copies_agree F97 r_C r_next r_beta r_gamma r_copies) r_nonzero).
- by case=> _ /(_ h3); rewrite eqxx.
Qed.
(** The same circuit with rotations 7 and -1 of its first column, which name the same of its eight rows. *)
Definition e_ws : seq (poracle F97) := upd (c_ws r_C) 0 (fun o => register_rotation (1, Minus) (register_rotation (7, Plus) o)).
Definition e_C : circuit F97 :=
  Circuit e_ws r_ins r_fs r_ts r_sigma r_qblind r_vos [:: r_l] r_d r_zh (PermutationInfo r_u r_deltas) r_u.
Lemma e_indexed : indexed env97 e_C r_vk. Proof. by apply: (ok_anyP r_vk0); vm_compute. Qed.
Lemma e_laid : laid_out e_C. Proof. by apply: laid_outP; vm_compute. Qed.
Lemma e_lookups_n : lookups_ok e_C (c_rows e_C). Proof. by apply: lookups_okP; vm_compute. Qed.
Lemma e_repeated : ~ distinct_rotations e_C.
Proof.
have H : ~~ uniq [seq rot_row 8 r 0 | r <- o_rots (nth r_qblind e_ws 0)] by vm_compute.
have Ho : occurs (nth r_qblind e_ws 0) (c_ws e_C ++ c_fs e_C ++ c_ts e_C ++ c_sigmas e_C ++ [:: c_qb e_C]) by left.
move=> /(_ _ Ho); have -> : c_rows e_C = 8 by vm_compute.
by move=> K; rewrite K in H.
Qed.
Example ex_c65_rotations (FS : fsrng F97) (zk : pc_zk KZG97) (pf : tp_proof KZG97) (zk' : pc_zk KZG97) :
  tp_prove env97 (PC := KZG97) FS srs97 r_vk (preprocessed env97 KZG97 e_C r_vk) (c_ws e_C) (c_ins e_C) (c_vos e_C) (c_rows e_C) zk <> Ok (pf, zk').
Proof.
exact (@c65_equivalent_rotations_refused F97 env97 KZG97 srs97 e_C r_vk env97_ok dom97_8 e_indexed e_laid e_lookups_n FS zk pf zk' e_repeated).
Qed.
