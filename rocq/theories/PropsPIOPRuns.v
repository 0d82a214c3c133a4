(** The hypotheses of C36-C38 (PropsPIOP.v) are what runs of prove meet; concrete cases of C35-C38.
    The vocabulary is in SpecPIOP.v and SpecCircuit.v. *)
From mathcomp Require Import all_ssreflect all_algebra.
From mathcomp Require Import zify.
From Verif Require Import Base ModelPoly ModelVO ModelOracle ModelPC ModelPermutation ModelLookup ModelIndexer ModelMultiproof ModelProtocol
  Spec SpecProtocol SpecPIOP SpecMultiopen SpecCircuit SpecProve ProofBase ProofPoly ProofDomain ProofLookup ProofIndexer ProofColumns ProofOpen ProofPIOP ProofPIOP2 ProofPIOP3 ProofEach ProofProver ProofFront
  ProofInstances ProofRounds ProofHonest ProofComplete ProofCheck PropsPIOP PropsEndToEnd PropsProve.

Set Implicit Arguments.
Unset Strict Implicit.
Unset Printing Implicit Defensive.

Import GRing.Theory.
Local Open Scope ring_scope.

(** Whenever prove returns a proof (gates satisfied or not), the columns it has worked with meet the
    hypotheses of C37 and C38 about the assignment, with the challenges beta and gamma of the run: the
    shape, the interpolation, the bound on degrees and, on every row, the permutation and lookup
    constraints. *)
Theorem c37_hypotheses_in_runs (F : fieldType) (env : fenv F) (PC : pcs F) (FS : fsrng F) (ck : pc_ck PC)
    (C : circuit F) (vk : verifier_key F) (es : seq (expr F oquery)) (rows : nat)
    (zk zk' : pc_zk PC) (pf : tp_proof PC) :
  let ix := vk_index vk in let N := dsize (ix_ext ix) in let n := c_rows C in
  let ch := derive_challenges FS pf in let beta := ch_beta ch in let gamma := ch_gamma ch in
  let pre := preprocessed env PC C vk in let extended := map (compute_extended_evals env (ix_ext ix)) in
  fenv_ok env -> std_domain env (c_d C) ->
  indexed env C vk -> laid_out C -> gates_ok C es -> lookups_ok C N ->
  quotient_room C es rows (pa_max_cols (ix_perm ix)) N ->
  tp_prove env FS ck vk pre (c_ws C) (c_ins C) (c_vos C) n zk = Ok (pf, zk') ->
  exists A, [/\ as_ws A = extended (c_ws C), as_ins A = extended (c_ins C), as_fs A = extended (c_fs C),
      [/\ pp_fixed pre = as_fs A, pp_perm pre = as_sigmas A & pp_q_blind pre = as_qb A] &
    [/\ shape_ok (c_d C) (ix_perm ix) A (size (ix_lookups ix)), assignment_ok env (c_d C) (ix_ext ix) A,
      exprs_ok (as_ws A) (as_ins A) (as_fs A) n es /\ exprs_declared (as_ws A) (as_fs A) es,
      forall q, q \in constraint_polys (c_d C) (ix_perm ix) es beta gamma A -> (size q <= rows + N)%N &
      forall p i, p \in perm_polys (c_d C) (ix_perm ix) beta gamma A ++ flatten (lookup_polys (c_d C) (ix_perm ix) beta gamma A) ->
        (i < n)%N -> p.[dgen (c_d C) ^+ i] = 0]].
Proof.
move=> ix N n ch beta gamma pre extended eok sd ixd lay gok lks room Hp.
have [T [tr [fs' Hmo]]] := prover_inv Hp; rewrite -/ch in tr Hmo; rewrite -/beta -/gamma in tr.
have [ge eo ed] := gok; have [r1 r2 r3] := room.
have shape := honest_shape eok sd ixd lay tr; have aok := honest_ok eok sd ixd lay lks tr.
have eo' := exprs_ok_ext env (ix_ext (vk_index vk)) eo; have ed' := exprs_declared_ext env (ix_ext (vk_index vk)) ed.
exists (honest env C vk T); split=> //; split=> //; last by move=> p i Hq Hi; exact: (honest_rows eok sd ixd lay lks tr Hq Hi).
move=> p; rewrite /constraint_polys !mem_cat => /orP[/in_map_occurs [e He ->]|/orP[]].
- by apply: leq_trans (expr_poly_size shape aok (fun q Hq => eo' e q He Hq)) _; exact: r1.
- move=> Hq; have nn : ~~ nilp (copied (c_ws C)).
    by move: Hq; rewrite /perm_polys /= copied_ext; case: (copied (c_ws C)).
  by apply: leq_trans (perm_polys_db shape aok Hq) _; exact: r2.
- move=> Hq; have nn : ~~ nilp (c_lookups C).
    have := size_los eok sd ixd tr; move: Hq; rewrite /lookup_polys /=; case: (c_lookups C) => //= + /size0nil E.
    by rewrite E; case: (t_lzs T).
  by apply: leq_trans (lookup_polys_db shape aok Hq) _; exact: r3.
Qed.
Print Assumptions c37_hypotheses_in_runs.

(** So C37 applies to the columns of every run with satisfied gates. *)
Lemma run_c37 (F : fieldType) (env : fenv F) (PC : pcs F) (FS : fsrng F) (ck : pc_ck PC)
    (C : circuit F) (vk : verifier_key F) (es : seq (expr F oquery)) (rows : seq nat)
    (zk zk' : pc_zk PC) (pf : tp_proof PC) (alpha : F) :
  let ix := vk_index vk in let N := dsize (ix_ext ix) in let n := c_rows C in
  let ch := derive_challenges FS pf in let beta := ch_beta ch in let gamma := ch_gamma ch in
  let pre := preprocessed env PC C vk in let extended := map (compute_extended_evals env (ix_ext ix)) in
  fenv_ok env -> std_domain env (c_d C) ->
  indexed env C vk -> laid_out C -> gates_ok C es -> (0 < size (c_vos C))%N -> lookups_ok C N ->
  vanishes_on C rows N -> satisfied C es rows -> quotient_room C es (size rows) (pa_max_cols (ix_perm ix)) N ->
  tp_prove env FS ck vk pre (c_ws C) (c_ins C) (c_vos C) n zk = Ok (pf, zk') ->
  exists A cs, [/\ as_ws A = extended (c_ws C), shape_ok (c_d C) (ix_perm ix) A (size (ix_lookups ix)),
    prover_quotient_round env vk pre (as_ws A) (as_ins A) (copied (as_ws A)) (as_zs A) (as_los A) (as_lzs A) (c_vos C)
      beta gamma alpha (c_d C) = Ok cs,
    forall xi (v : view F (pc_com PC)) vpre, sees (dgen (c_d C)) xi (pa_usable_rows (ix_perm ix)) v A cs ->
      vp_fixed vpre = v_fs v -> vp_perm vpre = v_sigmas v -> vp_q_blind vpre = v_qb v ->
      quotient_check vk (v_ws v) (v_ins v) vpre (v_copied v) (v_zs v) (v_los v) (v_lzs v) (v_chunks v) (c_vos C) beta gamma alpha xi (c_d C) n (c_zh C)
      = Ok tt &
    size cs = (N %/ n)%N].
Proof.
move=> ix N n ch beta gamma pre extended eok sd ixd lay gok k0 lks van sat room Hp.
have [A [h1 h2 h3 [p1 p2 p3] [h4 h5 [h6 h7] h8 h9]]] := c37_hypotheses_in_runs eok sd ixd lay gok lks room Hp.
have [ge _ _] := gok; have [ur rn [c c0 zE] szh] := van; have [se le] := ext_std eok sd ixd.
have [qd [_ _ _ [_ Ezh] _]] := index_inv eok sd ixd.
have [||cs [Hcs Hck]] := c37_piop_completeness (PC := PC) (pre := pre) eok sd se le ge k0 h6 h7 h4 h5 p1 p2 p3 c0 ur rn zE szh Ezh _ _ (size_numerator_le alpha h8).
- by move=> e i He Hi; rewrite h1 h2 h3 meaning_ext; exact: sat.
- by move=> p i Hq Hi; apply: h9 => //; exact: rn.
have [cs' [Hcs' scs _ _]] := @c36_quotient_round F env PC (c_d C) vk pre (c_vos C) es A (c_zh C) beta gamma alpha
  eok sd se le ge k0 h6 h4 h5 p1 p2 p3 szh Ezh.
by exists A, cs; split=> //; rewrite -scs; congr size; move: Hcs'; rewrite Hcs => -[].
Qed.

(** And C38 to the columns of every run with a gate that fails on a row of z_h. *)
Lemma run_c38 (F : fieldType) (env : fenv F) (PC : pcs F) (FS : fsrng F) (ck : pc_ck PC)
    (C : circuit F) (vk : verifier_key F) (es : seq (expr F oquery)) (rows i : nat) (e : expr F oquery)
    (zk zk' : pc_zk PC) (pf : tp_proof PC) :
  let ix := vk_index vk in let pa := ix_perm ix in let N := dsize (ix_ext ix) in let n := c_rows C in let w := dgen (c_d C) in
  let ch := derive_challenges FS pf in let beta := ch_beta ch in let gamma := ch_gamma ch in
  let pre := preprocessed env PC C vk in
  fenv_ok env -> std_domain env (c_d C) ->
  indexed env C vk -> laid_out C -> gates_ok C es -> (0 < size (c_vos C))%N -> lookups_ok C N ->
  (0 < pa_usable_rows pa)%N -> quotient_room C es rows (pa_max_cols pa) N ->
  tp_prove env FS ck vk pre (c_ws C) (c_ins C) (c_vos C) n zk = Ok (pf, zk') ->
  (0 < N)%N -> (i < n)%N -> (Poly (c_zh C)).[w ^+ i] = 0 -> occurs e es -> meaning (row_value (c_ws C) (c_ins C) (c_fs C) n i) e != 0 ->
  exists A, [/\ as_ws A = map (compute_extended_evals env (ix_ext ix)) (c_ws C), shape_ok (c_d C) pa A (size (ix_lookups ix)) &
  at_most (size (c_vos C) + 2 * size (as_zs A) + 5 * size (ix_lookups ix)) (fun alpha => exists ts : seq (poracle F),
    ~ at_most (maxn (rows + N).-1 (size (recombined n (map (@opoly F) ts)) + size (Poly (c_zh C))).-2) (fun xi => exists (v : view F (pc_com PC)) vpre,
        [/\ sees w xi (pa_usable_rows pa) v A ts, vp_fixed vpre = v_fs v, vp_perm vpre = v_sigmas v, vp_q_blind vpre = v_qb v &
         quotient_check vk (v_ws v) (v_ins v) vpre (v_copied v) (v_zs v) (v_los v) (v_lzs v) (v_chunks v) (c_vos C)
           beta gamma alpha xi (c_d C) n (c_zh C) = Ok tt]))].
Proof.
move=> ix pa N n w ch beta gamma pre eok sd ixd lay gok k0 lks u0 room Hp N0 Hi zi He ne.
have [A [h1 h2 h3 [p1 p2 p3] [h4 h5 [h6 h7] h8 h9]]] := c37_hypotheses_in_runs eok sd ixd lay gok lks room Hp.
exists A; split=> //; have [ge _ _] := gok.
have [[uw _] [ui _] [uf _]] := And3 (ao_ws h5) (ao_ins h5) (ao_fs h5).
have [_ E] := expr_row_ok eok sd (ao_ws h5) (ao_ins h5) (ao_fs h5) Hi (fun q Hq => h6 e q He Hq).
apply: (@c38_piop_soundness F env PC (c_d C) vk (c_vos C) es A (c_zh C) beta gamma (rows + N).-1 i
  (expr_poly (as_ws A) (as_ins A) (as_fs A) (dgen (c_d C)) e)) => //.
- by left.
- by move=> q /h8; rewrite prednK // addn_gt0 N0 orbT.
- by rewrite /constraint_polys mem_cat; apply/orP; left; rewrite /vo_polys; elim: (es) He => [//|x s IH] [->|Hx]; rewrite map_cons inE ?eqxx ?IH ?orbT.
- by rewrite E h1 h2 h3 meaning_ext.
Qed.

(** ** Concrete cases *)
From Coq Require Import NArith String.
From Verif Require Import Field97 Concrete ProofPC ProofConcrete ProofTools Run97 PropsTranscript.
Local Close Scope ring_scope.

(** C35: two virtual oracles, one grand product, one lookup; the second virtual oracle is 3 on some
    row, everything else 0. At most 9 alphas hide it. *)
Example ex_c35_separation : at_most 9 (fun alpha : F97 => exists2 al, alpha_schedule alpha 2 1 1 = Ok al &
  row_sum al [:: 0; n97 3]%R (nseq 3 0)%R [:: nseq 5 0%R] = 0%R).
Proof.
apply (@c35_separation_partial F97 2 1 1 [:: 0; n97 3]%R (nseq 3 0)%R [:: nseq 5 0%R] (n97 3)); try (vm_compute; reflexivity).
- by right; vm_compute.
- by left; vm_compute.
Qed.

(** C36: 11 coefficients in three chunks of 4. *)
Example ex_c36_chunks : let q := col (iota 1 11) in
  chunksR 4 (q ++ nseq (3 * 4 - size q) 0%R) = Ok [:: col [:: 1; 2; 3; 4]; col [:: 5; 6; 7; 8]; col [:: 9; 10; 11; 0]] /\
  forall x : F97, (peval (col [:: 1; 2; 3; 4]%nat) x + x ^+ 4 * peval (col [:: 5; 6; 7; 8]%nat) x + (x ^+ 4) ^+ 2 * peval (col [:: 9; 10; 11; 0]%nat) x
    = peval q x)%R.
Proof.
have [cs [E1 E2 E3 E4]] := @c36_chunks_recombine F97 4 3 (col (iota 1 11)) isT isT.
have E : chunksR 4 (col (iota 1 11) ++ nseq (3 * 4 - size (col (iota 1 11))) 0%R) = Ok [:: col [:: 1; 2; 3; 4]; col [:: 5; 6; 7; 8]; col [:: 9; 10; 11; 0]].
  by apply: (etrans (y := Ok (ok_or [::] (chunksR 4 (col (iota 1 11) ++ nseq (3 * 4 - size (col (iota 1 11))) 0%R))))); [apply: ok_anyP; vm_compute|congr Ok; apply/eqP; vm_compute].
split; first exact E; move: E1; rewrite E => -[E1] x; have := E4 x; rewrite -E1 !pevalE !big_ord_recr big_ord0 /= !expr0 mul1r add0r expr1 => <-.
by [].
Qed.

(** C36-C38: the run of Run97.v, with four copied columns in two grand products and one lookup, and
    the same run with the public input 83 instead of 82, for which the first gate fails in row 2. *)
Lemma r_k0 : 0 < size (c_vos r_C). Proof. by vm_compute. Qed.
Example ex_c37 (alpha : F97) : let ix := vk_index r_vk in let ch := derive_challenges FS97 r_proof in
  exists (A : assignment F97) cs, [/\ as_ws A = map (compute_extended_evals env97 (ix_ext ix)) (c_ws r_C),
    shape_ok (c_d r_C) (ix_perm ix) A (size (ix_lookups ix)),
    prover_quotient_round env97 r_vk (preprocessed env97 KZG97 r_C r_vk) (as_ws A) (as_ins A) (copied (as_ws A)) (as_zs A) (as_los A) (as_lzs A) (c_vos r_C)
      (ch_beta ch) (ch_gamma ch) alpha (c_d r_C) = Ok cs,
    forall xi (v : view F97 (pc_com KZG97)) vpre, sees (dgen (c_d r_C)) xi (pa_usable_rows (ix_perm ix)) v A cs ->
      vp_fixed vpre = v_fs v -> vp_perm vpre = v_sigmas v -> vp_q_blind vpre = v_qb v ->
      quotient_check (PC := KZG97) r_vk (v_ws v) (v_ins v) vpre (v_copied v) (v_zs v) (v_los v) (v_lzs v) (v_chunks v) (c_vos r_C)
        (ch_beta ch) (ch_gamma ch) alpha xi (c_d r_C) (c_rows r_C) (c_zh r_C) = Ok tt &
    size cs = r_N %/ c_rows r_C].
Proof.
exact (@run_c37 F97 env97 KZG97 FS97 srs97 r_C r_vk (r_exprs r_C) (iota 0 (c_rows r_C)) 11%num (ok_or (r_dummy, 0%num) r_run).2 r_proof alpha
  env97_ok dom97_8 r_indexed r_laid_out r_gates_ok r_k0 r_lookups_ok r_van r_satisfied r_quotient_room r_run_C).
Qed.
Example ex_c37_shape : let pa := ix_perm (vk_index r_vk) in
  [&& size (copied (c_ws r_C)) == 4, pa_usable_rows pa == 5, pa_max_cols pa == 3, size (ix_lookups (vk_index r_vk)) == 1 & r_N %/ c_rows r_C == 4].
Proof. by vm_compute. Qed.

Definition r2_ins : seq (poracle F97) :=
  (ok_or (r_arith, r_trans, r_lookup, (r_w, r_pi 83, r_f), r_t) (configure_run (r_w, r_pi 83, r_f) r_t)).1.2.1.2.
Definition r2_C : circuit F97 :=
  Circuit r_ws r2_ins r_fs r_ts r_sigma r_qblind r_vos [:: r_l] r_d r_zh (PermutationInfo r_u r_deltas) r_u.
Definition r2_vk := ok_or r_vk0 (ModelIndexer.index env97 (fun o : pdata F97 => pd_permute o) r_vos [:: r_l]
  r_ws r2_ins r_fs r_d r_zh (PermutationInfo r_u r_deltas) r_u).
Definition r2_run := tp_prove env97 (PC := KZG97) FS97 srs97 r2_vk (preprocessed env97 KZG97 r2_C r2_vk) (c_ws r2_C) (c_ins r2_C) (c_vos r2_C) (c_rows r2_C) 11%num.
Definition r2_proof := (ok_or (r_dummy, 0%num) r2_run).1.
Definition r2_e : expr F97 oquery := nth (Const 0%R) (r_exprs r2_C) 0.
Definition r2_N : nat := dsize (ix_ext (vk_index r2_vk)).
Lemma r2_indexed : indexed env97 r2_C r2_vk. Proof. by apply: (ok_anyP r_vk0); vm_compute. Qed.
Lemma r2_laid_out : laid_out r2_C. Proof. by apply: laid_outP; vm_compute. Qed.
Lemma r2_gates_ok : gates_ok r2_C (r_exprs r2_C). Proof. by apply: gates_okP; vm_compute. Qed.
Lemma r2_lookups_ok : lookups_ok r2_C r2_N. Proof. by apply: lookups_okP; vm_compute. Qed.
Lemma r2_room : quotient_room r2_C (r_exprs r2_C) 8 (pa_max_cols (ix_perm (vk_index r2_vk))) r2_N.
Proof. by apply: quotient_roomP; vm_compute. Qed.
Lemma r2_run_ok : r2_run = Ok (r2_proof, (ok_or (r_dummy, 0%num) r2_run).2).
Proof. by rewrite {1}(ok_anyP (r_dummy, 0%num) (r := r2_run)) /r2_proof; [case: (ok_or _ _)|vm_compute]. Qed.
Example ex_c38 : let ix := vk_index r2_vk in let pa := ix_perm ix in let ch := derive_challenges FS97 r2_proof in
  exists A, [/\ as_ws A = map (compute_extended_evals env97 (ix_ext ix)) (c_ws r2_C), shape_ok (c_d r2_C) pa A (size (ix_lookups ix)) &
  at_most (size (c_vos r2_C) + 2 * size (as_zs A) + 5 * size (ix_lookups ix)) (fun alpha => exists ts : seq (poracle F97),
    ~ at_most (maxn (8 + r2_N).-1 (size (recombined (c_rows r2_C) (map (@opoly F97) ts)) + size (Poly (c_zh r2_C))).-2) (fun xi =>
      exists (v : view F97 (pc_com KZG97)) vpre,
        [/\ sees (dgen (c_d r2_C)) xi (pa_usable_rows pa) v A ts, vp_fixed vpre = v_fs v, vp_perm vpre = v_sigmas v, vp_q_blind vpre = v_qb v &
         quotient_check (PC := KZG97) r2_vk (v_ws v) (v_ins v) vpre (v_copied v) (v_zs v) (v_los v) (v_lzs v) (v_chunks v) (c_vos r2_C)
           (ch_beta ch) (ch_gamma ch) alpha xi (c_d r2_C) (c_rows r2_C) (c_zh r2_C) = Ok tt]))].
Proof.
have k0 : 0 < size (c_vos r2_C) by vm_compute.
have u0 : 0 < pa_usable_rows (ix_perm (vk_index r2_vk)) by vm_compute.
have N0 : 0 < r2_N by vm_compute.
have i0 : 2 < c_rows r2_C by vm_compute.
have z0 : ((Poly (c_zh r2_C)).[dgen (c_d r2_C) ^+ 2] = 0)%R.
  by rewrite -pevalE; apply/eqP; vm_compute.
have He : occurs r2_e (r_exprs r2_C) by left; reflexivity.
have ne : (meaning (row_value (c_ws r2_C) (c_ins r2_C) (c_fs r2_C) (c_rows r2_C) 2) r2_e != 0)%R by vm_compute.
exact (@run_c38 F97 env97 KZG97 FS97 srs97 r2_C r2_vk (r_exprs r2_C) 8 2 r2_e 11%num (ok_or (r_dummy, 0%num) r2_run).2 r2_proof
  env97_ok dom97_8 r2_indexed r2_laid_out r2_gates_ok k0 r2_lookups_ok u0 r2_room r2_run_ok N0 i0 z0 He ne).
Qed.
