(** Property theorems C62: prove refuses witnesses that violate copy constraints or lookups. *)
From mathcomp Require Import all_ssreflect all_algebra.
From mathcomp Require Import zify.
From Verif Require Import Base ModelPoly ModelVO ModelOracle ModelPC ModelPermutation ModelLookup ModelIndexer ModelMultiproof ModelProtocol
  Spec SpecProtocol SpecPIOP SpecMultiopen SpecCircuit SpecProve ProofBase ProofPoly ProofDomain ProofLookup ProofIndexer ProofColumns ProofOpen ProofPIOP ProofPIOP2 ProofPIOP3 ProofEach ProofProver ProofFront
  ProofInstances ProofRounds ProofHonest ProofComplete ProofMultiopen2 ProofSound ProofProve PropsPermutation PropsRows.

Set Implicit Arguments.
Unset Strict Implicit.
Unset Printing Implicit Defensive.

Import GRing.Theory.
Local Open Scope ring_scope.

Section C62.
Variables (F : fieldType) (env : fenv F) (PC : pcs F) (ck : pc_ck PC) (C : circuit F) (vk : verifier_key F).
Let n := c_rows C.
Let d := c_d C.
(** prove returns a proof when the transcript gives these challenges first, whatever comes after them and whatever the
    random generator gives. *)
Definition provable (challenges : seq F) : Prop :=
  exists rest zk, is_ok (tp_prove env (scripted (challenges ++ rest)) ck vk (preprocessed env PC C vk) (c_ws C) (c_ins C) (c_vos C) n zk).

Hypothesis eok : fenv_ok env.
Hypothesis sd : std_domain env d.
Hypothesis ixd : indexed env C vk.
Hypothesis lay : laid_out C.

Lemma provable_trace challenges : provable challenges -> exists rest zk pf zk' T, let cs := challenges ++ rest in
  prover_trace env ck vk (preprocessed env PC C vk) (c_ws C) (c_ins C) (c_vos C) n zk
    cs`_0 cs`_1 cs`_2 cs`_3 cs`_4 pf T /\
  tp_prove env (scripted cs) ck vk (preprocessed env PC C vk) (c_ws C) (c_ins C) (c_vos C) n zk = Ok (pf, zk').
Proof.
case=> rest [zk]; case E: (tp_prove _ _ _ _ _ _ _ _ _ _) => [[pf zk']|//|//] _.
exists rest, zk, pf, zk'; have [T [tr _]] := prover_inv E; exists T; split=> //.
by move: tr; rewrite /derive_challenges; cbn [fs_init fs_rand fs_absorb scripted ch_theta ch_beta ch_gamma ch_alpha ch_xi]; rewrite -!nth0 !nth_behead.
Qed.

(** C62, copies: the permutation columns encode [tau] on the usable rows and cell [bad] does not have the value of its
    image. Whatever theta is, for all but [K u] betas there are at most [2 K u] gammas with which prove returns a proof. *)
Theorem c62_violated_copy_is_refused (tau : nat * nat -> nat * nat) (bad : nat * nat) (theta : F) :
  let ws := copied (c_ws C) in let K := size ws in let u := pi_u (c_info C) in let deltas := pi_deltas (c_info C) in
  (u < n)%N ->
  (forall j j', (j < K)%N -> (j' < K)%N -> deltas`_j' != 0 /\ ((deltas`_j / deltas`_j') ^+ n = 1 -> j = j')) ->
  (forall c, is_cell K u c -> is_cell K u (tau c)) ->
  (forall c, is_cell K u c -> cell_value (c_sigmas C) c.1 c.2 = deltas`_(tau c).1 * dgen d ^+ (tau c).2) ->
  is_cell K u bad -> cell_value ws bad.1 bad.2 <> cell_value ws (tau bad).1 (tau bad).2 ->
  at_most (K * u) (fun beta => ~ at_most (2 * (K * u)) (fun gamma => provable [:: theta; beta; gamma])).
Proof.
move=> ws K u deltas un dd tc ts bc viol; have dok := std_domain_ok eok sd.
have [iu idl _] := index_rows ixd.
pose f := compute_extended_evals env (ix_ext (vk_index vk)).
have cv os j i : cell_value (map f os) j i = cell_value os j i.
  by rewrite /cell_value idx_map; case: (idx os j).
have K0 : (0 < K)%N by move: bc => /andP[H _]; apply: leq_ltn_trans H.
(* the prover asserts that there are as many deltas as copied columns *)
have main beta gamma : provable [:: theta; beta; gamma] ->
  [/\ size deltas = K, (0 < pa_max_cols (ix_perm (vk_index vk)))%N & exists z, perm_rows_hold n u (pa_max_cols (ix_perm (vk_index vk))) K beta gamma
     (cell_value (map f ws)) (cell_value (map f (c_sigmas C))) (fun j i => deltas`_j * dgen d ^+ i) z].
  case/provable_trace => rest [zk [pf [zk' [T [tr _]]]]].
  have Ed : t_d T = d by have := pt_d tr; rewrite -/d sd => -[].
  have Hz := pt_zs tr; rewrite Ed /= in Hz.
  have [||[nn _]|[_ [m0 s1 s2 _] Hr _ _]] := permutation_round_inv _ _ Hz.
  - by rewrite iu.
  - rewrite -[oracles_to_copy _]/(copied (map _ (c_ws C))) copied_ext => o [Ho|Ho]; have [o' Ho' ->] := occurs_map Ho.
      by have [|-> //] := @lay_in F C lay o'; left; exact: occurs_filter Ho'.
    by have [|-> //] := @lay_in F C lay o'; (right; right; right; right; left).
  - by move: nn; rewrite -[oracles_to_copy _]/(copied (map _ (c_ws C))) copied_ext /nilp size_map -/ws -/K; case: (K) K0.
  have sc : oracles_to_copy (ws_ext env vk (c_ws C)) = map f ws.
    by rewrite -[oracles_to_copy _]/(copied (map _ (c_ws C))) copied_ext.
  rewrite sc iu idl size_map in s1 s2 Hr.
  by split=> //; exists (cell_value (t_zs T)).
case ok : ((size deltas == K) && (0 < pa_max_cols (ix_perm (vk_index vk)))%N); last first.
  apply: at_most_none => beta; apply; apply: at_most_none => gamma /main [e1 e2 _].
  by move: ok; rewrite e1 eqxx e2.
case/andP: ok => /eqP sD m0.
have lab := @c25_identity_labels F d deltas K u dok (ltnW un) sD dd.
have := @c25_permutation_soundness F n u _ K (cell_value (map f ws)) (cell_value (map f (c_sigmas C)))
  (fun j i => deltas`_j * dgen d ^+ i) tau bad m0 un lab tc.
have ts' c : is_cell K u c -> cell_value (map f (c_sigmas C)) c.1 c.2 = deltas`_(tau c).1 * dgen d ^+ (tau c).2 by rewrite cv; exact: ts.
have viol' : cell_value (map f ws) bad.1 bad.2 <> cell_value (map f ws) (tau bad).1 (tau bad).2 by rewrite !cv.
move=> /(_ ts' bc viol'); apply: at_most_sub => beta nb ng; apply: nb; apply: at_most_sub ng => gamma.
by case/main.
Qed.

(** C62, lookups: in usable row [bad] the tuple of values of lookup [l], of [k] columns, is not a usable row of its
    table. With at most [u (k - 1)] thetas prove returns a proof. *)
Theorem c62_violated_lookup_is_refused (l : generic_lookup_vo F) (es : seq (expr F oquery)) (tqs : seq oquery) (bad : nat) :
  let u := c_u C in
  lookups_ok C (dsize (ix_ext (vk_index vk))) -> occurs l (c_lookups C) -> gl_get_expressions l = Ok es -> gl_get_table_queries l = Ok tqs ->
  (bad < u)%N ->
  (forall j, (j < u)%N -> [seq meaning (row_value (c_ws C) (c_ins C) (c_fs C) n bad) e | e <- es]
                          <> [seq (column_named (c_ts C) (oq_label q))`_j | q <- tqs]) ->
  at_most (u * (size es).-1) (fun theta => provable [:: theta]).
Proof.
move=> u lks Hl E1 E2 Hb viol.
have [se le] := ext_std eok sd ixd; pose f := compute_extended_evals env (ix_ext (vk_index vk)).
have wfw := wf_ws env vk lay; have wfi := wf_ins env vk lay; have wff := wf_fs env vk lay; have wft := wf_ts env vk lay.
have [es' [tqs' [E1' E2' [h1 h2] [h3 h4] [h5 h6]]]] := lks.1 l Hl.
have [? ?] : es' = es /\ tqs' = tqs by move: E1' E2'; rewrite E1 E2 => -[->] [->].
subst es' tqs'; have h1e := exprs_ok_ext env (ix_ext (vk_index vk)) h1; have h3e := (tables_ext env (ix_ext (vk_index vk)) (conj h3 h4)).1.
have [j Hj] := occurs_ex_idx Hl.
have main theta : provable [:: theta] -> exists zk lo zk1,
  construct_a_and_s_polys_prover env (@pc_zk_rand F PC) (map f (c_ws C)) (map f (c_ins C)) (map f (c_fs C)) (map f (c_ts C)) u j es tqs
    theta d (ix_ext (vk_index vk)) zk = Ok (lo, zk1).
  case/provable_trace => rest [zk [pf [zk' [T [tr _]]]]].
  have Ed : t_d T = d by have := pt_d tr; rewrite -/d sd => -[].
  have Hz := lookup_round_inv (pt_los tr); rewrite Ed /= in Hz.
  have Hkl : idx (enumerate (ix_lookups (vk_index vk))) j = Ok (j, l) by rewrite idx_enumerate (ix_lookupsE eok sd ixd) Hj.
  have [lo Hlo] : exists lo, idx (t_los T) j = Ok lo by apply: (idx_size2 _ Hkl); rewrite (each2_size Hz).
  have [es' [tqs' [z1 [z2 [/= F1 F2 F3]]]]] := each2_idx Hz Hkl Hlo.
  have [? ?] : es' = es /\ tqs' = tqs by move: F1 F2; rewrite E1 E2 => -[->] [->].
  by subst es' tqs'; have [_ _ iu] := index_rows ixd; rewrite iu in F3; exists z1, lo, z2.
have [ss|ss] := eqVneq (size es) (size tqs); last first.
  apply: at_most_none => theta /main [z [lo [z1]]]; rewrite /construct_a_and_s_polys_prover => H.
  by have [_ /rassert_ok] := rbind_ok H; rewrite (negbTE ss).
have sA theta : (size (lookup_poly (map f (c_ws C)) (map f (c_ins C)) (map f (c_fs C)) (dgen d) es theta) <= dsize (ix_ext (vk_index vk)))%N.
  apply: size_compressed => p Hp; have [e He ->] := in_map_occurs Hp.
  apply: leq_trans (h6 e He); apply: (expr_poly_size_wf eok _ sd wfw wfi wff) => [|q Hq].
    exact: ltnW (lay_rows lay).
  exact: h1e He Hq.
have V i : (i < u)%N -> [seq meaning (row_value (map f (c_ws C)) (map f (c_ins C)) (map f (c_fs C)) (dsize d) bad) e | e <- es]
                          <> [seq (column_named (map f (c_ts C)) (oq_label q))`_i | q <- tqs].
  move=> Hi; have := viol i Hi.
  have -> : [seq meaning (row_value (map f (c_ws C)) (map f (c_ins C)) (map f (c_fs C)) (dsize d) bad) e | e <- es] =
            [seq meaning (row_value (c_ws C) (c_ins C) (c_fs C) n bad) e | e <- es].
    by apply: eq_map => e; rewrite meaning_ext.
  by have -> : [seq (column_named (map f (c_ts C)) (oq_label q))`_i | q <- tqs] = [seq (column_named (c_ts C) (oq_label q))`_i | q <- tqs]
    by apply: eq_map => q; rewrite column_ext.
apply: (at_most_sub main).
exact: (@c31_prover_refuses F env _ (@pc_zk_rand F PC) d _ _ _ _ _ u j es tqs bad eok sd se le wfw wfi wff wft h1e h3e sA ss Hb V).
Qed.
End C62.
Print Assumptions c62_violated_copy_is_refused.
Print Assumptions c62_violated_lookup_is_refused.

(** ** Concrete cases *)
From Coq Require Import NArith String.
From Verif Require Import Field97 Concrete ProofPC ProofConcrete ProofTools ProofCheck ProofIndexerExamples Run97 PropsTranscript PropsEndToEnd PropsProve.
Local Close Scope ring_scope.

(** The circuit of Run97.v with another witness. *)
Definition v_C (w : seq (poracle F97)) : circuit F97 :=
  let conf := ok_or (r_arith, r_trans, r_lookup, (w, r_pi 82, r_f), r_t) (configure_run (w, r_pi 82, r_f) r_t) in
  Circuit conf.1.2.1.1 conf.1.2.1.2 conf.1.2.2 conf.2 r_sigma r_qblind [:: conf.1.1.1.1; conf.1.1.1.2] [:: conf.1.1.2]
    r_d r_zh (PermutationInfo r_u r_deltas) r_u.
(** 9 instead of 1 in row 4 of a, which the copies want equal to row 4 of d. *)
Definition v_copy : circuit F97 := v_C
  [:: porc Witness 8 "a" (col [:: 3; 12; 15; 7; 9; 31; 5; 66]) true; nth r_qblind r_w 1; nth r_qblind r_w 2; nth r_qblind r_w 3].
(** 9 instead of 5 in row 3 of d: (6, 9) is not in the table. *)
Definition v_look : circuit F97 := v_C
  [:: nth r_qblind r_w 0; nth r_qblind r_w 1; nth r_qblind r_w 2; porc Witness 8 "d" (col [:: 2; 2; 4; 9; 1; 2; 77; 4]) true].
Lemma v_copy_indexed : indexed env97 v_copy r_vk. Proof. by apply: (ok_anyP r_vk0); vm_compute. Qed.
Lemma v_copy_laid : laid_out v_copy. Proof. by apply: laid_outP; vm_compute. Qed.
Lemma v_look_indexed : indexed env97 v_look r_vk. Proof. by apply: (ok_anyP r_vk0); vm_compute. Qed.
Lemma v_look_laid : laid_out v_look. Proof. by apply: laid_outP; vm_compute. Qed.
Lemma v_look_ok : lookups_ok v_look r_N. Proof. by apply: lookups_okP; vm_compute. Qed.
Lemma r_cosets j j' : j < 4 -> j' < 4 ->
  (nth 0 r_deltas j' != 0)%R /\ ((nth 0 r_deltas j / nth 0 r_deltas j') ^+ 8 = 1 -> j = j')%R.
Proof.
have H : all (fun j => all (fun j' => (nth 0 r_deltas j' != 0)%R && (((nth 0 r_deltas j / nth 0 r_deltas j') ^+ 8 == 1)%R ==> (j == j'))) (iota 0 4)) (iota 0 4)
  by vm_compute.
move=> Hj Hj'; move/allP: H => /(_ j); rewrite mem_iota => /(_ Hj) /allP /(_ j'); rewrite mem_iota => /(_ Hj') /andP[h1 /implyP h2].
split; [exact h1|by move=> /eqP /h2 /eqP].
Qed.
(** Whatever theta is, for all but 20 of the 97 betas prove returns a proof for at most 40 gammas. *)
Example ex_c62_copy (theta : F97) :
  at_most 20 (fun beta => ~ at_most 40 (fun gamma => provable (PC := KZG97) env97 srs97 v_copy r_vk [:: theta; beta; gamma])).
Proof.
have eK : size (copied (c_ws v_copy)) = 4 by vm_compute.
have en : c_rows v_copy = 8 by vm_compute.
have [_ t1 _ t2 _] := r_copies.
have eR : size (copied (c_ws r_C)) = 4 by vm_compute.
have h1 : pi_u (c_info v_copy) < c_rows v_copy by vm_compute.
have h2 : is_cell 4 5 (0, 4) by vm_compute.
have h3 : cell_value (copied (c_ws v_copy)) 0 4 <> cell_value (copied (c_ws v_copy)) (r_next (0, 4)).1 (r_next (0, 4)).2
  by apply/eqP; vm_compute.
have := @c62_violated_copy_is_refused F97 env97 KZG97 srs97 v_copy r_vk env97_ok dom97_8 v_copy_indexed v_copy_laid r_next (0, 4) theta.
rewrite eR in t1 t2; cbv zeta; rewrite eK en => H; exact (H h1 r_cosets t1 t2 h2 h3).
Qed.
(** With at most 5 of the 97 thetas prove returns a proof. *)
Example ex_c62_lookup : at_most 5 (fun theta => provable (PC := KZG97) env97 srs97 v_look r_vk [:: theta]).
Proof.
have h0 : occurs (nth r_l (c_lookups v_look) 0) (c_lookups v_look) by left.
have h1 : gl_get_expressions (nth r_l (c_lookups v_look) 0) = Ok (ok_or [::] (gl_get_expressions (nth r_l (c_lookups v_look) 0)))
  by apply: ok_anyP; vm_compute.
have h2 : gl_get_table_queries (nth r_l (c_lookups v_look) 0) = Ok (ok_or [::] (gl_get_table_queries (nth r_l (c_lookups v_look) 0)))
  by apply: ok_anyP; vm_compute.
have h3 : 3 < c_u v_look by vm_compute.
have h4 : all (fun j => [seq meaning (row_value (c_ws v_look) (c_ins v_look) (c_fs v_look) (c_rows v_look) 3) e
                        | e <- ok_or [::] (gl_get_expressions (nth r_l (c_lookups v_look) 0))]
     != [seq nth 0%R (column_named (c_ts v_look) (oq_label q)) j | q <- ok_or [::] (gl_get_table_queries (nth r_l (c_lookups v_look) 0))]) (iota 0 5)
  by vm_compute.
have h5 j : j < c_u v_look -> [seq meaning (row_value (c_ws v_look) (c_ins v_look) (c_fs v_look) (c_rows v_look) 3) e
                        | e <- ok_or [::] (gl_get_expressions (nth r_l (c_lookups v_look) 0))]
     <> [seq nth 0%R (column_named (c_ts v_look) (oq_label q)) j | q <- ok_or [::] (gl_get_table_queries (nth r_l (c_lookups v_look) 0))].
  by move=> Hj; move/allP: h4 => /(_ j); rewrite mem_iota => /(_ Hj) /eqP.
have := @c62_violated_lookup_is_refused F97 env97 KZG97 srs97 v_look r_vk env97_ok dom97_8 v_look_indexed v_look_laid
  _ _ _ 3 v_look_ok h0 h1 h2 h3 h5.
have -> : c_u v_look * (size (ok_or [::] (gl_get_expressions (nth r_l (c_lookups v_look) 0)))).-1 = 5 by vm_compute.
exact: id.
Qed.
