(** Property theorems C67: verify accepts only when every cell the constraints read is among the cells the columns are opened at. *)
From mathcomp Require Import all_ssreflect all_algebra.
From mathcomp Require Import zify.
From Verif Require Import Base ModelPoly ModelVO ModelOracle ModelPC ModelPermutation ModelLookup ModelIndexer ModelMultiproof ModelProtocol
  Spec SpecProtocol SpecClaims ProofBase ProofPoly ProofVO ProofDomain ProofOracle ProofPermutation ProofEach ProofPIOP ProofFront ProofComplete ProofSound ProofClaims.

Set Implicit Arguments.
Unset Strict Implicit.
Unset Printing Implicit Defensive.

Import GRing.Theory.
Local Open Scope ring_scope.

Section Claims.
Variables (F : fieldType) (env : fenv F) (d : domain F) (PC : pcs F) (FS : fsrng F) (pvk : pc_vk PC) (vk : verifier_key F) (pre : verifier_pre PC)
  (proof : tp_proof PC) (ws : seq (voracle F (pc_com PC))) (ins : seq (ioracle F)) (vos : seq (generic_vo F)) (z_h : lpoly F).
Hypothesis eok : fenv_ok env.
Hypothesis sd : std_domain env d.
Let n := dsize d.
Let xi := ch_xi (derive_challenges FS proof).
Hypothesis fresh_columns : [/\ unused ws, unused (vp_fixed pre) & unused (vp_table pre)].
Hypothesis xi0 : xi != 0.
Hypothesis accepted : (tp_verify env FS pvk vk pre proof ws ins vos n z_h).1 = Ok tt.
Let dok : domain_ok d := std_domain_ok eok sd.

Lemma rot_pointE r r' : rot_point (dgen d) r xi = rot_point (dgen d) r' xi -> rot_row n r 0 = rot_row n r' 0.
Proof. exact: (rot_point_eq r r' dok xi0).1. Qed.
Lemma curr_point : xi = rot_point (dgen d) curr xi. Proof. by rewrite /rot_point /= expr0 mulr1. Qed.

(** Every gate expression exists, and every cell it reads is opened. *)
Theorem c67_gate_queries_opened vo : occurs vo vos ->
  exists2 e, gv_get_expression vo = Ok e & forall q, occurs q (leaves e) -> answered n ws (vp_fixed pre) ins q (oq_rot q).
Proof.
have [T R] := run_of eok sd fresh_columns accepted; move=> Hvo; move: (run_check R); rewrite /quotient_check => H.
have {H} [al Hal H] := rbind_ok H; do 2 (have {H} [? _ H] := rbind_ok H); have {H} [v Ev _] := rbind_ok H.
have Eal : ap_vos al = powers (size vos) 1 (ch_alpha (derive_challenges FS proof)).
  by move: Hal; rewrite /alpha_schedule => H; have [la _ H'] := rbind_ok H; rewrite -(Ok_inj H').
have [a Ha] : exists a, occurs (vo, a) (zip vos (ap_vos al)) by apply: occurs_zipl => //; rewrite Eal size_powers.
have [t [t' Et]] := rfoldM_step Ev Ha; have {Et} [e He Et] := rbind_ok Et; have {Et} [x Ex _] := rbind_ok Et.
exists e => // q Hq; have [y] := eval_res_leaf Ex Hq; rewrite /verifier_leaf /answered => H.
have {H} [p /(compute_point_inv dok) Ep H] := rbind_ok H; subst p; move: H; rewrite /query_leaf; case: (oq_type q) => H.
- have {H} [o /resolve_ok [Ho <-] H] := rbind_ok H; have [v0 [r [h1 h2 h3 h4]]] := run_ws R Ho H.
  by exists v0, r; split=> //; apply: rot_pointE; rewrite -h4.
- by have {H} [o /resolve_ok [Ho El] H] := rbind_ok H; exists o.
- have {H} [o /resolve_ok [Ho <-] H] := rbind_ok H; have [v0 [r [h1 h2 h3 h4]]] := run_fixed R Ho H.
  by exists v0, r; split=> //; apply: rot_pointE; rewrite -h4.
Qed.

(** The same for the lookups; fixed columns and tables are read at the current row whatever the query says. *)
Theorem c67_lookup_queries_opened l : occurs l (ix_lookups (vk_index vk)) ->
  exists es tqs, [/\ gl_get_expressions l = Ok es, gl_get_table_queries l = Ok tqs, size es = size tqs,
    forall e q, occurs e es -> occurs q (leaves e) -> answered n ws (vp_fixed pre) ins q curr &
    forall q, occurs q tqs -> oq_type q = Fixed /\ opened n (vp_table pre) (oq_label q) curr].
Proof.
have [T R] := run_of eok sd fresh_columns accepted; move=> Hl; have [k [cs [evs [oi [lo H]]]]] := run_lookups R Hl.
move: H; rewrite /lookup_oracles_v => H; have {H} [es Ees H] := rbind_ok H; have {H} [tqs Etqs H] := rbind_ok H.
have {H} [as_ H _] := rbind_ok H; move: H; rewrite /construct_a_and_s_verifier => H.
have {H} [? /rassert_ok /eqP sz H] := rbind_ok H; have {H} [a Ea H] := rbind_ok H; have {H} [s Es _] := rbind_ok H.
exists es, tqs; split=> //.
  move=> e q He Hq; have [y Hy] := compress_each Ea He; have [z] := eval_res_leaf Hy Hq; rewrite /answered; case: (oq_type q) => H.
  - have {H} [p /(compute_point_inv dok) Ep H] := rbind_ok H; subst p.
    have {H} [o /resolve_ok [Ho <-] H] := rbind_ok H; have [v0 [r [h1 h2 h3 h4]]] := run_ws R Ho H.
    by exists v0, r; split=> //; apply: rot_pointE; rewrite -h4.
  - by have {H} [o /resolve_ok [Ho El] H] := rbind_ok H; exists o.
  - have {H} [o /resolve_ok [Ho <-] H] := rbind_ok H; have [v0 [r [h1 h2 h3 h4]]] := run_fixed R Ho H.
    by exists v0, r; split=> //; apply: rot_pointE; rewrite -h4 -curr_point.
move=> q Hq; have [y] := compress_each Es Hq; rewrite /table_leaf; case: (oq_type q) => //= H; split=> //.
have {H} [o /resolve_ok [Ho <-] H] := rbind_ok H; have [v0 [r [h1 h2 h3 h4]]] := run_table R Ho H.
by exists v0, r; split=> //; apply: rot_pointE; rewrite -h4 -curr_point.
Qed.

(** Every copied column is opened at the current row. *)
Theorem c67_copied_columns_opened v : occurs v ws -> vd_permute (o_data v) -> opened n ws (o_label v) curr.
Proof.
have [T R] := run_of eok sd fresh_columns accepted; move=> Hv Hp; have [v' Hv' El] := run_copied R Hv Hp.
move: (run_check R); rewrite /quotient_check => H; do 4 (have {H} [? _ H] := rbind_ok H); have {H} [p Ep _] := rbind_ok H.
move: Ep; case: ifP => [/nilP E|_ Ep]; first by rewrite E in Hv'.
have [e He] := perm_open_queries Ep Hv'; have [v0 [r [h1 h2 h3 h4]]] := run_ws R (occurs_filter Hv') He.
by exists v0, r; split=> //; rewrite ?h2 //; apply: rot_pointE; rewrite -h4 -curr_point.
Qed.
End Claims.
Print Assumptions c67_gate_queries_opened.
Print Assumptions c67_lookup_queries_opened.
Print Assumptions c67_copied_columns_opened.

(** ** Concrete cases: the proof of Run97.v *)
From Coq Require Import NArith String.
From Verif Require Import Field97 Concrete ProofPC ProofConcrete ProofTools ProofIndexerExamples Run97 PropsTranscript PropsEndToEnd.
Local Close Scope ring_scope.

Lemma all_unused (vs : seq (voracle F97 (pc_com KZG97))) : all (fun v => nilp (vd_evals (o_data v))) vs -> unused vs.
Proof.
elim: vs => [|v vs IH] /= H; first by case.
by have [/nilP h1 h2] := andP H; move=> v' [->|Hv'] //; exact: IH h2 _ Hv'.
Qed.
Lemma r_unused : [/\ unused r_vws, unused (vp_fixed r_vpre) & unused (vp_table r_vpre)].
Proof. by split; apply: all_unused; vm_compute. Qed.
Lemma r_xi0 : ch_xi (derive_challenges FS97 r_proof) != (0 : F97)%R.
Proof. by vm_compute. Qed.
(** All the hypotheses hold of the proof of r_run, which copies columns and has a lookup. *)
Example ex_c67 : (exists2 v, occurs v r_vws & vd_permute (o_data v)) /\
  (forall v, occurs v r_vws -> vd_permute (o_data v) -> opened 8 r_vws (o_label v) curr) /\
  size (ix_lookups (vk_index r_vk)) = 1.
Proof.
split; first by exists (nth (nth (vwit (nth (po_new Witness ""%string [::] [::] false) r_ws 0)) r_vws 0) r_vws 0); [left|].
split; last by vm_compute.
exact (@c67_copied_columns_opened F97 env97 (dom97 8) KZG97 FS97 srs97 r_vk r_vpre r_proof r_vws r_vins r_vos r_zh env97_ok dom97_8 r_unused r_xi0 ex_c44).
Qed.
(** The same columns opened at the next row only: no proof is accepted (unless xi is zero). *)
Definition next_only (v : voracle F97 (pc_com KZG97)) : voracle F97 (pc_com KZG97) := Oracle (o_label v) [:: next] (o_data v).
Example ex_c67_missing (proof : tp_proof KZG97) : ch_xi (derive_challenges FS97 proof) != (0 : F97)%R ->
  (tp_verify env97 FS97 (PC := KZG97) srs97 r_vk r_vpre proof (map next_only r_vws) r_vins r_vos 8 r_zh).1 <> Ok tt.
Proof.
move=> x0 H; have [_ fu tu] := r_unused.
have wu : unused (map next_only r_vws) by apply: all_unused; vm_compute.
have [v Hv Hp] : exists2 v, occurs v r_vws & vd_permute (o_data v) := proj1 ex_c67.
have := @c67_copied_columns_opened F97 env97 (dom97 8) KZG97 FS97 srs97 r_vk r_vpre proof (map next_only r_vws) r_vins r_vos r_zh env97_ok dom97_8
  (And3 wu fu tu) x0 H (next_only v) (occurs_map_in next_only Hv) Hp.
case=> v0 [r [Hv0 _ Hr Er]]; have [v1 _ Ev0] := occurs_map Hv0; move: Hr Er; rewrite Ev0; cbn [next_only o_rots]; rewrite inE => /eqP ->.
by vm_compute.
Qed.
