(** The combined identity of the proofs that prove returns. *)
From mathcomp Require Import all_ssreflect all_algebra.
From mathcomp Require Import zify.
From Verif Require Import Base ModelPoly ModelVO ModelOracle ModelPC ModelPermutation ModelLookup ModelIndexer ModelMultiproof ModelProtocol
  Spec SpecProtocol SpecPIOP SpecMultiopen SpecCircuit ProofBase ProofPoly ProofDomain ProofColumns ProofPermutation ProofLookup ProofIndexer ProofPIOP ProofPIOP2 ProofPIOP3 ProofEach ProofProver ProofFront
  ProofInstances ProofRounds ProofHonest ProofComplete ProofCheck ProofSound ProofCounts ProofProve ProofReject PropsPIOP.

Set Implicit Arguments.
Unset Strict Implicit.
Unset Printing Implicit Defensive.

Import GRing.Theory.
Local Open Scope ring_scope.

Section Exact.
Variables (F : fieldType) (env : fenv F) (PC : pcs F) (ck : pc_ck PC) (pvk : pc_vk PC)
    (C : circuit F) (vk : verifier_key F) (es : seq (expr F oquery)) (rows : seq nat)
    (vws : seq (voracle F (pc_com PC))) (vins : seq (ioracle F)) (vpre : verifier_pre PC)
    (theta beta gamma : F) (zk : pc_zk PC).
Let N := dsize (ix_ext (vk_index vk)).
Let n := c_rows C.
Let w := dgen (c_d C).
Let pre := preprocessed env PC C vk.
Hypothesis eok : fenv_ok env.
Hypothesis sd : std_domain env (c_d C).
Hypothesis ixd : indexed env C vk.
Hypothesis lay : laid_out C.
Hypothesis gok : gates_ok C es.
Hypothesis lks : lookups_ok C N.

Definition gates_at (alpha : F) (i : nat) : F :=
  compressed alpha [seq meaning (row_value (c_ws C) (c_ins C) (c_fs C) (c_rows C) i) e | e <- es].
Notation num T alpha := (numerator (c_d C) (ix_perm (vk_index vk)) es beta gamma (honest env C vk T) alpha).
Notation quo T := (recombined n (map (@opoly F) (t_chunks T))).

(** On a row, the combined constraints are the combined gates. *)
Lemma num_row alpha xi pf T i :
  prover_trace env ck vk pre (c_ws C) (c_ins C) (c_vos C) n zk theta beta gamma alpha xi pf T -> (i < n)%N ->
  (num T alpha).[w ^+ i] = gates_at alpha i.
Proof.
move=> tr Hi; have [ge eo ed] := gok; have aok := honest_ok eok sd ixd lay lks tr.
have eo' := exprs_ok_ext env (ix_ext (vk_index vk)) eo.
have rows0 p : p \in perm_polys (c_d C) (ix_perm (vk_index vk)) beta gamma (honest env C vk T) ++
    flatten (lookup_polys (c_d C) (ix_perm (vk_index vk)) beta gamma (honest env C vk T)) -> p.[w ^+ i] = 0.
  by move=> Hq; exact: (honest_rows eok sd ixd lay lks tr Hq Hi).
rewrite numerator_at_point /aggregate compressed_cat.
rewrite [X in _ + _ * X + _]compressed0; last first.
  by move=> c /mapP [p Hp ->]; apply: rows0; rewrite mem_cat Hp.
rewrite [X in _ + _ * X]compressed0; last first.
  by rewrite -map_flatten => c /mapP [p Hp ->]; apply: rows0; rewrite mem_cat Hp orbT.
rewrite !mulr0 !addr0 /gates_at /vo_polys -map_comp.
have -> // : forall l, (forall e, occurs e l -> occurs e es) ->
   [seq (horner_eval (w ^+ i) \o expr_poly (as_ws (honest env C vk T)) (as_ins (honest env C vk T)) (as_fs (honest env C vk T)) (dgen (c_d C))) e | e <- l]
   = [seq meaning (row_value (c_ws C) (c_ins C) (c_fs C) (c_rows C) i) e | e <- l].
elim=> [//|e l IH] Hl /=; rewrite IH; last by move=> e' He'; apply: Hl; right.
congr (_ :: _); have He : occurs e es by apply: Hl; left.
have [_ E] := expr_row_ok eok sd (ao_ws aok) (ao_ins aok) (ao_fs aok) Hi (fun q Hq => eo' e q He Hq).
by rewrite /horner_eval E meaning_ext.
Qed.

Hypothesis van : vanishes_on C rows N.
Hypothesis room : quotient_room C es (size rows) (pa_max_cols (ix_perm (vk_index vk))) N.

(** The quotient prove commits to is the exact quotient when the combined gates vanish on the rows of z_h. *)
Lemma exact_quotient alpha xi pf T :
  prover_trace env ck vk pre (c_ws C) (c_ins C) (c_vos C) n zk theta beta gamma alpha xi pf T ->
  (forall i, i \in rows -> gates_at alpha i = 0) -> num T alpha = quo T * Poly (c_zh C).
Proof.
move=> tr H0; have [ge eo ed] := gok; have [ur rn [c c0 zE] szh] := van.
have [se le] := ext_std eok sd ixd; have k0 := vos_pos tr.
have shape := honest_shape eok sd ixd lay tr; have aok := honest_ok eok sd ixd lay lks tr.
have eo' := exprs_ok_ext env (ix_ext (vk_index vk)) eo.
have [qd [_ _ _ [_ Ezh] _]] := index_inv eok sd ixd.
have fit := identity_size eok sd ixd lay gok lks van room tr.
have [zs' [Ezs szs _]] := zh_inverses eok sd se le szh; move: (Ezs); rewrite Ezh => -[E]; rewrite -E in szs.
have [cs [Ecs s1 s2 _ _]] := prover_quotient_roundE (pre := pre) eok sd ge shape eo' k0 se le erefl erefl erefl aok beta gamma alpha szs.
have Et : cs = t_chunks T.
  have := pt_chunks tr; rewrite (t_dE sd tr) copied_eq => E'; move: Ecs; rewrite /honest /= E'; by case.
subst cs.
have N0 i : i \in rows -> (num T alpha).[w ^+ i] = 0.
  by move=> Hi; rewrite (num_row tr (rn _ Hi)); exact: H0.
have [Q EQ sQ] := divides_rows eok sd c0 ur rn zE N0.
suff -> : quo T = Q by [].
have nz : Poly (c_zh C) != 0.
  by rewrite zE scaler_eq0 negb_or c0 /= prodf_seq_neq0; apply/allP => i _; rewrite polyXsubC_eq0.
have sz : size (Poly (c_zh C)) = (size rows).+1 by rewrite zE size_scale // size_prod_XsubC.
apply: (@poly_eq_on _ _ _ (coset_points env (ix_ext (vk_index vk)))) => //.
- exact: coset_points_uniq.
- by rewrite size_coset_points.
- rewrite size_coset_points -/N.
  case: (eqVneq Q 0) => [->|Q0]; first by rewrite size_poly0.
  have sN : (size (num T alpha) <= size rows + N)%N.
    have -> : num T alpha = (num T alpha - quo T * Poly (c_zh C)) + quo T * Poly (c_zh C) by rewrite subrK.
    apply: leq_trans (size_add _ _) _; rewrite geq_max fit /=.
    by apply: leq_trans (size_mul_leq _ _) _; rewrite sz addnS /= addnC leq_add2l; exact: s1.
  by move: sN; rewrite EQ size_mul // sz addnS /= addnC leq_add2l.
move=> x /(nthP 0) [i]; rewrite size_coset_points => Hi <-; rewrite nth_coset_points //.
rewrite s2 // EQ hornerM -mulrA.
have nzc : peval (c_zh C) (coset_point env (ix_ext (vk_index vk)) i) != 0.
  by rewrite pevalE zE rows_nonzero_on_coset.
by rewrite -[X in _ * (X * _)]pevalE [X in _ * X]mulrC (zh_inverse_mul eok sd se le szh Ezh Hi nzc) mulr1.
Qed.

(** When they do not, few xi pass. *)
Lemma few_xi alpha i : (verifier_copy ck C vws vins vpre) -> i \in rows -> gates_at alpha i != 0 ->
  at_most (size rows + N).-1 (fun xi => exists rest pf zk',
    tp_prove env (scripted [:: theta, beta, gamma, alpha, xi & rest]) ck vk pre (c_ws C) (c_ins C) (c_vos C) n zk = Ok (pf, zk') /\
    (tp_verify env (scripted [:: theta, beta, gamma, alpha, xi & rest]) pvk vk vpre pf vws vins (c_vos C) n (c_zh C)).1 = Ok tt).
Proof.
move=> copy Hi nz xs uxs Hxs; case: xs uxs Hxs => [//|x xs] uxs Hxs.
have [ur rn [c c0 zE] szh] := van.
have [rest1 [pf1 [zk1 [Hp1 Hv1]]]] := Hxs x (mem_head _ _).
have [T1 [tr1 _]] := accepted_identity eok sd ixd lay gok lks copy Hp1 Hv1.
set Z := num T1 alpha - quo T1 * Poly (c_zh C).
have s0 : (0 < size rows)%N by move: Hi; case: (rows).
apply: (@at_most_roots F Z) uxs Hxs.
- apply: contra nz => /eqP Z0; rewrite -(num_row tr1 (rn _ Hi)).
  have := congr1 (horner^~ (w ^+ i)) Z0; rewrite /Z hornerD hornerN hornerM horner0 zE hornerZ.
  have -> : (\prod_(i0 <- rows) ('X - (dgen (c_d C) ^+ i0)%:P)).[w ^+ i] = 0.
    by rewrite horner_prod (big_rem i) //= hornerXsubC subrr mul0r.
  by rewrite !mulr0 subr0 => ->.
- by rewrite prednK ?addn_gt0 ?s0 //; exact: (identity_size eok sd ixd lay gok lks van room tr1).
- move=> y [rest [pf [zk' [Hp Hv]]]]; have [T [tr Ez]] := accepted_identity eok sd ixd lay gok lks copy Hp Hv.
  have [E2 /(_ erefl) E3] := same_rounds tr1 tr; by rewrite /Z E2 E3.
Qed.
End Exact.
