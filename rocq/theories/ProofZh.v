(** A vanishing polynomial that is a multiple of X^n - 1, when the extended domain is the domain itself. *)
From mathcomp Require Import all_ssreflect all_algebra.
From mathcomp Require Import zify.
From Verif Require Import Base ModelPoly ModelVO ModelOracle ModelPC ModelPermutation ModelLookup ModelIndexer ModelMultiproof ModelProtocol
  Spec SpecProtocol SpecPIOP SpecMultiopen SpecCircuit ProofBase ProofPoly ProofDomain ProofColumns ProofPermutation ProofLookup ProofIndexer ProofPIOP ProofPIOP2 ProofPIOP3 ProofEach ProofProver ProofFront
  ProofInstances ProofRounds ProofHonest ProofComplete ProofCheck ProofSound ProofCounts ProofProve ProofReject PropsPIOP ProofVerdict.

Set Implicit Arguments.
Unset Strict Implicit.
Unset Printing Implicit Defensive.

Import GRing.Theory.
Local Open Scope ring_scope.

Lemma expr_poly_ext (F : fieldType) (env : fenv F) (ext : domain F) ws ins fs w (e : expr F oquery) :
  let f := map (compute_extended_evals env ext) in
  expr_poly (f ws) (f ins) (f fs) w e = expr_poly ws ins fs w e.
Proof.
move=> f; rewrite /expr_poly; elim: e => //= [q|a ->|a -> b ->|a -> b ->|a -> c] //.
by rewrite /query_poly oracles_of_ext /poly_named named_ext; case: (named _ _).
Qed.

(** The truncated z_h is a constant. *)
Lemma truncated_constant (F : fieldType) (n : nat) (c x : F) (z : lpoly F) : (0 < n)%N ->
  Poly z = c *: ('X^n - 1) -> peval (take n z) x = - c.
Proof.
move=> n0 E; have co i : (i < n)%N -> z`_i = if i == 0%N then - c else 0.
  move=> Hi; have := congr1 (fun p : {poly F} => p`_i) E; rewrite coef_Poly => ->.
  rewrite coefZ coefB coefXn coef1 ltn_eqF // sub0r; case: ifP => _; first by rewrite mulrN1.
  by rewrite oppr0 mulr0.
rewrite pevalE (_ : Poly (take n z) = (- c)%:P) ?hornerC //.
apply/polyP => i; rewrite coef_Poly coefC; case: (ltnP i n) => Hi; first by rewrite nth_take // co.
rewrite (gtn_eqF (leq_trans n0 Hi)) nth_default //; apply: leq_trans Hi.
by rewrite size_take; case: ifP => // /negbT; rewrite -leqNgt.
Qed.

Lemma same_size (k n : nat) : (0 < n)%N -> (k.+1 * n = n)%N -> k = 0%N.
Proof. nia. Qed.

Section Scaled.
Variables (F : fieldType) (env : fenv F) (PC : pcs F) (ck : pc_ck PC) (pvk : pc_vk PC)
    (C : circuit F) (vk : verifier_key F) (es : seq (expr F oquery)) (c : F)
    (vws : seq (voracle F (pc_com PC))) (vins : seq (ioracle F)) (vpre : verifier_pre PC)
    (theta beta gamma : F) (zk : pc_zk PC).
Let N := dsize (ix_ext (vk_index vk)).
Let n := c_rows C.
Let w := dgen (c_d C).
Let pre := preprocessed env PC C vk.
Hypothesis eok : fenv_ok env.
Hypothesis sd : std_domain env (c_d C).
Hypothesis ixd : indexed env C vk.
Hypothesis lay : laid_out C.
Hypothesis gok : gates_ok C es.
Hypothesis lks : lookups_ok C N.
Hypothesis c1 : c != 1.
Hypothesis c0 : c != 0.
Hypothesis zE : Poly (c_zh C) = c *: ('X^n - 1).
Hypothesis Nn : N = n.
Hypothesis deg : forall e, occurs e es -> (expr_degree n.-1 e < n + n)%N.
Notation num T alpha := (numerator (c_d C) (ix_perm (vk_index vk)) es beta gamma (honest env C vk T) alpha).
Notation quo T := (recombined n (map (@opoly F) (t_chunks T))).
Definition gate_poly (alpha : F) : {poly F} := compressed alpha%:P [seq expr_poly (c_ws C) (c_ins C) (c_fs C) w e | e <- es].

Lemma scaled_nocopy : nilp (copied (c_ws C)) /\ nilp (c_lookups C).
Proof.
have n0 : (0 < n)%N := ltnW (lay_rows lay).
have [q [_ _ [_ sE] _ [Hk Hl]]] := index_inv eok sd ixd.
have k0 : pa_max_cols (ix_perm (vk_index vk)) = 0%N.
  by apply: (same_size n0); rewrite -[X in _ = X]Nn; exact: esym sE.
split; apply: contraT => nn; last by have := Hl nn; rewrite k0.
have : (0 < count (fun o => pd_permute (o_data o)) (c_ws C))%N by rewrite -size_filter lt0n.
by move/Hk; rewrite k0.
Qed.

Lemma scaled_num alpha xi pf T :
  prover_trace env ck vk pre (c_ws C) (c_ins C) (c_vos C) n zk theta beta gamma alpha xi pf T ->
  num T alpha = gate_poly alpha.
Proof.
move=> tr; have [nc nl] := scaled_nocopy.
rewrite /numerator /aggregate /perm_polys /= copied_ext; case: (copied (c_ws C)) nc => //= _.
have -> : lookup_polys (c_d C) (ix_perm (vk_index vk)) beta gamma (honest env C vk T) = [::].
  have := size_los eok sd ixd tr; rewrite /lookup_polys /=; case: (c_lookups C) nl => //= _ /size0nil ->; by case: (t_lzs T).
rewrite cats0 /= compressed_nil mulr0 addr0 /gate_poly /vo_polys; congr compressed.
by apply: eq_map => e; rewrite /= expr_poly_ext.
Qed.

Lemma scaled_quotient alpha xi pf T :
  prover_trace env ck vk pre (c_ws C) (c_ins C) (c_vos C) n zk theta beta gamma alpha xi pf T ->
  (forall i, (i < n)%N -> gates_at C es alpha i = 0) ->
  quo T * Poly (c_zh C) = (1 - mult_gen env ^+ n) *: num T alpha /\ (size (num T alpha) <= n + n)%N.
Proof.
move=> tr H0; have [ge eo ed] := gok.
have n0 : (0 < n)%N := ltnW (lay_rows lay).
have [se le] := ext_std eok sd ixd; have k0 := vos_pos tr.
have shape := honest_shape eok sd ixd lay tr; have aok := honest_ok eok sd ixd lay lks tr.
have eo' := exprs_ok_ext env (ix_ext (vk_index vk)) eo.
have fit : (size (num T alpha) <= n + n)%N.
  rewrite (scaled_num tr) /gate_poly; apply: size_compressed_le => p /in_map_occurs [e He ->].
  rewrite -(expr_poly_ext env (ix_ext (vk_index vk))).
  by apply: leq_trans (expr_poly_size shape aok (fun q Hq => eo' e q He Hq)) _; exact: deg.
split=> //.
have [q [_ _ _ [_ Ezh] _]] := index_inv eok sd ixd.
have zi : vk_zh_inverses vk = batch_inversion (coset_fft env (ix_ext (vk_index vk)) (c_zh C)).
  move: Ezh; rewrite /compute_zh_evals le /= peqE Poly_vanishing // zE -[dsize (c_d C)]/n.
  case: eqP => [E|_] /=; last by case.
  have := congr1 (fun p : {poly F} => p`_n) E; rewrite coefZ !coefB coefXn coef1 eqxx (gtn_eqF n0) subr0 mulr1 => E'.
  by move: c1; rewrite -E' eqxx.
have szs : size (vk_zh_inverses vk) = dsize (ix_ext (vk_index vk)) by rewrite zi size_map size_coset_fft.
have [cs [Ecs s1 s2 _ _]] := prover_quotient_roundE (pre := pre) eok sd ge shape eo' k0 se le erefl erefl erefl aok beta gamma alpha szs.
have Et : cs = t_chunks T.
  have := pt_chunks tr; rewrite (t_dE sd tr) copied_eq => E'; move: Ecs; rewrite /honest /= E'; by case.
subst cs.
have rn i : i \in iota 0 n -> (i < n)%N by rewrite mem_iota.
have dok := std_domain_ok eok sd.
have zE' : Poly (c_zh C) = c *: \prod_(i <- iota 0 n) ('X - (w ^+ i)%:P) by rewrite zE vanishing_prod // big_map.
have N0 i : i \in iota 0 n -> (num T alpha).[w ^+ i] = 0.
  by move=> Hi; rewrite (num_row eok sd ixd lay gok lks tr (rn _ Hi)); exact: H0 (rn _ Hi).
have [Q EQ sQ] := divides_rows eok sd c0 (iota_uniq 0 n) rn zE' N0.
have sz : size (Poly (c_zh C)) = n.+1 by rewrite zE size_scale // size_Xn_sub_1.
have sQ' : (size Q <= n)%N.
  case: (eqVneq Q 0) => [->|Q0]; first by rewrite size_poly0.
  have nz : Poly (c_zh C) != 0 by rewrite -size_poly_eq0 sz.
  by move: fit; rewrite EQ size_mul // sz addnS /= leq_add2r.
have -> : quo T = (1 - mult_gen env ^+ n) *: Q; last by rewrite -scalerAl EQ.
apply: (@poly_eq_on _ _ _ (coset_points env (ix_ext (vk_index vk)))) => //.
- exact: coset_points_uniq.
- by rewrite size_coset_points.
- by rewrite size_coset_points -/N Nn; apply: leq_trans (size_scale_leq _ _) sQ'.
move=> x /(nthP 0) [i]; rewrite size_coset_points => Hi <-; rewrite nth_coset_points //.
rewrite s2 // EQ hornerM hornerZ zi (nth_map 0) ?size_coset_fft // nth_coset_fft //.
rewrite -/N Nn (truncated_constant _ n0 zE) zE hornerZ hornerD hornerN hornerXn hornerC.
have -> : coset_point env (ix_ext (vk_index vk)) i ^+ n = mult_gen env ^+ n.
  by rewrite -Nn /N /coset_point exprMn element_exp ?mulr1 // (std_domain_ok eok se).
set g := mult_gen env ^+ n; rewrite invrN mulrN -!mulrA; move: (Q.[_]) => y.
by rewrite [c * _]mulrC mulrVK ?unitfE // mulrC -mulNr opprB.
Qed.

Lemma scaled_few alpha : verifier_copy ck C vws vins vpre ->
  (forall i, (i < n)%N -> gates_at C es alpha i = 0) -> gate_poly alpha != 0 ->
  at_most (n + n).-1 (fun xi => exists rest pf zk',
    tp_prove env (scripted [:: theta, beta, gamma, alpha, xi & rest]) ck vk pre (c_ws C) (c_ins C) (c_vos C) n zk = Ok (pf, zk') /\
    (tp_verify env (scripted [:: theta, beta, gamma, alpha, xi & rest]) pvk vk vpre pf vws vins (c_vos C) n (c_zh C)).1 = Ok tt).
Proof.
move=> copy H0 nz; have n0 : (0 < n)%N := ltnW (lay_rows lay).
move=> xs uxs Hxs; case: xs uxs Hxs => [//|x xs] uxs Hxs.
have [rest1 [pf1 [zk1 [Hp1 Hv1]]]] := Hxs x (mem_head _ _).
have [T1 [tr1 _]] := accepted_identity eok sd ixd lay gok lks copy Hp1 Hv1.
have [_ sz] := scaled_quotient tr1 H0; rewrite (scaled_num tr1) in sz.
apply: (@at_most_roots F (gate_poly alpha)) uxs Hxs => //.
- by rewrite prednK // addn_gt0 n0.
move=> y [rest [pf [zk' [Hp Hv]]]]; have [T [tr Ez]] := accepted_identity eok sd ixd lay gok lks copy Hp Hv.
have [Eq _] := scaled_quotient tr H0; move: Ez; rewrite Eq (scaled_num tr) hornerD hornerN hornerZ mulrBl mul1r subKr.
move/eqP; rewrite mulf_eq0 expf_eq0 n0 /= => /orP[/eqP g0|/eqP //].
by have := fe_gen0 eok; rewrite g0 eqxx.
Qed.
End Scaled.
