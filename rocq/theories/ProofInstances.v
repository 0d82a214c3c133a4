(** The verdict depends on the public inputs only through their values at the queried points. *)
From mathcomp Require Import all_ssreflect all_algebra.
From Coq Require Import String.
From Verif Require Import Base ModelPoly ModelVO ModelOracle ModelPC ModelPermutation
  ModelLookup ModelIndexer ModelMultiproof ModelProtocol Spec SpecProtocol ProofBase ProofDomain ProofVO ProofOracle ProofLookup ProofProver ProofFront.

Set Implicit Arguments.
Unset Strict Implicit.
Unset Printing Implicit Defensive.

Import GRing.Theory.
Local Open Scope ring_scope.

Lemma rbind_congr A B (x : res A) (f g : A -> res B) : (forall a, x = Ok a -> f a = g a) -> rbind x f = rbind x g.
Proof. by case: x => //= a; apply. Qed.
Lemma rbind_congr1 A B (x y : res A) (f : A -> res B) : x = y -> rbind x f = rbind y f.
Proof. by move=> ->. Qed.
Lemma rfoldM_congr A S (f g : S -> A -> res S) st s : (forall st a, occurs a s -> f st a = g st a) -> rfoldM f st s = rfoldM g st s.
Proof.
elim: s st => //= a s IH st H; rewrite H; last by left.
by apply: rbind_congr => st' _; apply: IH => st1 a1 H1; apply: H; right.
Qed.
Lemma rmapM_congr A B (f g : A -> res B) s : (forall a, occurs a s -> f a = g a) -> rmapM f s = rmapM g s.
Proof.
elim: s => //= a s IH H; rewrite H; last by left.
by apply: rbind_congr => st' _; rewrite IH // => a1 H1; apply: H; right.
Qed.
Lemma occurs_zip1 A B (s : seq A) (t : seq B) x y : occurs (x, y) (zip s t) -> occurs x s.
Proof. by elim: s t => [|a s IH] [|b t] //= [[-> _]|/IH]; [left|right]. Qed.

Section Instances.
Variables (F : fieldType) (env : fenv F) (eok : fenv_ok env) (PC : pcs F).
Notation com := (pc_com PC).
Variables (ins ins' : seq (ioracle F)).
Hypothesis labels : map (@o_label _) ins = map (@o_label _) ins'.

Lemma resolve_agree l e (P : ioracle F -> ioracle F -> Prop) :
  (forall j o o', idx ins j = Ok o -> idx ins' j = Ok o' -> P o o') ->
  (resolve ins l e = resolve ins' l e /\ ~ is_ok (resolve ins l e)) \/
  exists o o', [/\ resolve ins l e = Ok o, resolve ins' l e = Ok o' & P o o'].
Proof.
move=> H; rewrite /resolve -labels; case: (label_index _ l) => [i|]; last by left.
have sz : size ins = size ins' by rewrite -(size_map (@o_label _) ins) labels size_map.
case: (ltnP i (size ins)) => Hi; last by left; rewrite !idx_oob // -sz.
have [o Ho] := idx_some Hi; have Hi' : (i < size ins')%N by rewrite -sz.
by have [o' Ho'] := idx_some Hi'; right; exists o, o'; split=> //; apply: H Ho Ho'.
Qed.

Variables (d : domain F) (xi : F) (rots : seq rotation).
Hypothesis agree : forall j o o', idx ins j = Ok o -> idx ins' j = Ok o' ->
  forall r, r \in curr :: rots -> peval (o_data o) (rot_point (dgen d) r xi) = peval (o_data o') (rot_point (dgen d) r xi).
Hypothesis dok : domain_ok d.

Lemma io_agree l e r : r \in curr :: rots ->
  rbind (resolve ins l e) (fun o => io_query o (rot_point (dgen d) r xi)) = rbind (resolve ins' l e) (fun o => io_query o (rot_point (dgen d) r xi)).
Proof.
move=> Hr; have [[E /negP]|[o [o' [-> -> H]]]] := resolve_agree l e agree; first by rewrite -E; case: (resolve ins l e).
by rewrite /= /io_query (H r Hr).
Qed.

Lemma verifier_leaf_agree (ws fs : seq (voracle F com)) q :
  (oq_type q = Instance -> oq_rot q \in rots) ->
  verifier_leaf ws ins fs xi (elements d) q = verifier_leaf ws ins' fs xi (elements d) q.
Proof.
move=> H; rewrite /verifier_leaf; apply: rbind_congr => p Ep; rewrite /query_leaf; case E: (oq_type q) => //.
have Hr := H E.
have -> : p = rot_point (dgen d) (oq_rot q) xi.
  move: Ep; case: (ltnP (oq_rot q).1 (dsize d)) => Hl; first by rewrite compute_point_ok // => -[].
  by rewrite compute_point_oob //; apply: leq_trans Hl; apply: dsize_gt0.
by apply: io_agree; rewrite inE Hr orbT.
Qed.

Variables (vk : verifier_key F) (vos : seq (generic_vo F)).
Hypothesis used : forall vo e q, occurs vo vos -> gv_get_expression vo = Ok e -> occurs q (leaves e) -> oq_type q = Instance -> oq_rot q \in rots.

Lemma quotient_check_agree (ws : seq (voracle F com)) pre to_copy zs los lzs chunks beta gamma alpha ds z_h :
  quotient_check vk ws ins pre to_copy zs los lzs chunks vos beta gamma alpha xi d ds z_h =
  quotient_check vk ws ins' pre to_copy zs los lzs chunks vos beta gamma alpha xi d ds z_h.
Proof.
rewrite /quotient_check; apply: rbind_congr => al _; apply: rbind_congr => l0 _; apply: rbind_congr => lu _.
apply: rbind_congr1; apply: rfoldM_congr => acc [vo a] Hz; have Hvo := occurs_zip1 Hz; apply: rbind_congr => e He.
by rewrite (eq_eval_res (g := verifier_leaf ws ins' (vp_fixed pre) xi (elements d))) // => q Hq; apply: verifier_leaf_agree; apply: used Hvo He Hq.
Qed.

Lemma lookup_oracles_agree (ws : seq (voracle F com)) pre theta winv k :
  lookup_oracles_v ws ins pre theta xi winv (elements d) k = lookup_oracles_v ws ins' pre theta xi winv (elements d) k.
Proof.
case: k => k [[l cs] es]; rewrite /lookup_oracles_v; apply: rbind_congr => exprs _; apply: rbind_congr => tqs _.
apply: rbind_congr1; rewrite /construct_a_and_s_verifier; apply: rbind_congr => _ _; apply: rbind_congr1.
rewrite /compress; apply: rfoldM_congr => acc [e a] He /=; apply: rbind_congr1.
apply: eq_eval_res => q _; case: (oq_type q) => //.
by have := io_agree (oq_label q) (MissingInstanceOracle (oq_label q)) (mem_head curr rots); rewrite /rot_point /= expr0 mulr1.
Qed.

Variables (FS : fsrng F) (pvk : pc_vk PC) (pre : verifier_pre PC) (proof : tp_proof PC) (ws : seq (voracle F com)) (ds : nat) (z_h : lpoly F).
Hypothesis Ed : domain_new env ds = Some d.
Hypothesis Exi : ch_xi (derive_challenges FS proof) = xi.

Lemma front_agree theta :
  verify_front env vk pre proof ws ins ds theta xi = verify_front env vk pre proof ws ins' ds theta xi.
Proof.
rewrite /verify_front Ed; apply: rbind_congr => qc _; apply: rbind_congr => _ [<-].
repeat match goal with |- rbind (rmapM (lookup_oracles_v _ _ _ _ _ _ _) _) _ = _ => fail 1
  | |- rbind ?r _ = _ => apply: rbind_congr => ? _ end.
apply: rbind_congr1; apply: rmapM_congr => k _; exact: lookup_oracles_agree.
Qed.
Lemma front_d theta (i : seq (ioracle F)) T : verify_front env vk pre proof ws i ds theta xi = Ok T -> vt_d T = d.
Proof.
rewrite /verify_front Ed => H; have {H} [qc _ H] := rbind_ok H; have {H} [d' [Ed'] H] := rbind_ok H; rewrite {}Ed'.
by repeat match type of H with rbind _ _ = Ok _ => have {H} [? _ H] := rbind_ok H end; case: H => <-.
Qed.
Theorem verify_agree :
  (tp_verify env FS pvk vk pre proof ws ins vos ds z_h).1 = (tp_verify env FS pvk vk pre proof ws ins' vos ds z_h).1.
Proof.
apply: (etrans (proj1 (verify_frontE env FS pvk vk pre proof ws ins vos ds z_h))).
apply: esym; apply: (etrans (proj1 (verify_frontE env FS pvk vk pre proof ws ins' vos ds z_h))); apply: esym.
rewrite Exi -front_agree; apply: rbind_congr => T HT.
by apply: rbind_congr1; rewrite /vt_check (front_d HT) quotient_check_agree.
Qed.
End Instances.
