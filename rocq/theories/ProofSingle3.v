(** One changed evaluation in any vector of a proof changes one claim of the multi-opening, and verify's answer. *)
From mathcomp Require Import all_ssreflect all_algebra zify.
From Coq Require Import String.
From Verif Require Import Base ModelPoly ModelVO ModelOracle ModelPC ModelPermutation ModelLookup ModelIndexer ModelMultiproof ModelProtocol
  Spec SpecProtocol SpecPIOP SpecMultiopen SpecCircuit SpecSound SpecShape SpecShift SpecSingle
  ProofBase ProofPoly ProofDomain ProofEach ProofOracle ProofLookup ProofPermutation ProofVO ProofProver ProofFront ProofCounts ProofMultiopen ProofMultiopen2 ProofMultiopen3
  ProofClaims ProofHistory ProofComplete ProofSound ProofVerifierCols ProofShape ProofTotal ProofTotal3 ProofShift ProofSingle ProofSingle2.

Set Implicit Arguments.
Unset Strict Implicit.
Unset Printing Implicit Defensive.

Import GRing.Theory.
Local Open Scope ring_scope.

Section Changes.
Variables (F : fieldType) (PC : pcs F) (d : domain F) (xi : F).
Notation vorc := (voracle F (pc_com PC)).
Notation w := (dgen d).

(** Two lists of oracles that differ in one claim. *)
Definition one_off (os os' : seq vorc) : Prop :=
  exists L R a a' r, [/\ os = L ++ a :: R, os' = L ++ a' :: R & one_claim_changed w xi r a a'].
Lemma one_off_cons o os os' : one_off os os' -> one_off (o :: os) (o :: os').
Proof. by move=> [L [R [a [a' [r [-> -> H]]]]]]; exists (o :: L), R, a, a', r. Qed.
Lemma one_off_cat l os os' t : one_off os os' -> one_off (l ++ os ++ t) (l ++ os' ++ t).
Proof.
move=> [L [R [a [a' [r [-> -> H]]]]]]; exists (l ++ L), (R ++ t), a, a', r.
by rewrite -!catA.
Qed.
Lemma one_off_l l os os' : one_off os os' -> one_off (l ++ os) (l ++ os').
Proof. by move=> H; have := one_off_cat l [::] H; rewrite !cats0. Qed.
Lemma one_off_r os os' t : one_off os os' -> one_off (os ++ t) (os' ++ t).
Proof. exact: (one_off_cat [::]). Qed.
Lemma one_off_head r (a a' : vorc) t : one_claim_changed w xi r a a' -> one_off (a :: t) (a' :: t).
Proof. by move=> H; exists [::], t, a, a', r. Qed.

Lemma rp_curr : rot_point w curr xi = xi. Proof. by rewrite /rot_point /= expr0 mulr1. Qed.
Lemma rp_next : rot_point w next xi = xi * w. Proof. by rewrite /rot_point /= expr1. Qed.
Lemma rp_prev : rot_point w prev xi = xi * w^-1. Proof. by rewrite /rot_point /= expr1. Qed.

(** Columns opened at xi only. *)
Lemma flat_changed (o : vorc) e v : o_rots o = [:: curr] -> v != e ->
  one_claim_changed w xi curr (register_eval_at_challenge xi e o) (register_eval_at_challenge xi v o).
Proof.
move=> Er ne; split; rewrite /= ?Er ?inE ?eqxx // ?rp_curr ?vo_query_register ?eqxx.
- by case=> E; move: ne; rewrite E eqxx.
- by move=> s; rewrite inE => /eqP ->; rewrite eqxx.
Qed.
Lemma single_changed l (k : oracle_type) (c : option (pc_com PC)) b e v : v != e ->
  one_claim_changed w xi curr (Oracle l [:: curr] (VData k [:: (xi, e)] c b) : vorc) (Oracle l [:: curr] (VData k [:: (xi, v)] c b)).
Proof.
move=> ne; split; rewrite ?inE ?eqxx // ?rp_curr.
- by rewrite /vo_query /= eqxx => -[E]; move: ne; rewrite E eqxx.
- by move=> s; rewrite inE => /eqP ->; rewrite eqxx.
Qed.

(** Columns opened at xi and one more point. *)
Section Two.
Variables (l : label) (r : rotation) (y : F) (k : oracle_type) (c : option (pc_com PC)) (b : bool).
Hypothesis Er : r != curr.
Hypothesis Ey : rot_point w r xi = y.
Hypothesis ny : xi != y.
Definition two e0 e1 : vorc := Oracle l [:: curr; r] (VData k (ains (ains [::] xi e0) y e1) c b).
Lemma two_first e0 e1 : vo_query (two e0 e1) xi = Ok e0.
Proof. by rewrite /vo_query /two; cbn [vd_evals o_data]; rewrite !assoc_ains eq_sym (negbTE ny) eqxx. Qed.
Lemma two_second e0 e1 : vo_query (two e0 e1) y = Ok e1.
Proof. by rewrite /vo_query /two; cbn [vd_evals o_data]; rewrite !assoc_ains eqxx. Qed.
Lemma two_changed0 e0 e1 v : v != e0 -> one_claim_changed w xi curr (two e0 e1) (two v e1).
Proof.
move=> ne; split; rewrite ?inE ?eqxx // ?rp_curr.
- by rewrite !two_first => -[E]; move: ne; rewrite E eqxx.
- by move=> s; rewrite !inE => /orP[] /eqP -> //; rewrite ?eqxx // Ey !two_second.
Qed.
Lemma two_changed1 e0 e1 v : v != e1 -> one_claim_changed w xi r (two e0 e1) (two e0 v).
Proof.
move=> ne; split; rewrite ?inE ?eqxx ?orbT // ?Ey.
- by rewrite !two_second => -[E]; move: ne; rewrite E eqxx.
- by move=> s; rewrite !inE => /orP[] /eqP -> //; rewrite ?eqxx // rp_curr !two_first.
Qed.
End Two.

Lemma chunks_step (A : Type) k (s t : seq A) : (0 < k)%N -> size s = k -> chunks k (s ++ t) = s :: chunks k t.
Proof. by move=> k0 sk; rewrite chunks_cons ?size_cat ?sk ?addn_gt0 ?k0 // -sk take_size_cat // drop_size_cat. Qed.

Lemma flat_list (os : seq vorc) es j v : (forall o, occurs o os -> o_rots o = [:: curr]) -> size os = size es -> (j < size es)%N -> v != es`_j ->
  one_off [seq register_eval_at_challenge xi se.2 se.1 | se <- zip os es] [seq register_eval_at_challenge xi se.2 se.1 | se <- zip os (set_nth 0 es j v)].
Proof.
elim: os es j => [|o os IH] [|e es] [|j] //= Hr [sz] Hj ne.
  by apply: (@one_off_head curr); apply: flat_changed => //; apply: Hr; left.
by apply: one_off_cons; apply: IH => // o' Ho; apply: Hr; right.
Qed.

Lemma idx_set_other (es : seq F) i j v : (j < size es)%N -> i != j -> idx (set_nth 0 es j v) i = idx es i.
Proof. by elim: es i j => [|a s IH] [|i] [|j] //=; rewrite eqSS; exact: IH. Qed.
Lemma chunk_list (cs : seq (pc_com PC)) k es j v T T' : (k <= j)%N -> (j < k + size cs)%N -> v != es`_j ->
  rmapM (quotient_oracle_v xi es) (zip (iota k (size cs)) cs) = Ok T ->
  rmapM (quotient_oracle_v xi (set_nth 0 es j v)) (zip (iota k (size cs)) cs) = Ok T' -> one_off T T'.
Proof.
elim: cs k T T' => [|c cs IH] k T T' lo hi ne; first by rewrite addn0 in hi; lia.
rewrite [zip _ _]/=; set q := quotient_oracle_v xi es; set q' := quotient_oracle_v xi _ => H H'.
have [x Hx {}H] := rbind_ok H; have [x' Hx' {}H'] := rbind_ok H'; have [t Ht {}H] := rbind_ok H; have [t' Ht' {}H'] := rbind_ok H'.
case: H H' => <- [<-]; have [e He Ex] := rbind_ok Hx; have [e' He' Ex'] := rbind_ok Hx'.
have [k1 /(_ 0) n1] := idx_ok He; have [k2 /(_ 0) n2] := idx_ok He'; rewrite nth_set_nth /= in n2.
case: (eqVneq k j) n2 => [Ek n2|nk n2].
  have -> : t' = t.
    suff E : rmapM q' (zip (iota k.+1 (size cs)) cs) = rmapM q (zip (iota k.+1 (size cs)) cs).
      by have := etrans (esym Ht') (etrans E Ht); case.
    apply: rmapM_same => -[i z] Hi; have lt := occurs_zip_iota Hi; rewrite /q' /q /quotient_oracle_v.
    rewrite idx_set_other // -Ek; [exact: k1|by rewrite neq_ltn lt orbT].
  case: Ex Ex' => <- [<-]; rewrite -n2 -n1 Ek; apply: (@one_off_head curr); exact: single_changed.
have -> : x' = x by case: Ex Ex' => <- [<-]; rewrite -n2 -n1.
apply: one_off_cons; apply: (IH k.+1) Ht Ht' => //; [by rewrite ltn_neqAle nk|by rewrite addSnnS].
Qed.

Definition pts_ok (os : seq vorc) : Prop := forall o, occurs o os -> uniq [seq rot_point w r xi | r <- o_rots o].

Lemma primes_cons (x : lookup_oracles vorc) los : lookup_primes (x :: los) = lo_a' x :: lo_s' x :: lookup_primes los. Proof. by []. Qed.
Lemma lookup_list ws ins p th om oms (ls : seq (generic_lookup_vo F)) (css : seq (seq (pc_com PC))) es k j v los los' :
  om = w^-1 -> size css = size ls -> size es = (3 * size ls)%N -> (j < size es)%N -> v != es`_j ->
  rmapM (lookup_oracles_v ws ins p th xi om oms) (zip (iota k (size ls)) (zip (zip ls css) (chunks 3 es))) = Ok los ->
  rmapM (lookup_oracles_v ws ins p th xi om oms) (zip (iota k (size ls)) (zip (zip ls css) (chunks 3 (set_nth 0 es j v)))) = Ok los' ->
  pts_ok (lookup_primes los) -> one_off (lookup_primes los) (lookup_primes los').
Proof.
move=> Eom; elim: ls css es k j los los' => [|g ls IH] [|c css] es k j los los' //.
  by move=> _ /= /size0nil ->.
rewrite /= mulnS => -[sc]; case: es => [|e0 [|e1 [|e2 es]]] // [se] Hj ne.
set f := lookup_oracles_v _ _ _ _ _ _ _.
have f_at a0 a1 a2 x : f (k, (g, c, [:: a0; a1; a2])) = Ok x -> exists c0 c1, lo_a' x = two ("lookup_a_prime_" ++ show_nat k ++ "_poly")%string prev (xi * om) Witness (Some c0) false a0 a1 /\
    lo_s' x = Oracle ("lookup_s_prime_" ++ show_nat k ++ "_poly")%string [:: curr] (VData Witness [:: (xi, a2)] (Some c1) false) /\ idx c 0 = Ok c0 /\ idx c 1 = Ok c1.
  rewrite /f /lookup_oracles_v => H; have [? _ {}H] := rbind_ok H; have [? _ {}H] := rbind_ok H; have [[a b] _ {}H] := rbind_ok H.
  have {H}[b0 [<-] H] := rbind_ok H; have {H}[b1 [<-] H] := rbind_ok H; have {H}[c0 E0 H] := rbind_ok H; have {H}[b2 [<-] H] := rbind_ok H; have {H}[c1 E1 H] := rbind_ok H.
  by case: H => <-; exists c0, c1.
have step a0 a1 a2 t T : rmapM f (zip (iota k (size ls).+1) (zip (zip (g :: ls) (c :: css)) (chunks 3 [:: a0, a1, a2 & t]))) = Ok T ->
    exists x R, [/\ f (k, (g, c, [:: a0; a1; a2])) = Ok x, rmapM f (zip (iota k.+1 (size ls)) (zip (zip ls css) (chunks 3 t))) = Ok R & T = x :: R].
  rewrite -[a0 :: _]/([:: a0; a1; a2] ++ t) chunks_step // => H; have [x Hx {}H] := rbind_ok H; have [R HR {}H] := rbind_ok H.
  by case: H => <-; exists x, R.
move=> /step [x [R [Hx HR ->]]]; have [c0 [c1 [Ea [Es [Ec0 Ec1]]]]] := f_at _ _ _ _ Hx.
have ny : pts_ok (lookup_primes (x :: R)) -> xi != xi * om.
  move=> /(_ _ (or_introl erefl)); rewrite Ea /= andbT inE rp_curr rp_prev Eom.
  by [].
case: j Hj ne => [|[|[|j]]] /= Hj ne.
- move=> /step [x' [R' [Hx' HR' ->]]] U; have [c0' [c1' [Ea' [Es' [Ec0' Ec1']]]]] := f_at _ _ _ _ Hx'.
  move: Ec0' Ec1'; rewrite Ec0 Ec1 => -[E0] [E1]; subst c0' c1'.
  have -> : R' = R by have := etrans (esym HR') HR; case.
  rewrite !primes_cons Ea Ea' Es Es'; apply: one_off_head; apply: two_changed0 => //; [by rewrite rp_prev Eom|exact: ny].
- move=> /step [x' [R' [Hx' HR' ->]]] U; have [c0' [c1' [Ea' [Es' [Ec0' Ec1']]]]] := f_at _ _ _ _ Hx'.
  move: Ec0' Ec1'; rewrite Ec0 Ec1 => -[E0] [E1]; subst c0' c1'.
  have -> : R' = R by have := etrans (esym HR') HR; case.
  rewrite !primes_cons Ea Ea' Es Es'; apply: (@one_off_head prev); apply: two_changed1 => //; [by rewrite rp_prev Eom|exact: ny].
- move=> /step [x' [R' [Hx' HR' ->]]] U; have [c0' [c1' [Ea' [Es' [Ec0' Ec1']]]]] := f_at _ _ _ _ Hx'.
  move: Ec0' Ec1'; rewrite Ec0 Ec1 => -[E0] [E1]; subst c0' c1'.
  have -> : R' = R by have := etrans (esym HR') HR; case.
  rewrite !primes_cons Ea Ea' Es Es'; apply: one_off_cons; apply: (@one_off_head curr); exact: single_changed.
move=> /step [x' [R' [Hx' HR' ->]]] U; have -> : x' = x by have := etrans (esym Hx') Hx; case.
rewrite !primes_cons; do 2 apply: one_off_cons; apply: (IH css es k.+1 j) HR HR' _ => //.
by move=> o Ho; apply: U; right; right.
Qed.

Lemma lookup_z_list om (cs : seq (pc_com PC)) es k j v lzs lzs' :
  om = w -> size es = (2 * size cs)%N -> (j < size es)%N -> v != es`_j ->
  rmapM (lookup_z_oracle_v xi om) (zip (iota k (size cs)) (zip cs (chunks 2 es))) = Ok lzs ->
  rmapM (lookup_z_oracle_v xi om) (zip (iota k (size cs)) (zip cs (chunks 2 (set_nth 0 es j v)))) = Ok lzs' ->
  pts_ok lzs -> one_off lzs lzs'.
Proof.
move=> Eom; elim: cs es k j lzs lzs' => [|c cs IH] es k j los los'.
  by move=> /= /size0nil ->.
rewrite /= mulnS; case: es => [|e0 [|e1 es]] // [se] Hj ne.
set f := lookup_z_oracle_v _ _.
have f_at a0 a1 x : f (k, (c, [:: a0; a1])) = Ok x -> x = two ("lookup_" ++ show_nat k ++ "_agg_poly")%string next (xi * om) Witness (Some c) false a0 a1.
  by case=> <-.
have step a0 a1 t T : rmapM f (zip (iota k (size cs).+1) (zip (c :: cs) (chunks 2 [:: a0, a1 & t]))) = Ok T ->
    exists x R, [/\ f (k, (c, [:: a0; a1])) = Ok x, rmapM f (zip (iota k.+1 (size cs)) (zip cs (chunks 2 t))) = Ok R & T = x :: R].
  rewrite -[a0 :: _]/([:: a0; a1] ++ t) chunks_step // => H; have [x Hx {}H] := rbind_ok H; have [R HR {}H] := rbind_ok H.
  by case: H => <-; exists x, R.
move=> /step [x [R [Hx HR ->]]]; have Ea := f_at _ _ _ Hx.
have ny : pts_ok (x :: R) -> xi != xi * om.
  by move=> /(_ _ (or_introl erefl)); rewrite Ea /= andbT inE rp_curr rp_next Eom.
case: j Hj ne => [|[|j]] /= Hj ne.
- move=> /step [x' [R' [Hx' HR' ->]]] U; have Ea' := f_at _ _ _ Hx'.
  have -> : R' = R by have := etrans (esym HR') HR; case.
  rewrite Ea Ea'; apply: one_off_head; apply: two_changed0 => //; [by rewrite rp_next Eom|exact: ny].
- move=> /step [x' [R' [Hx' HR' ->]]] U; have Ea' := f_at _ _ _ Hx'.
  have -> : R' = R by have := etrans (esym HR') HR; case.
  rewrite Ea Ea'; apply: (@one_off_head next); apply: two_changed1 => //; [by rewrite rp_next Eom|exact: ny].
move=> /step [x' [R' [Hx' HR' ->]]] U; have -> : x' = x by have := etrans (esym Hx') Hx; case.
apply: one_off_cons; apply: (IH es k.+1 j) HR HR' _ => //.
by move=> o Ho; apply: U; right.
Qed.
End Changes.

Section Verdict.
Variables (F : fieldType) (env : fenv F) (PC : pcs F) (FS : fsrng F) (pvk : pc_vk PC) (S : vinput PC) (es : seq (expr F oquery)).
Hypothesis eok : fenv_ok env.
Hypothesis sd : std_domain env (s_d S).
Hypothesis rdy : verifiable S es.
Let d := s_d S.
Let n := dsize d.
Let dok : domain_ok d := std_domain_ok eok sd.
Notation vorc := (voracle F (pc_com PC)).
Notation pts := (@pts_ok F PC d).
Notation off := (@one_off F PC d).

Lemma registered_fun xi os evs A A' missing : registered xi d os evs A missing -> registered xi d os evs A' missing -> A = A' :> seq vorc.
Proof. by move=> [qs [E _ H]] [qs' [E' _]]; move: E'; rewrite E => -[<-]; rewrite H => -[]. Qed.

Lemma registered_one xi os evs A A' missing j v : uniq (map (@o_label _) os) -> rots_below os n -> (j < size evs)%N -> v != evs`_j ->
  registered xi d os evs A missing -> registered xi d os (set_nth 0 evs j v) A' missing -> pts xi A -> off xi A A'.
Proof.
move=> ul rb Hj ne [qs [E sz H]] [qs' [E' _]]; move: E'; rewrite E => -[<-] H' U.
have U0 o : occurs o os -> uniq [seq rot_point (dgen d) r xi | r <- o_rots o].
  move=> Ho; have [i Hi] := occurs_ex_idx Ho; have S0 := register_evals_sbe H.
  have [o1 Ho1] := idx_size2 (each2_size S0) Hi; have [_ Er _ _ _] := each2_idx S0 Hi Ho1.
  by rewrite -Er; apply: U; apply: occurs_idx Ho1.
have [A1 [A2 [a [a' [r [E1 E2 _ Hc]]]]]] := group_pair dok ul rb E sz Hj ne U0 H H'.
by exists A1, A2, a, a', r.
Qed.

Lemma pts_cat xi (os os' : seq vorc) : pts xi (os ++ os') -> pts xi os /\ pts xi os'.
Proof. by move=> U; split=> o Ho; apply: U; apply/ProofEach.occurs_cat; [left|right]. Qed.

Lemma z_below (cs : seq (pc_com PC)) : rots_below [seq z_oracle_v (pa_usable_rows (s_perm S)) (size cs) kc : vorc | kc <- enumerate cs] n.
Proof.
have [n1 un] := rd_rows rdy => j v Hv r Hr; have [[k c] _ E] := idx_map_inv Hv; move: Hr; rewrite E /z_oracle_v; cbn [o_rots].
by case: ifP => _; rewrite ?mem_sinsert !inE => H'; repeat (case/orP: H' => H'); rewrite ?(eqP H') //= ltnW.
Qed.
Lemma z_uniq u m (cs : seq (pc_com PC)) : uniq (map (@o_label _) [seq z_oracle_v u m kc : vorc | kc <- enumerate cs]).
Proof.
rewrite -map_comp.
have -> : [seq o_label (z_oracle_v u m kc) | kc <- enumerate cs] = [seq append "agg_permutation_" (show_nat k) | k <- iota 0 (size cs)].
  by rewrite /enumerate; elim: (cs) 0%N => //= c cs' IH k; rewrite IH.
exact: uniq_numbered.
Qed.

Lemma changed_oracles theta xi pf T T' g j v :
  let fo := front_of env (s_vk S) (s_pre S) (s_ws S) (s_ins S) n theta xi in
  right_lengths S pf -> (j < size (evals_of g pf))%N -> v != (evals_of g pf)`_j ->
  fo pf d T -> fo (with_eval pf g j v) d T' -> pts xi (vt_oracles T) -> off xi (vt_oracles T) (vt_oracles T').
Proof.
move=> fo rl Hj ne [_ cT wT fT tT [sp pT] bT [om [Eo lT]] lzT zT] [_ cT' wT' fT' tT' [_ pT'] bT' [om' [Eo' lT']] lzT' zT'].
rewrite /vt_oracles => U; have [Uw U1] := pts_cat U; have [Ul U2] := pts_cat U1; have [Ulz U3] := pts_cat U2.
have [Uc U4] := pts_cat U3; have [Uz U5] := pts_cat U4; have [Uf U6] := pts_cat U5; have [Ut U7] := pts_cat U6; have [Up Ub] := pts_cat U7.
have {Eo'}E : om' = om by move: Eo'; rewrite Eo => -[]. subst om'.
have [lw li lf lt] := rd_labels rdy; have [rw rf rt] := rd_rots rdy.
have oE : om = (dgen d)^-1 by move: Eo; rewrite /finv; case: ifP => // _ [<-]; rewrite /element expr1.
move: (rl); rewrite /right_lengths; cbv zeta => /and5P[_ _ _ _ /and5P[_ /eqP s2 /eqP s3 /eqP s4 /andP[/eqP s5 _]]].
case: g Hj ne cT' wT' fT' tT' pT' bT' lT' lzT' zT' => Hj ne cT' wT' fT' tT' pT' bT' lT' lzT' zT';
  cbn [with_eval evals_of tp_witness_commitments tp_witness_evals tp_fixed_evals tp_table_evals tp_perm_evals tp_q_blind_eval
  tp_lookup_commitments tp_lookup_z_commitments tp_lookup_evals tp_lookup_z_evals tp_z_commitments tp_z_evals
  tp_quotient_commitments tp_quotient_evals head set_nth] in *;
  try (have Ec : vt_chunks T' = vt_chunks T by [move: cT'; rewrite cT => -[->]]); try rewrite Ec;
  try (have Ew := registered_fun wT' wT); try rewrite Ew;
  try (have Ef := registered_fun fT' fT); try rewrite Ef;
  try (have Et := registered_fun tT' tT); try rewrite Et;
  try (have Ez := registered_fun zT' zT); try rewrite Ez;
  try (have Ep : vt_perm T' = vt_perm T by [rewrite pT' pT]); try rewrite Ep;
  try (have Eb : vt_qb T' = vt_qb T by [rewrite bT' bT]); try rewrite Eb;
  try (have Elz : vt_lzs T' = vt_lzs T by [move: lzT'; rewrite lzT => -[->]]); try rewrite Elz;
  try (have El := primes_any lT' lT); try rewrite El.
- apply: one_off_r; apply: registered_one Hj ne wT wT' Uw.
    by rewrite -(mirrors_labels (register_mirrors _ _)).
  move=> i o Ho r Hr; have [o0 [H0 _ Er _]] := register_shape Ho; by apply: (rw i o0 H0); rewrite -Er.
- do 5 apply: one_off_l; apply: one_off_r; exact: registered_one lf rf Hj ne fT fT' Uf.
- do 6 apply: one_off_l; apply: one_off_r; exact: registered_one lt rt Hj ne tT tT' Ut.
- do 7 apply: one_off_l; apply: one_off_r; rewrite pT pT'; apply: flat_list => // o Ho; apply: (rd_flat rdy); apply/ProofEach.occurs_cat; by left.
- do 8 apply: one_off_l; rewrite bT bT'; apply: (@one_off_head _ _ _ _ curr); case: j Hj ne {bT'} => // _ ne; apply: flat_changed ne; apply: (rd_flat rdy).
  by apply/ProofEach.occurs_cat; right; left.
- apply: one_off_l; apply: one_off_r.
  have s3' : size (set_nth 0 (tp_lookup_evals pf) j v) = (size (s_lookups S) * 3)%N by rewrite size_set_nth (maxn_idPr Hj) s3 mulnC.
  move: lT lT'; rewrite Ew Ef Et Ep /enumerate !size_zip (chunks_take_exact _ s3') ?(chunks_take_exact (m := size (s_lookups S))) // ?s2 ?s3 1?mulnC // !minnn => lT lT'.
  apply: (lookup_list oE _ _ Hj ne lT lT' Ul); rewrite ?(chunks_take_exact (m := size (s_lookups S))) // ?s2 1?mulnC //.
- do 2 apply: one_off_l; apply: one_off_r.
  have s5' : size (set_nth 0 (tp_lookup_z_evals pf) j v) = (size (tp_lookup_z_commitments pf) * 2)%N by rewrite size_set_nth (maxn_idPr Hj) s5 s4 mulnC.
  move: lzT lzT'; rewrite /enumerate !size_zip (chunks_take_exact _ s5') ?(chunks_take_exact (m := size (tp_lookup_z_commitments pf))) // ?s5 ?s4 1?mulnC // !minnn -s4 => lzT lzT'.
  by apply: (lookup_z_list _ _ Hj ne lzT lzT' Ulz); rewrite ?s5 ?s4 // /element expr1.
- do 4 apply: one_off_l; apply: one_off_r; exact: (registered_one (z_uniq _ _ _) (@z_below (tp_z_commitments pf)) Hj ne zT zT' Uz).
- do 3 apply: one_off_l; apply: one_off_r; move: Hj; rewrite size_take => Hj.
  have jq : (j < size (tp_quotient_commitments pf))%N by move: Hj {cT'}; case: (ltnP (size _) (size _)) => // h1 h2; exact: leq_trans h2 h1.
  by rewrite nth_take // in ne; apply: chunk_list ne cT cT'.
Qed.

(** A proof with one changed evaluation is rejected if the original is accepted. *)
Lemma verdict_single pf g j v : let ch := derive_challenges FS pf in
  one_value pvk -> verdict env FS pvk S pf = Ok tt ->
  size (tp_witness_commitments pf) = size (s_ws S) ->
  (size (undup (opened_rots S (size (tp_quotient_commitments pf)))) <= size (mp_q_evals (tp_multiopen pf)))%N ->
  (fs_rand (ch_fs ch)).1 != 0 -> (fs_rand (fs_rand (ch_fs ch)).2).1 != 0 ->
  (j < size (evals_of g pf))%N -> v != (evals_of g pf)`_j ->
  verdict env FS pvk S (with_eval pf g j v) <> Ok tt.
Proof.
move=> ch ov; rewrite !verdictE; have -> : derive_challenges FS (with_eval pf g j v) = ch by case: (g).
rewrite -/ch => H sw sq n1 n2 Hj ne H'.
have [T Hf {}H] := rbind_ok H; have [_ _ Hm] := rbind_ok H.
have [T' Hf' {}H'] := rbind_ok H'; have [_ _ Hm'] := rbind_ok H'.
have rl : right_lengths S pf by have := front_goes eok (ch_theta ch) (ch_xi ch) pf sd rdy; rewrite Hf.
have [d1 fo] := front_inv Hf; have E1 : d1 = d by have := fo_d fo; rewrite -/n sd => -[].
have [d2 fo'] := front_inv Hf'; have E2 : d2 = d by have := fo_d fo'; rewrite -/n sd => -[].
subst d1 d2; have cnt := counted_of rl sw.
have car : carries pf (Commitments (tp_witness_commitments pf) (tp_lookup_commitments pf) (tp_z_commitments pf) (tp_lookup_z_commitments pf)) (tp_quotient_commitments pf) by [].
have Er := vt_rots eok sd rdy cnt car Hf; rewrite -Er in sq.
have U : pts (ch_xi ch) (vt_oracles T) := accepted_points eok sd sq Hm.
have [L [R [a [a' [r [Ea Ea' Hc]]]]]] := changed_oracles rl Hj ne fo fo' U.
rewrite Ea in Hm sq; rewrite Ea' in Hm'.
by apply: (single_claim eok ov sd Hc n1 n2 sq Hm); move: Hm'; case: (g).
Qed.
End Verdict.
