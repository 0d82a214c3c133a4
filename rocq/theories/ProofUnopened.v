(** Evaluations that are claimed but not opened: what verify computes from them. *)
From mathcomp Require Import all_ssreflect all_algebra.
From mathcomp Require Import zify.
From Verif Require Import Base ModelPoly ModelVO ModelOracle ModelPC ModelPermutation ModelLookup ModelIndexer ModelMultiproof ModelProtocol
  Spec SpecProtocol SpecPIOP SpecMultiopen SpecCircuit SpecUnopened ProofBase ProofPoly ProofDomain ProofOracle ProofPermutation ProofPermArg ProofOpen ProofLookup ProofIndexer ProofColumns ProofPIOP ProofPIOP2 ProofPIOP3 ProofEach ProofProver ProofFront
  ProofInstances ProofRounds ProofHonest ProofComplete PropsMultiopen.

Set Implicit Arguments.
Unset Strict Implicit.
Unset Printing Implicit Defensive.

Import GRing.Theory.
Local Open Scope ring_scope.

(** ** Affine functions of one value *)
Section Affine.
Variable F : fieldType.
Add Field Ffield4 : (F_field_theory F).
Definition affine (g : F -> F) : Prop := exists a b, forall v, g v = a + b * v.
Lemma affine_const c : affine (fun _ => c).
Proof. by exists c, 0 => v; rewrite mul0r addr0. Qed.
Lemma affine_id : affine id.
Proof. by exists 0, 1 => v; rewrite mul1r add0r. Qed.
Lemma affine_ext g h : g =1 h -> affine g -> affine h.
Proof. by move=> E [a [b H]]; exists a, b => v; rewrite -E. Qed.
Lemma affine_add g h : affine g -> affine h -> affine (fun v => g v + h v).
Proof. move=> [a [b H]] [a' [b' H']]; exists (a + a'), (b + b') => v; rewrite H H'; f_conv F; ring. Qed.
Lemma affine_sub g h : affine g -> affine h -> affine (fun v => g v - h v).
Proof. move=> [a [b H]] [a' [b' H']]; exists (a - a'), (b - b') => v; rewrite H H'; f_conv F; ring. Qed.
Lemma affine_mul c h : affine h -> affine (fun v => c * h v).
Proof. move=> [a [b H]]; exists (c * a), (c * b) => v; rewrite H; f_conv F; ring. Qed.
Lemma affine_mulr c h : affine h -> affine (fun v => h v * c).
Proof. move=> H; apply: affine_ext (affine_mul c H) => v; exact: mulrC. Qed.
Lemma affine_sum (I : Type) (s : seq I) (g : I -> F -> F) : (forall i, affine (g i)) -> affine (fun v => \sum_(i <- s) g i v).
Proof.
move=> H; elim: s => [|i s IH]; first by apply: affine_ext (affine_const 0) => v; rewrite big_nil.
by apply: affine_ext (affine_add (H i) IH) => v; rewrite big_cons.
Qed.
(** A product in which only the factor at [j] changes. *)
Lemma affine_prod (s : seq nat) (g : nat -> F -> F) j : uniq s -> (forall i, affine (g i)) ->
  (forall i v v', i != j -> g i v = g i v') -> affine (fun v => \prod_(i <- s) g i v).
Proof.
move=> + Ha Hc; elim: s => [_|i s IH /= /andP[Hi us]]; first by apply: affine_ext (affine_const 1) => v; rewrite big_nil.
have [E|ne] := eqVneq i j; last first.
  by apply: affine_ext (affine_mul (g i 0) (IH us)) => v; rewrite big_cons (Hc i v 0 ne).
apply: affine_ext (affine_mulr (\prod_(k <- s) g k 0) (Ha i)) => v; rewrite big_cons; congr (_ * _).
rewrite [LHS]big_seq [RHS]big_seq; apply: eq_bigr => k Hk; apply: Hc; apply: contra Hi => /eqP E'.
by rewrite E -E'.
Qed.
(** The two cases of an affine check. *)
Lemma affine_solve g t : affine g -> (forall v v', g v = g v') \/ exists v, forall v', (g v' = t) <-> (v' = v).
Proof.
move=> [a [b H]]; have [b0|bn] := eqVneq b 0; first by left=> v v'; rewrite !H b0 !mul0r.
right; exists ((t - a) / b) => v'; rewrite H; split=> [<-|->]; first by f_conv F; field; exact/eqP.
f_conv F; field; exact/eqP.
Qed.

(** Lists of such functions. *)
Definition affines (g : F -> seq F) : Prop := exists2 k, forall v, size (g v) = k & forall i, affine (fun v => (g v)`_i).
Lemma affines_ext g h : g =1 h -> affines g -> affines h.
Proof. by move=> E [k H1 H2]; exists k => [v|i]; [rewrite -E|apply: affine_ext (H2 i) => v; rewrite E]. Qed.
Lemma affines_const s : affines (fun _ => s).
Proof. by exists (size s) => // i; exact: affine_const. Qed.
Lemma affines_cons g h : affine g -> affines h -> affines (fun v => g v :: h v).
Proof. by move=> Hg [k H1 H2]; exists k.+1 => [v|[|i]] //=; rewrite H1. Qed.
Lemma affines_cat g h : affines g -> affines h -> affines (fun v => g v ++ h v).
Proof.
move=> [k H1 H2] [k' H1' H2']; exists (k + k')%N => [v|i]; first by rewrite size_cat H1 H1'.
case E: (i < k)%N.
  by apply: affine_ext (H2 i) => v; rewrite nth_cat H1 E.
by apply: affine_ext (H2' (i - k)%N) => v; rewrite nth_cat H1 E.
Qed.
Lemma affines_map (T : Type) (s : seq T) (g : T -> F -> F) : (forall t, affine (g t)) -> affines (fun v => [seq g t v | t <- s]).
Proof.
move=> H; elim: s => [|t s IH]; first exact: affines_const.
by apply: affines_cons.
Qed.
Lemma affines_flatten (T : Type) (s : seq T) (g : T -> F -> seq F) : (forall t, affines (g t)) ->
  affines (fun v => flatten [seq g t v | t <- s]).
Proof.
move=> H; elim: s => [|t s IH]; first exact: affines_const.
by apply: affines_cat.
Qed.
Lemma affine_compressed alpha g : affines g -> affine (fun v => compressed alpha (g v)).
Proof.
move=> [k H1 H2]; apply: (@affine_ext (fun v => \sum_(j <- iota 0 k) alpha ^+ j * (g v)`_j)).
  by move=> v; rewrite /compressed H1 -(big_mkord predT (fun j => alpha ^+ j * (g v)`_j)) /index_iota subn0.
by apply: affine_sum => i; apply: affine_mul.
Qed.
End Affine.

(** ** The numerator at a point, as a function of the claims *)
Section Values.
Variables (F : fieldType) (d : domain F) (pa : permutation_argument F) (es : seq (expr F oquery)) (beta gamma alpha xi : F) (A : assignment F).
(** An oracle with a constant polynomial. *)
Definition constant (v : F) : poracle F := Oracle String.EmptyString [::] (PData Fixed [:: v] [::] None false).
Definition claiming (ss : seq F) (v : F) : assignment F :=
  Assignment (as_ws A) (as_ins A) (as_fs A) (constant v) (map constant ss) (as_zs A) (as_los A) (as_lzs A).
Definition value (ss : seq F) (v : F) : F := (numerator d pa es beta gamma (claiming ss v) alpha).[xi].
Let e (p : {poly F}) : F := p.[xi].
Let l0 := (row_selector d 0).[xi].
Let lu := (row_selector d (pa_usable_rows pa)).[xi].
Let K := size (copied (as_ws A)).
Let m := pa_max_cols pa.
Definition column (ss : seq F) (j : nat) : F * F * F :=
  ((opoly (nth (constant 0) (copied (as_ws A)) j)).[xi], ss`_j, (pa_deltas pa)`_j * xi).
Definition products : seq (F * F * F) :=
  [seq (t.1.1.[xi], t.1.2.[xi], t.2.[xi]) | t <- [seq (z, scaled_arg (dgen d) z, scaled_arg (dgen d ^+ pa_usable_rows pa) z) | z <- map (@opoly F) (as_zs A)]].
Lemma horner_constant v : (opoly (constant v)).[xi] = v.
Proof. by rewrite /opoly horner_Poly /= mul0r add0r. Qed.
Hypothesis m0 : ~~ nilp (copied (as_ws A)) -> (0 < m)%N.
Lemma perm_values ss v : size ss = K -> size (pa_deltas pa) = K -> ~~ nilp (copied (as_ws A)) ->
  map e (perm_polys d pa beta gamma (claiming ss v)) =
  perm_constraints l0 lu v beta gamma (perm_chunks m (map (column ss) (iota 0 K)) products).
Proof.
move=> s1 s2 nn; rewrite /perm_polys /= (negbTE nn).
rewrite -[map e _]/(map (horner_eval xi) _) (map_perm_constraints [rmorphism of horner_eval xi]) map_perm_chunks ?(m0 nn) //.
rewrite /horner_eval /= !hornerC horner_constant -/l0 -/lu; congr (perm_constraints _ _ _ _ _ (perm_chunks _ _ _)).
- apply: (@eq_from_nth _ (0, 0, 0)); first by rewrite !size_map !size_zip !size_map s1 s2 !minnn size_iota.
  move=> j; rewrite !size_map !size_zip !size_map s1 s2 !minnn => Hj.
  rewrite (nth_map (0, 0, 0)) ?size_map ?size_zip ?size_map ?s1 ?s2 ?minnn //.
  rewrite (nth_map (0, 0, 0)) ?size_zip ?size_map ?s1 ?s2 ?minnn // (nth_map 0%N) ?size_iota // nth_iota // add0n.
  rewrite !nth_zip ?size_zip ?size_map ?s1 ?s2 ?minnn //=.
  rewrite /map_col /column /= hornerZ hornerX; congr (_, _, _).
    by rewrite (nth_map (constant 0)).
  by rewrite -map_comp (nth_map 0) ?s1 //= horner_constant.
Qed.
Lemma perm_none ss v : nilp (copied (as_ws A)) -> perm_polys d pa beta gamma (claiming ss v) = [::].
Proof. by rewrite /perm_polys /= => ->. Qed.
Lemma lookup_values ss v : map (map e) (lookup_polys d pa beta gamma (claiming ss v)) =
  [seq lookup_constraints l0 lu v beta gamma (opoly (lo_a t.1)).[xi] (opoly (lo_s t.1)).[xi] (opoly (lo_a' t.1)).[xi] (opoly (lo_s' t.1)).[xi]
     (scaled_arg (dgen d)^-1 (opoly (lo_a' t.1))).[xi] (opoly t.2).[xi] (scaled_arg (dgen d) (opoly t.2)).[xi] | t <- zip (as_los A) (as_lzs A)].
Proof.
rewrite /lookup_polys -map_comp; apply: eq_map => t.
by rewrite -[LHS]/(map (horner_eval xi) (lookup_constraints _ _ _ _ _ _ _ _ _ _ _ _)) (map_lookup_constraints [rmorphism of horner_eval xi]) /horner_eval /= !hornerC horner_constant.
Qed.
Lemma valueE ss v : value ss v =
  compressed alpha (map e (vo_polys d es A) ++ map e (perm_polys d pa beta gamma (claiming ss v))) +
  alpha ^+ (size (vo_polys d es A) + 2 * size (as_zs A)) * compressed alpha (flatten (map (map e) (lookup_polys d pa beta gamma (claiming ss v)))).
Proof.
rewrite /value -[LHS]/(horner_eval xi _) /numerator (map_aggregate [rmorphism of horner_eval xi]) /aggregate /=.
by rewrite /horner_eval hornerC !size_map.
Qed.
Lemma affine_1sub c : affine (fun v : F => 1 - (c + v)).
Proof. apply: affine_sub; first exact: affine_const. by apply: affine_add; [exact: affine_const|exact: affine_id]. Qed.

Hypothesis sdl : ~~ nilp (copied (as_ws A)) -> size (pa_deltas pa) = K.
Lemma affine_q_blind ss : (~~ nilp (copied (as_ws A)) -> size ss = K) -> affine (value ss).
Proof.
move=> sss; apply: (affine_ext (fun v => esym (valueE ss v))); apply: affine_add.
  apply: affine_compressed; apply: affines_cat; first exact: affines_const.
  case nn: (nilp (copied (as_ws A))).
    by apply: (@affines_ext _ (fun _ => [::])) (affines_const _) => v; rewrite perm_none.
  apply: (affines_ext (fun v => esym (perm_values v (sss (negbT nn)) (sdl (negbT nn)) (negbT nn)))).
  case: (perm_chunks _ _ _) => [|c cs]; first exact: affines_const.
  rewrite /perm_constraints; apply: affines_cons; first exact: affine_const.
  apply: affines_cat; last exact: affines_const.
  by apply: affines_map => k; apply: affine_mulr; exact: affine_1sub.
apply: affine_mul; apply: affine_compressed; apply: (affines_ext (fun v => esym (congr1 flatten (lookup_values ss v)))).
apply: affines_flatten => t; rewrite /lookup_constraints.
apply: affines_cons; first exact: affine_const.
apply: affines_cons; first by apply: affine_mulr; exact: affine_1sub.
apply: affines_cons; first exact: affine_const.
apply: affines_cons; first exact: affine_const.
apply: affines_cons; last exact: affines_const.
by apply: affine_mulr; apply: affine_mulr; exact: affine_1sub.
Qed.

(** One permutation column. *)
Definition chunk_of (cols : nat -> F * F * F) (t : seq nat * (F * F * F)) : pchunk [comRingType of F] := PChunk (map cols t.1) t.2.1.1 t.2.1.2 t.2.2.
Definition cuts : seq (seq nat * (F * F * F)) := zip (chunks m (iota 0 K)) products.
Lemma perm_chunks_cuts cols : ~~ nilp (copied (as_ws A)) -> perm_chunks m (map cols (iota 0 K)) products = map (chunk_of cols) cuts.
Proof.
move=> nn; rewrite /perm_chunks map_chunks ?(m0 nn) // /cuts; elim: (chunks m _) products => [|c cs IH] [|z zs] //=.
by rewrite IH.
Qed.
Lemma uniq_cuts t : ~~ nilp (copied (as_ws A)) -> occurs t cuts -> uniq t.1.
Proof.
move=> nn; rewrite /cuts; have : uniq (flatten (chunks m (iota 0 K))) by rewrite flatten_chunks ?(m0 nn) // iota_uniq.
elim: (chunks m _) products => [|c cs IH] [|z zs] //=; rewrite cat_uniq => /and3P[uc _ us] [->|] //.
exact: IH.
Qed.
Lemma chain_chunks cols cols' t G : chain_constraints l0 (chunk_of cols t) (map (chunk_of cols) G) = chain_constraints l0 (chunk_of cols' t) (map (chunk_of cols') G).
Proof. by elim: G t => //= t' G IH t; rewrite (IH t'). Qed.
Lemma affine_sigma ss v j : (j < size ss)%N -> (~~ nilp (copied (as_ws A)) -> size ss = K) -> affine (fun s => value (set_nth 0 ss j s) v).
Proof.
move=> Hj sss; apply: (affine_ext (fun s => esym (valueE (set_nth 0 ss j s) v))).
have sz s : size (set_nth 0 ss j s) = size ss by rewrite size_set_nth; apply/maxn_idPr.
apply: affine_add; last first.
  by apply: affine_mul; apply: (affine_ext (fun s => esym (congr1 (fun l => compressed alpha (flatten l)) (lookup_values (set_nth 0 ss j s) v)))); exact: affine_const.
apply: affine_compressed; apply: affines_cat; first exact: affines_const.
case nn: (nilp (copied (as_ws A))).
  by apply: (@affines_ext _ (fun _ => [::])) (affines_const _) => s; rewrite perm_none.
have sk s := etrans (sz s) (sss (negbT nn)).
apply: (affines_ext (fun s => esym (perm_values v (sk s) (sdl (negbT nn)) (negbT nn)))).
apply: (affines_ext (fun s => esym (congr1 (perm_constraints l0 lu v beta gamma) (perm_chunks_cuts _ (negbT nn))))).
have := (fun t => @uniq_cuts t (negbT nn)); case: cuts => [|t G] uc; first exact: affines_const.
rewrite /=; apply: affines_cons; first exact: affine_const.
have one t' : occurs t' (t :: G) -> affine (fun s => (1 - (lu + v)) * (ch_zn (chunk_of (column (set_nth 0 ss j s)) t') * ch_den beta gamma (chunk_of (column (set_nth 0 ss j s)) t')
   - ch_z (chunk_of (column (set_nth 0 ss j s)) t') * ch_num beta gamma (chunk_of (column (set_nth 0 ss j s)) t'))).
  move=> Ht; apply: affine_mul; apply: affine_sub.
    apply: affine_mul; apply: (@affine_ext _ (fun s => \prod_(k <- t'.1) ((opoly (nth (constant 0) (copied (as_ws A)) k)).[xi] + beta * (set_nth 0 ss j s)`_k + gamma))).
      by move=> s; rewrite /ch_den /= big_map.
    apply: (@affine_prod _ _ _ j (uc _ Ht)) => [k|k s s' ne].
      apply: affine_add; last exact: affine_const.
      apply: affine_add; first exact: affine_const.
      apply: affine_mul; have [->|ne] := eqVneq k j.
        by apply: affine_ext (affine_id _) => s; rewrite nth_set_nth /= eqxx.
      by apply: affine_ext (affine_const ss`_k) => s; rewrite nth_set_nth /= (negbTE ne).
    by rewrite !nth_set_nth /= (negbTE ne).
  apply: affine_mul; apply: (@affine_ext _ (fun s => \prod_(k <- t'.1) ((opoly (nth (constant 0) (copied (as_ws A)) k)).[xi] + beta * ((pa_deltas pa)`_k * xi) + gamma))).
    by move=> s; rewrite /ch_num /= big_map.
  exact: affine_const.
apply: affines_cons; first by apply: one; left.
apply: affines_cat.
  have one2 t' (H : occurs t' G) := one t' (or_intror H).
  elim: G {uc one} one2 => [|t' G IH] one; first exact: affines_const.
  by rewrite /=; apply: affines_cons; [apply: one; left|apply: IH => x Hx; apply: one; right].
apply: affines_cat.
  by apply: (affines_ext (fun s => chain_chunks (column ss) (column (set_nth 0 ss j s)) t G)); exact: affines_const.
apply: affines_cons; last exact: affines_const.
by apply: (@affine_ext _ (fun _ => lu * ((last t G).2.1.1 * (last t G).2.1.1 - (last t G).2.1.1))) (affine_const _) => s; rewrite last_map.
Qed.
End Values.

(** ** verify on a proof with other claims *)
Section Verify.
Variables (F : fieldType) (env : fenv F).
Hypothesis eok : fenv_ok env.
Variables (PC : pcs F) (ck : pc_ck PC) (C : circuit F) (vk : verifier_key F) (es : seq (expr F oquery)) (zk : pc_zk PC)
  (theta beta gamma alpha xi : F) (pf : tp_proof PC) (T : ptrace PC).
Let ix := vk_index vk.
Let ext := ix_ext ix.
Let d := c_d C.
Let n := c_rows C.
Let w := dgen d.
Let pre := preprocessed env PC C vk.
Notation f := (compute_extended_evals env ext).
Hypothesis sd : std_domain env d.
Hypothesis ixd : indexed env C vk.
Hypothesis lay : laid_out C.
Hypothesis gok : gates_ok C es.
Hypothesis lks : lookups_ok C (dsize ext).
Hypothesis tr : prover_trace env ck vk pre (c_ws C) (c_ins C) (c_vos C) n zk theta beta gamma alpha xi pf T.
Variables (vws : seq (voracle F (pc_com PC))) (vins : seq (ioracle F)) (vpre : verifier_pre PC).
Hypothesis copy : verifier_copy ck C vws vins vpre.
Notation stands := (@stands_for F PC ck w xi).

Definition reclaim (ss : seq F) (v : F) (VT : vtrace PC) : vtrace PC :=
  VTrace (vt_d VT) (vt_ws VT) (vt_fixed VT) (vt_table VT) [seq register_eval_at_challenge xi se.2 se.1 | se <- zip (vp_perm vpre) ss]
    (register_eval_at_challenge xi v (vp_q_blind vpre)) (vt_los VT) (vt_lzs VT) (vt_zs VT) (vt_chunks VT).
Lemma front_claims ss v : size ss = size (tp_perm_evals pf) ->
  verify_front env vk vpre (with_claims ss v pf) vws vins n theta xi = rmap (reclaim ss v) (verify_front env vk vpre pf vws vins n theta xi).
Proof.
move=> sz; rewrite /verify_front; cbn [with_claims tp_witness_commitments tp_witness_evals tp_fixed_evals tp_table_evals tp_perm_evals tp_q_blind_eval
  tp_lookup_commitments tp_lookup_z_commitments tp_lookup_evals tp_lookup_z_evals tp_z_commitments tp_z_evals tp_quotient_commitments tp_quotient_evals tp_multiopen].
rewrite sz.
do 11! [match goal with |- rbind ?r _ = _ => case: r => [?|?|?]; [cbn [rbind]|by []|by []] end].
match goal with |- rbind ?r _ = _ => set R := r end.
case: R => [?|?|?]; [cbn [rbind]|by []|by []].
by do ! [match goal with |- rbind ?r _ = _ => case: r => [?|?|?]; [cbn [rbind]|by []|by []] end].
Qed.

(** The claims of columns with a rotation are kept. *)
Definition kept (ss : seq F) (v : F) : Prop :=
  [/\ size ss = size (tp_perm_evals pf),
      forall j p s s', idx (c_sigmas C) j = Ok p -> o_rots p <> [::] -> idx ss j = Ok s -> idx (tp_perm_evals pf) j = Ok s' -> s = s' &
      o_rots (c_qb C) <> [::] -> v = tp_q_blind_eval pf].
Lemma mirrors_rots (vs : seq (voracle F (pc_com PC))) ps j v p : publishes ck vs ps -> idx vs j = Ok v -> idx ps j = Ok p -> o_rots v = o_rots p.
Proof. by move=> [m _] Hv Hp; have [_ ->] := each2_idx (mirrors_each m) Hv Hp. Qed.
Definition same_opening (v v' : voracle F (pc_com PC)) : Prop :=
  v' = v \/ [/\ o_rots v = [::], o_rots v' = [::] & get_commitment v' = get_commitment v].
Lemma same_opening_refl s : each2 same_opening s s.
Proof. by apply: each2_intro => // j v v' ->; case=> ->; left. Qed.
Lemma stands_same vs vs' ps rs : each2 same_opening vs vs' -> each3 stands vs ps rs -> each3 stands vs' ps rs.
Proof.
move=> H; elim: vs vs' ps rs H => [|v vs IH] [|v' vs'] // [|p ps] // [|r rs] //= [H1 H2] [H3 H4].
split; last exact: IH H4.
case: H1 => [->|[h1 h2 h3]] //; case: H3 => h4 h5 h6; rewrite h1 in h4.
by split; rewrite ?h2 ?h3 -?h4.
Qed.
Lemma claims_ok ss v : kept ss v -> exists VT, [/\ verify_front env vk vpre (with_claims ss v pf) vws vins n theta xi = Ok VT, vt_d VT = d,
  sees w xi (pa_usable_rows (ix_perm ix)) (front_view vins VT) (claiming (honest env C vk T) ss v) (t_chunks T) &
  each3 stands (vt_oracles VT) (t_oracles pre (map f (c_ws C)) T) (t_rands pre T)].
Proof.
move=> [sz kp kq]; have [VT [VE Vd Vs Vst]] := front_ok eok sd ixd lay lks tr copy.
have := front_claims (tp_q_blind_eval pf) (erefl (size (tp_perm_evals pf))).
have -> : with_claims (tp_perm_evals pf) (tp_q_blind_eval pf) pf = pf by case: (pf).
rewrite VE /= => -[EV].
have sg : size (vp_perm vpre) = size (c_sigmas C) by case: (vc_sigmas copy) => m _; exact: each2_size (mirrors_each m).
have sp : size (vp_perm vpre) = size ss by rewrite sz (pt_pevals tr) !size_map.
have con x (o : voracle F (pc_com PC)) : answers xi (register_eval_at_challenge xi x o) (constant x).
  by rewrite /answers vo_query_register eqxx pevalE -[Poly _]/(opoly (constant x)) horner_constant.
exists (reclaim ss v VT); split=> //; first by rewrite front_claims // VE.
- case: Vs => h1 h2 h3 h4 h5 h6 h7 h8 h9 h10 h11 h12 h13; split=> //=.
  split; first by rewrite !size_map size_zip sp minnn.
  move=> j v' p' Hv Hp; have [[v0 e] /idx_zip [Hv0 He] ->] := idx_map_inv Hv; have [e' He' ->] := idx_map_inv Hp.
  by move: He'; rewrite He /= => -[<-]; exact: con.
- apply: stands_same Vst; have [Ep Eq] : vt_perm VT = vt_perm (reclaim (tp_perm_evals pf) (tp_q_blind_eval pf) VT) /\ vt_qb VT = vt_qb (reclaim (tp_perm_evals pf) (tp_q_blind_eval pf) VT) by rewrite -EV.
  rewrite /vt_oracles Ep Eq /=; do ! apply: each2_cat; try exact: same_opening_refl.
  + apply: each2_intro; first by rewrite !size_map !size_zip -sz.
    move=> j v1 v2 H1 H2; have [[v0 e] /idx_zip [/= Hv0 He] ->] := idx_map_inv H1; have [[v0' e'] /idx_zip [/= Hv0' He'] ->] := idx_map_inv H2.
    move: Hv0'; rewrite Hv0 => -[<-] /=.
    have [p Hp] : exists p, idx (c_sigmas C) j = Ok p by exact: idx_size2 sg Hv0.
    case E: (o_rots p) => [|r rs].
      by right; rewrite /register_eval_at_challenge /get_commitment /= (mirrors_rots (vc_sigmas copy) Hv0 Hp).
    by left; rewrite (kp j p e' e Hp) // E.
  + split=> //=; have Er : o_rots (vp_q_blind vpre) = o_rots (c_qb C) by exact: (mirrors_rots (j := 0%N) (vc_qb copy)).
    case E: (o_rots (c_qb C)) => [|r rs]; last by left; rewrite kq // E.
    by right; rewrite /register_eval_at_challenge /get_commitment /= Er.
Qed.

Lemma shape_claims ss v : size ss = size (tp_perm_evals pf) -> shape_ok d (ix_perm ix) (claiming (honest env C vk T) ss v) (size (ix_lookups ix)).
Proof.
move=> sz; have := honest_shape eok sd ixd lay tr; rewrite /shape_ok /= !size_map sz (pt_pevals tr) !size_map.
exact.
Qed.
End Verify.

Section Verdict.
Variables (F : fieldType) (env : fenv F) (PC : pcs F) (FS : fsrng F) (ck : pc_ck PC) (pvk : pc_vk PC)
    (C : circuit F) (vk : verifier_key F) (es : seq (expr F oquery))
    (vws : seq (voracle F (pc_com PC))) (vins : seq (ioracle F)) (vpre : verifier_pre PC)
    (zk zk' : pc_zk PC) (pf : tp_proof PC).
Let N := dsize (ix_ext (vk_index vk)).
Let n := c_rows C.
Let ch := derive_challenges FS pf.
Hypothesis eok : fenv_ok env.
Hypothesis law : pcs_correct ck pvk.
Hypothesis sd : std_domain env (c_d C).
Hypothesis ixd : indexed env C vk.
Hypothesis lay : laid_out C.
Hypothesis gok : gates_ok C es.
Hypothesis lks : lookups_ok C N.
Hypothesis copy : verifier_copy ck C vws vins vpre.
Hypothesis Hp : tp_prove env FS ck vk (preprocessed env PC C vk) (c_ws C) (c_ins C) (c_vos C) n zk = Ok (pf, zk').
Hypothesis Hx3 : forall r, rot_point (dgen (c_d C)) r (ch_xi ch) != x3_of (ch_fs ch) (tp_multiopen pf).
Lemma verdict_claims : exists A t, [/\ shape_ok (c_d C) (ix_perm (vk_index vk)) A (size (ix_lookups (vk_index vk))), size (as_sigmas A) = size (tp_perm_evals pf) &
  forall ss v, kept C pf ss v -> (tp_verify env FS pvk vk vpre (with_claims ss v pf) vws vins (c_vos C) n (c_zh C)).1 =
  if value (c_d C) (ix_perm (vk_index vk)) es (ch_beta ch) (ch_gamma ch) (ch_alpha ch) (ch_xi ch) A ss v - t != 0 then Err QuotientNotZero else Ok tt].
Proof.
have [T [tr [fs' Hmo]]] := prover_inv Hp; rewrite -/ch in tr Hmo.
have [ge eo ed] := gok; have k0 := vos_pos tr.
exists (honest env C vk T), ((recombined n (map (@opoly F) (t_chunks T))).[ch_xi ch] * (Poly (c_zh C)).[ch_xi ch]).
have sh := honest_shape eok sd ixd lay tr; split; first exact: sh.
  by rewrite (pt_pevals tr) !size_map.
move=> ss v kp; have [VT [VE Vd Vs Vst]] := claims_ok eok sd ixd lay lks tr copy kp.
apply: (etrans (proj1 (verify_frontE _ _ _ _ _ _ _ _ _ _ _))).
have -> : derive_challenges FS (with_claims ss v pf) = ch by [].
rewrite VE rbind_Ok.
have [sz _ _] := kp; have shape := shape_claims eok sd ixd lay tr v sz.
have eo' := exprs_ok_ext env (ix_ext (vk_index vk)) eo; have ed' := exprs_declared_ext env (ix_ext (vk_index vk)) ed.
have [[uw _] [ui _] [uf _] _ _ _ _ _] := honest_ok eok sd ixd lay lks tr.
have Q := quotient_checkE eok sd ge shape eo' k0 uw ui uf ed' Vs erefl erefl erefl (vpre := vt_pre VT).
rewrite /vt_check Vd.
move: Q => /(_ (ch_beta ch) (ch_gamma ch) (ch_alpha ch) (c_zh C)); rewrite -/(vt_copied VT) => Q.
apply: (etrans (congr1 (fun r => rbind r _) Q)); rewrite /value.
case: ifP => _ //; rewrite rbind_Ok.
have [E1 E2 E3] := each3_unzip Vst.
pose ts := [seq (t.1.2, t.2, t.1.1) | t <- zip (zip (vt_oracles VT) (t_oracles (preprocessed env PC C vk) (ws_ext env vk (c_ws C)) T)) (t_rands (preprocessed env PC C vk) T)].
have Ets : [/\ [seq t.1.1 | t <- ts] = t_oracles (preprocessed env PC C vk) (ws_ext env vk (c_ws C)) T,
    [seq t.1.2 | t <- ts] = t_rands (preprocessed env PC C vk) T & [seq t.2 | t <- ts] = vt_oracles VT].
  by rewrite /ts -!map_comp; split.
have [M1 M2 M3] := Ets; have Ed : domain_new env n = Some (c_d C) by rewrite -(t_dE sd tr); exact: pt_d tr.
have Hm := @c40_multiopen_completeness F env PC FS ck pvk n (c_d C) (ch_xi ch) ts (ch_fs ch) fs' (t_zk8 T) zk' (tp_multiopen pf) eok law Ed.
rewrite M1 M2 M3 in Hm; apply: Hm => //.
move=> p r v0 Ho; have [[[v' p'] r'] Ho' [-> -> ->]] := occurs_map Ho; exact: (each3_occurs Vst Ho').
Qed.
Lemma size_perm_evals : size (tp_perm_evals pf) = size (c_sigmas C).
Proof. by have [T [tr _]] := prover_inv Hp; rewrite (pt_pevals tr) !size_map. Qed.
End Verdict.

Lemma shape_sizes (F : fieldType) (d : domain F) pa (A : assignment F) l : shape_ok d pa A l -> ~~ nilp (copied (as_ws A)) ->
  [/\ (0 < pa_max_cols pa)%N, size (pa_deltas pa) = size (copied (as_ws A)) & size (as_sigmas A) = size (copied (as_ws A))].
Proof. by move=> [_ _ _ _ +] nn; rewrite -/(nilp _) (negbTE nn) => -[]. Qed.
Lemma affine_verdict (F : fieldType) (verdict : F -> res unit) g t : affine g ->
  (forall v, verdict v = if g v - t != 0 then Err QuotientNotZero else Ok tt) ->
  (forall v v', verdict v = verdict v') \/ (exists v, forall v', verdict v' = Ok tt <-> v' = v).
Proof.
move=> ag H; case: (affine_solve t ag) => [E|[v E]]; first by left=> v v'; rewrite !H (E v v').
right; exists v => v'; rewrite H subr_eq0; split=> [|/E ->]; last by rewrite eqxx.
by have [/E|] := eqVneq (g v') t.
Qed.
Lemma set_nth_idx (A : Type) (a0 x a : A) s j k : j <> k -> (j < size s)%N -> idx (set_nth a0 s j x) k = Ok a -> idx s k = Ok a.
Proof. by elim: s j k => [|b s IH] [|j] [|k] //= ne H; apply: IH => // E; apply: ne; rewrite E. Qed.
