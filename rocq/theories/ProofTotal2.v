(** The quotient check on an arbitrary proof of the right lengths: always a comparison of two values. *)
From mathcomp Require Import all_ssreflect all_algebra.
From mathcomp Require Import zify.
From Coq Require Import String.
From Verif Require Import Base ModelPoly ModelVO ModelOracle ModelPC ModelPermutation
  ModelLookup ModelIndexer ModelMultiproof ModelProtocol Spec SpecProtocol SpecPIOP SpecMultiopen SpecCircuit SpecSound SpecShape
  ProofBase ProofPoly ProofDomain ProofEach ProofOracle ProofLookup ProofPermutation ProofPermArg ProofIndexer ProofOpen ProofPIOP ProofPIOP2 ProofPIOP3 ProofColumns
  ProofVerifierCols ProofProver ProofFront ProofCounts ProofRounds ProofMultiopen ProofMultiopen2 ProofMultiopen3 ProofHonest ProofComplete ProofSound ProofShape ProofTotal.

Set Implicit Arguments.
Unset Strict Implicit.
Unset Printing Implicit Defensive.

Import GRing.Theory.
Local Open Scope ring_scope.

Section Stand.
Variables (F : fieldType) (env : fenv F).
Hypothesis eok : fenv_ok env.
Variables (PC : pcs F) (S : vinput PC) (es : seq (expr F oquery)) (cm : commitments PC) (Q : seq (pc_com PC))
  (theta xi : F) (pf : tp_proof PC) (VT : vtrace PC).
Let d := s_d S.
Let n := dsize d.
Let w := dgen d.
Let pre := s_pre S.
Let u := pa_usable_rows (s_perm S).
Hypothesis sd : std_domain env d.
Hypothesis rdy : verifiable S es.
Hypothesis cnt : well_counted S cm.
Hypothesis car : carries pf cm Q.
Hypothesis fr : verify_front env (s_vk S) pre pf (s_ws S) (s_ins S) n theta xi = Ok VT.
Let dok : domain_ok d := std_domain_ok eok sd.
Let ff := facts eok sd rdy cnt car fr.
Notation stand := (stand S).

Definition stand_lo (lo : lookup_oracles (voracle F (pc_com PC))) : lookup_oracles (poracle F) :=
  LookupOracles (stand (lo_a lo)) (stand (lo_s lo)) (stand (lo_a' lo)) (stand (lo_s' lo)).
Definition stands : assignment F :=
  Assignment (map stand (vt_ws VT)) (bound_ins S) (map stand (vt_fixed VT)) (stand (vt_qb VT)) (map stand (vt_perm VT))
    (map stand (vt_zs VT)) (map stand_lo (vt_los VT)) (map stand (vt_lzs VT)).

Lemma seen v r : occurs v (vt_oracles VT) -> r \in o_rots v -> answers (rot_point w r xi) v (stand v).
Proof. by move=> Hv Hr; have [H _] := vt_claimed eok sd rdy cnt car fr Hv; have [e He] := H r Hr; exact: stand_at He. Qed.
Lemma seen_curr v : occurs v (vt_oracles VT) -> curr \in o_rots v -> answers xi v (stand v).
Proof. by move=> Hv Hr; have := seen Hv Hr; rewrite rot_point_curr. Qed.
Lemma all_seen x (vs : seq (voracle F (pc_com PC))) : (forall j v, idx vs j = Ok v -> answers x v (stand v)) -> all_answer x vs (map stand vs).
Proof.
move=> H; apply: each2_answer; apply: each2_intro => [|j v p Hv Hp]; first by rewrite size_map.
by have [v' Hv' ->] := idx_map_inv Hp; move: Hv'; rewrite Hv => -[<-]; exact: H Hv.
Qed.
Lemma stand_ws_mirrors : mirrors (s_ws S) (map stand (vt_ws VT)).
Proof. rewrite /mirrors -(updated_mirrors (ff_ws ff)); exact: register_mirrors. Qed.
Lemma los_answered j o : idx (vt_los VT) j = Ok o -> answers xi (lo_a o) (stand (lo_a o)) /\ answers xi (lo_s o) (stand (lo_s o)).
Proof.
move=> Ho; have [[l cs] Hlc] := idx_size2 (esym (each2_size (ff_los ff))) Ho.
have [k [e He]] := each2_idx (ff_los ff) Hlc Ho; cbn [fst snd] in He.
have Hl : occurs l (s_lookups S) by have [H _] := idx_zip Hlc; exact: occurs_idx H.
have [xs [tqs [Ex Et sz [xok xdec] [tok tdec rot]]]] := rd_lookups rdy Hl.
have [lw li lf lt] := rd_labels rdy.
have mw := stand_ws_mirrors; have mf := updated_mirrors (ff_fixed ff); have mt := updated_mirrors (ff_table ff).
have Ti : same_instances (s_ins S) (bound_ins S) by rewrite /same_instances /bound_ins -map_comp.
have [t1 t2] : table_queries_ok (map stand (vt_table VT)) tqs /\ tables_declared (map stand (vt_table VT)) tqs.
  split=> q Hq; first by have := tok _ Hq; rewrite (mirrors_labels mt).
  by have := tdec _ Hq; rewrite (declares_mirror _ mt).
have [||||||a [s [Eas Ha Hs]]] := @verifier_columns_eq F (pc_com PC) d xi dok (map stand (vt_ws VT)) (bound_ins S) (map stand (vt_fixed VT))
    (vt_ws VT) (vt_fixed VT) (s_ins S) (updated_truthful (ff_ws ff)) (updated_truthful (ff_fixed ff)) Ti _ _ _
    (map stand (vt_table VT)) (vt_table VT) (updated_truthful (ff_table ff)) _ k xs tqs theta sz
    _ _ rot t1 t2.
- by rewrite -(mirrors_labels mw).
- by rewrite -ins_labels.
- by rewrite -(mirrors_labels mf).
- by rewrite -(mirrors_labels mt).
- exact: exprs_ok_stand mw mf xok.
- exact: exprs_declared_mirror mw mf xdec.
move: He; rewrite /lookup_oracles_v Ex Et => He.
have {He} [xs' Ex' He] := rbind_ok He; rewrite -(Ok_inj Ex') in He.
have {He} [tqs' Et' He] := rbind_ok He; rewrite -(Ok_inj Et') in He.
have {He} [as' Eas' He] := rbind_ok He; cbn [vp_fixed vp_table] in Eas'; rewrite Eas in Eas'; rewrite -(Ok_inj Eas') in He.
have {He} [e0 _ He] := rbind_ok He; have {He} [e1 _ He] := rbind_ok He; have {He} [c0 Hc0 He] := rbind_ok He.
have {He} [e2 _ He] := rbind_ok He; have {He} [c1 Hc1 He] := rbind_ok He.
by rewrite -(Ok_inj He); split; [exact: stand_at Ha|exact: stand_at Hs].
Qed.

Lemma copied_stands (vs : seq (voracle F (pc_com PC))) : copied (map stand vs) = map stand [seq v <- vs | vd_permute (o_data v)].
Proof. by rewrite /copied filter_map. Qed.
Lemma sees_stands : sees w xi u (front_view (s_ins S) VT) stands (map stand (vt_chunks VT)).
Proof.
have nE : w * xi = rot_point w next xi by rewrite /rot_point /= expr1 mulrC.
have [sw sl slz sz] := cnt.
have szz : size (vt_zs VT) = size (cm_z cm) by rewrite -(each2_size (ff_zs ff)) size_map size_enumerate.
have zr j v : idx (vt_zs VT) j = Ok v -> occurs v (vt_oracles VT) /\
   o_rots v = (if j != (size (cm_z cm)).-1 then sinsert rot_lt (u, Plus) [:: curr; next] else [:: curr; next]).
  move=> Hv; split; first exact: occ_zs (occurs_idx Hv).
  by have [c Hc] := idx_size2 szz Hv; have [] := z_shape eok sd rdy cnt car fr Hv Hc.
have lzr j v : idx (vt_lzs VT) j = Ok v -> occurs v (vt_oracles VT) /\ o_rots v = [:: curr; next].
  move=> Hv; split; first exact: occ_lzs (occurs_idx Hv).
  by have [c Hc] := idx_size2 (esym (each2_size (ff_lzs ff))) Hv; have [] := lz_shape eok sd rdy cnt car fr Hv Hc.
split; cbn [front_view v_ws v_ins v_fs v_qb v_sigmas v_zs v_los v_lzs v_chunks stands as_ws as_ins as_fs as_qb as_sigmas as_zs as_lzs as_los].
- exact: updated_truthful (ff_ws ff).
- by rewrite /same_instances /bound_ins -map_comp.
- exact: updated_truthful (ff_fixed ff).
- apply: seen_curr; first exact: occ_qb.
  have [e ->] := ff_qb ff; by rewrite -[o_rots _]/(o_rots (vp_q_blind pre)) (rd_flat rdy) ?inE //; apply/occurs_cat; right; left.
- rewrite copied_stands; apply: all_seen => j v Hv.
  have {Hv} [pv Ho] := occurs_kept (occurs_idx Hv); apply: seen_curr; first exact: occ_ws.
  have [i Hi] := occurs_ex_idx Ho; have [v1 Hv1] := idx_size2 (esym (each2_size (ff_ws ff))) Hi.
  have [[_ er _ _ ep] _] := each2_idx (ff_ws ff) Hv1 Hi; have [v0 [Hv0 _ Er Epm]] := register_shape Hv1.
  by rewrite er Er; apply: (rd_copied rdy (occurs_idx Hv0)); rewrite -Epm -ep.
- apply: all_seen => j v Hv; apply: seen_curr; first exact: occ_perm (occurs_idx Hv).
  have [v0 Hv0] := idx_size2 (esym (each2_size (ff_perm ff))) Hv; have [e ->] := each2_idx (ff_perm ff) Hv0 Hv.
  by rewrite -[o_rots _]/(o_rots v0) (rd_flat rdy) ?inE //; apply/occurs_cat; left; exact: occurs_idx Hv0.
- apply: all_seen => j v /zr [Ho er]; apply: seen_curr Ho _.
  by rewrite er; case: ifP => _; rewrite ?mem_sinsert !inE eqxx ?orbT.
- rewrite nE; apply: all_seen => j v /zr [Ho er]; apply: seen Ho _.
  by rewrite er; case: ifP => _; rewrite ?mem_sinsert !inE eqxx ?orbT.
- move=> k v p Hk Hv Hp; have [v' Hv' ->] := idx_map_inv Hp; move: Hv'; rewrite Hv => -[<-].
  have -> : w ^+ u * xi = rot_point w (u, Plus) xi by rewrite /rot_point /= mulrC.
  have [Ho er] := zr _ _ Hv; apply: seen Ho _.
  move: Hk; rewrite size_map szz => Hk; rewrite er (_ : k != _); first by rewrite mem_sinsert eqxx.
  by apply/eqP => E; move: Hk; rewrite E; case: (size _) => //= m; rewrite ltnn.
- split; first by rewrite size_map.
  move=> j o p Ho Hp; have [o' Ho' ->] := idx_map_inv Hp; move: Ho'; rewrite Ho => -[<-]; cbn [stand_lo lo_a lo_s lo_a' lo_s'].
  have [Ha Hs] := los_answered Ho.
  have [lc Hlc] := idx_size2 (esym (each2_size (ff_los ff))) Ho.
  have [c0 [c1 [e0 [e1 [e2 [_ _ [r1 r2] _ _]]]]]] := lo_shape eok sd rdy cnt car fr Hlc Ho.
  have [Oa Os] : occurs (lo_a' o) (vt_oracles VT) /\ occurs (lo_s' o) (vt_oracles VT).
    have := occurs_idx Ho; move=> {}Ho; split; apply: occ_primes; elim: (vt_los VT) Ho => //= x los IH [->|/IH H]; by [left|right;left|right;right].
  split=> //; first by apply: seen_curr; rewrite ?r2 ?inE.
  split; first by apply: seen_curr; rewrite ?r1 ?inE.
  have -> : w^-1 * xi = rot_point w prev xi by rewrite /rot_point /= expr1 mulrC.
  by apply: seen; rewrite ?r1 ?inE.
- by apply: all_seen => j v /lzr [Ho er]; apply: seen_curr Ho _; rewrite er !inE.
- by rewrite nE; apply: all_seen => j v /lzr [Ho er]; apply: seen Ho _; rewrite er !inE.
- apply: all_seen => j v Hv; apply: seen_curr; first exact: occ_chunks (occurs_idx Hv).
  by have [c Hc] := idx_size2 (esym (each2_size (ff_chunks ff))) Hv; have [-> _] := chunk_shape eok sd rdy cnt car fr Hv Hc; rewrite inE.
Qed.
Let pa := s_perm S.
Let nl := size (s_lookups S).
Lemma size_copied_stands : size (copied (as_ws stands)) = size [seq v <- s_ws S | vd_permute (o_data v)].
Proof.
rewrite copied_stands size_map !size_filter -!sumn_count; congr sumn; apply: map_eq_idx => [|j a b Ha Hb].
  by rewrite -(each2_size (ff_ws ff)); have := congr1 size (register_mirrors (s_ws S) (cm_w cm)); rewrite !size_map.
have [v Hv] := idx_size2 (esym (each2_size (ff_ws ff))) Ha; have [[_ _ _ _ ep] _] := each2_idx (ff_ws ff) Hv Ha.
by have [v0 [Hv0 _ _ Ep]] := register_shape Hv; move: Hv0; rewrite Hb ep Ep => -[->].
Qed.
Lemma shape_stands : shape_ok d pa stands nl.
Proof.
have [n1 un] := rd_rows rdy; have [sw sl slz sz] := cnt.
have szz : size (vt_zs VT) = size (cm_z cm) by rewrite -(each2_size (ff_zs ff)) size_map size_enumerate.
split=> //; rewrite ?size_copied_stands; cbn [stands as_los as_lzs as_zs as_sigmas].
- by rewrite size_map (size_vlos eok sd rdy cnt car fr).
- by rewrite size_map -(each2_size (ff_lzs ff)).
case: ifP => [/eqP K0|/eqP K0].
  by move: sz; rewrite K0 eqxx -szz => /size0nil ->.
have [m0 sp sdl] := rd_perm rdy K0; rewrite !size_map -(each2_size (ff_perm ff)); split=> //.
by rewrite szz sz (introF eqP K0) !size_chunks // size_iota size_copied_stands.
Qed.

(** The check compares two values. *)
Lemma check_stands beta gamma alpha z_h :
  vt_check (s_vk S) (s_ins S) (s_vos S) n z_h beta gamma alpha xi VT =
  if (numerator d pa es beta gamma stands alpha).[xi] - (recombined n (map (@opoly F) (map stand (vt_chunks VT)))).[xi] * (Poly z_h).[xi] != 0
  then Err QuotientNotZero else Ok tt.
Proof.
have [k0 ev eqok dec] := rd_gates rdy; have [lw li lf lt] := rd_labels rdy.
have mw := stand_ws_mirrors; have mf := updated_mirrors (ff_fixed ff).
rewrite /vt_check (ff_d ff).
apply (@quotient_checkE F env eok d sd PC (s_vk S) (s_vos S) es stands ev shape_stands (exprs_ok_stand mw mf eqok) k0 (vt_pre VT) xi
  (front_view (s_ins S) VT) (map stand (vt_chunks VT))) => //.
- by rewrite -(mirrors_labels mw).
- by rewrite -ins_labels.
- by rewrite -(mirrors_labels mf).
- exact: exprs_declared_mirror mw mf dec.
- exact: sees_stands.
Qed.
End Stand.

(** ** The multi-opening *)
Section Opening.
Variables (F : fieldType) (env : fenv F) (PC : pcs F) (FS : fsrng F).
Hypothesis eok : fenv_ok env.
Variables (pvk : pc_vk PC) (ds : nat) (d : domain F) (xi : F).
Hypothesis Ed : domain_new env ds = Some d.
Hypothesis chk : forall c x v pi p, pc_check pvk c x v pi <> Panic p.
Lemma mo_zip_total pows x3 (sets : seq (seq rotation * seq (voracle F (pc_com PC)))) qe :
  (forall k os, occurs (k, os) sets -> (0 < size os)%N /\ forall v, occurs v os -> well_claimed d xi v /\ o_rots v = k) ->
  (forall k os r, occurs (k, os) sets -> r \in k -> x3 != rot_point (dgen d) r xi) ->
  exists items, mo_zip pows (elements d) xi x3 sets qe = Ok items.
Proof.
elim: sets qe => [|[k os] sets IH] qe Hs Hx; first by exists [::].
have [s0 Hos] := Hs k os (or_introl erefl).
have [v Hv] := occurs_mem_nonempty s0; have [[_ Hk Hu _] Ek] := Hos _ Hv; rewrite Ek in Hk Hu.
have [[q evs] Eit] := item_ok eok Ed pows Hk Hu Hos.
case: qe => [|e qe]; first by exists [::]; cbn [mo_zip]; rewrite Eit.
have [||items E] := IH qe; first by move=> k' os' H; apply: Hs; right.
  by move=> k' os' r H; apply: (Hx k' os'); right.
cbn [mo_zip]; rewrite Eit rbind_Ok.
have [U Epts] : uniq (map fst evs) /\ map fst evs = points d xi k.
  have [q' _] := rbind_ok Eit => H.
  have [evs' Hb] := rbind_ok H => -[_ <-].
  have D (r0 : rotation) (v0 : seq (F * F)) : (fun=> Panic PExplicit : res (seq (F * F))) r0 <> Ok v0 by [].
  have [pvs [Ep Hr [U _] _]] := batched_inv D Hb.
  by rewrite Ep cat0s; split=> //; exact: (rmapM_points eok Ed Hr).
have -> : mo_f_eval x3 evs e = Ok ((e - (interp evs).[x3]) / (zpoly (map fst evs)).[x3]).
  rewrite f_eval_ok // Epts; case: ifP => // /mapP [r Hr E3].
  by have := Hx k os r (or_introl erefl) Hr; rewrite E3 eqxx.
by rewrite rbind_Ok E; eexists.
Qed.
Lemma mo_total (vs : seq (voracle F (pc_com PC))) (fs : fs_state FS) mo :
  (forall v, occurs v vs -> well_claimed d xi v) ->
  (forall v r, occurs v vs -> r \in o_rots v -> x3_of fs mo != rot_point (dgen d) r xi) ->
  forall p, mo_verify env pvk mo vs xi ds fs <> Panic p.
Proof.
move=> H; rewrite /x3_of /mo_verify Ed rbind_Ok /=.
case: (fs_rand fs) => [x1 fs1]; case: (fs_rand fs1) => [x2 fs2] /=; case: (fs_rand _) => [x3 fs3] /= Hx p; case: (fs_rand _) => [x4 fs4].
have [||items ->] := @mo_zip_total (powers (size vs) 1 x1) x3 (opening_sets [eta o_rots (P:=vdata F (pc_com PC))] vs) (mp_q_evals mo).
- move=> k os HS; split; first exact: opening_sets_nonempty HS.
  by move=> v Hv; have [<- Hv'] := opening_sets_mem HS Hv; split=> //; apply: H.
- move=> k os r HS Hr; have [v Hv] := occurs_mem_nonempty (opening_sets_nonempty HS).
  by have [Ek Hv'] := opening_sets_mem HS Hv; apply: (Hx v r Hv'); rewrite Ek.
rewrite rbind_Ok; case E: (pc_check _ _ _ _ _) => [b|e|q] //; first by rewrite rbind_Ok; case: b {E}.
by case: (chk E).
Qed.
End Opening.
