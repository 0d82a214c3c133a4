(** The verdict does not depend on the evaluations and commitments left by earlier calls. *)
From mathcomp Require Import all_ssreflect all_algebra.
From mathcomp Require Import zify.
From Coq Require Import String.
From Verif Require Import Base ModelPoly ModelVO ModelOracle ModelPC ModelPermutation
  ModelLookup ModelIndexer ModelMultiproof ModelProtocol Spec SpecProtocol SpecPIOP SpecMultiopen SpecCircuit SpecSound SpecShape
  ProofBase ProofPoly ProofDomain ProofEach ProofOracle ProofLookup ProofPermutation ProofPermArg ProofIndexer ProofOpen ProofPIOP ProofPIOP2 ProofPIOP3 ProofColumns
  ProofVerifierCols ProofProver ProofFront ProofCounts ProofRounds ProofMultiopen ProofMultiopen2 ProofMultiopen3 ProofHonest ProofComplete ProofSound ProofShape ProofTotal ProofTotal2 ProofTotal3.

Set Implicit Arguments.
Unset Strict Implicit.
Unset Printing Implicit Defensive.

Import GRing.Theory.
Local Open Scope ring_scope.

(** Two computations with related results and the same errors and panics. *)
Definition rsim {A B} (R : A -> B -> Prop) (r : res A) (r' : res B) : Prop :=
  match r, r' with Ok a, Ok b => R a b | Err e, Err e' => e = e' | Panic p, Panic p' => p = p' | _, _ => False end.
Lemma rsim_bind A B A' B' (R : A -> A' -> Prop) (Q : B -> B' -> Prop) r r' (f : A -> res B) (f' : A' -> res B') :
  rsim R r r' -> (forall a a', r = Ok a -> R a a' -> rsim Q (f a) (f' a')) -> rsim Q (rbind r f) (rbind r' f').
Proof. by case: r => [a|e|p]; case: r' => [a'|e'|p'] //= Hr H; exact: H. Qed.
Lemma rsim_refl A (r : res A) : rsim eq r r. Proof. by case: r. Qed.
Lemma rsim_same A B B' (Q : B -> B' -> Prop) (r : res A) (f : A -> res B) (f' : A -> res B') :
  (forall a, r = Ok a -> rsim Q (f a) (f' a)) -> rsim Q (rbind r f) (rbind r f').
Proof. by move=> H; apply: rsim_bind (rsim_refl r) _ => a _ E <-; exact: H. Qed.
Lemma rsim_eq A (r r' : res A) : rsim eq r r' -> r = r'.
Proof. by case: r => [a|e|p]; case: r' => [a'|e'|p'] //= ->. Qed.

Lemma each2_refl A (P : A -> A -> Prop) s : (forall x, P x x) -> each2 P s s.
Proof. by move=> H; elim: s => //=. Qed.
Lemma each2_trans A (P : A -> A -> Prop) a b c : (forall x y z, P x y -> P y z -> P x z) -> each2 P a b -> each2 P b c -> each2 P a c.
Proof. by move=> H; elim: a b c => [|x a IH] [|y b] [|z c] //= [h1 h2] [g1 g2]; split; [exact: H h1 g1|exact: IH h2 g2]. Qed.
Lemma each2_sym A (P : A -> A -> Prop) a b : (forall x y, P x y -> P y x) -> each2 P a b -> each2 P b a.
Proof. by move=> H; elim: a b => [|x a IH] [|y b] //= [h1 h2]; split; [exact: H|exact: IH]. Qed.

Section Twin.
Variables (F : fieldType) (C : Type) (d : domain F) (xi : F).
Let w := dgen d.
(** The same up to evaluations and the commitment. *)
Definition same_shape (v v' : voracle F C) : Prop :=
  [/\ o_label v' = o_label v, o_rots v' = o_rots v, vd_kind (o_data v') = vd_kind (o_data v) &
      vd_permute (o_data v') = vd_permute (o_data v)].
Definition com_of (v : voracle F C) := vd_com (o_data v).
Lemma sbe_shape (v v' : voracle F C) : same_but_evals v v' -> same_shape v v'.
Proof. by case=> h1 h2 h3 h4 h5; split. Qed.
Lemma shape_refl (v : voracle F C) : same_shape v v. Proof. by []. Qed.
Lemma shape_sym (v v' : voracle F C) : same_shape v v' -> same_shape v' v.
Proof. by case=> h1 h2 h3 h4; split. Qed.
Lemma shape_trans (v1 v2 v3 : voracle F C) : same_shape v1 v2 -> same_shape v2 v3 -> same_shape v1 v3.
Proof. by case=> h1 h2 h3 h4 [] g1 g2 g3 g4; split; congruence. Qed.
Definition twin (v v' : voracle F C) : Prop :=
  same_shape v v' /\ forall r, r \in o_rots v -> vo_query v (rot_point w r xi) = vo_query v' (rot_point w r xi).
Lemma twin_refl v : twin v v. Proof. by split. Qed.
Lemma shape_mirrors (vs vs' : seq (voracle F C)) : each2 same_shape vs vs' -> mirrors vs vs'.
Proof. by rewrite /mirrors; elim: vs vs' => [|v vs IH] [|v' vs'] //= [[-> -> _ _] /IH ->]. Qed.
Lemma twin_truthful (vs vs' : seq (voracle F C)) ps : truthful w xi vs ps -> each2 twin vs vs' -> truthful w xi vs' ps.
Proof.
move=> [m H] tw; have m' : mirrors vs vs' by apply: shape_mirrors; apply: each2_imp tw => x y [].
split; first by rewrite /mirrors -m' m.
move=> j v' p r Hv' Hp Hr; have [v Hv] := idx_size2 (esym (each2_size tw)) Hv'.
have [[_ er _ _] q] := each2_idx tw Hv Hv'; have := H j v p r Hv Hp Hr; rewrite /answers q //.
by have := congr1 (fun s => idx s j) m; rewrite !idx_map Hv Hp => -[_ ->].
Qed.
Lemma twin_answer (vs vs' : seq (voracle F C)) ps : all_answer xi vs ps -> each2 twin vs vs' -> (forall v, occurs v vs -> curr \in o_rots v) ->
  all_answer xi vs' ps.
Proof.
move=> [s H] tw cr; split; first by rewrite -s (each2_size tw).
move=> j v' p Hv' Hp; have [v Hv] := idx_size2 (esym (each2_size tw)) Hv'; have [_ q] := each2_idx tw Hv Hv'.
by have := H j v p Hv Hp; have := q _ (cr _ (occurs_idx Hv)); rewrite /answers /rot_point /= expr0 mulr1 => ->.
Qed.
Hypothesis dok : domain_ok d.
Lemma sim_register (vs vs' : seq (voracle F C)) missing evs B B' (R : B -> B' -> Prop) (f : seq (voracle F C) -> res B) (f' : seq (voracle F C) -> res B') :
  rots_below vs (dsize d) -> uniq (map (@o_label _) vs) -> each2 same_shape vs vs' ->
  (forall a a', each2 (updated d xi) vs a -> each2 twin a a' -> map com_of a' = map com_of vs' -> rsim R (f a) (f' a')) ->
  rsim R (qs <- get_query_set vs xi_label xi (elements d) ;; _ <- rassert (size qs == size evs) ;;
          a <- register_evals vs missing (zip qs evs) ;; f a)
         (qs <- get_query_set vs' xi_label xi (elements d) ;; _ <- rassert (size qs == size evs) ;;
          a <- register_evals vs' missing (zip qs evs) ;; f' a).
Proof.
move=> rb ul sb H; have m := shape_mirrors sb; rewrite -(get_query_set_shape _ _ _ m); have [qs Eq Hin] := get_query_set_ok xi_label xi dok rb; rewrite Eq !rbind_Ok.
rewrite /rassert; case: eqP => [se|_] //; rewrite !rbind_Ok.
have Hl e : e \in zip qs evs -> e.1.1 \in map (@o_label _) vs.
  by move=> /(map_f fst); rewrite -/(unzip1 _) unzip1_zip ?se // Hin; exact: query_entries_label.
have [a [Ea sa Ha]] := register_evals_spec missing ul Hl.
have ml : map (@o_label _) vs' = map (@o_label _) vs by rewrite -(mirrors_labels m).
have [||a' [Ea' sa' Ha']] := @register_evals_spec _ _ vs' missing (zip qs evs); rewrite ?ml //.
have up := register_declared dok ul rb Eq se Ea.
rewrite Ea Ea' !rbind_Ok; apply: H => //; last first.
  apply: map_eq_idx => // j v1 v Hv1 Hv; have [v2 [E2 [_ _ _ E _] _]] := Ha' j v Hv; move: E2; rewrite Hv1 => -[->]; exact: E.
apply: each2_intro => [|j v1 v1' H1 H1'].
  by rewrite sa sa' (each2_size sb).
have [v Hv] := idx_size2 sa H1; have [v' Hv'] := idx_size2 sa' H1'.
have [[el er ek ec ep] _] := each2_idx up Hv H1; have [el' er' ek' ep'] := each2_idx sb Hv Hv'.
have [v2 [E2 _ q2]] := Ha j v Hv; move: E2; rewrite H1 => -[?]; subst v2.
have [v2 [E2 [el2 er2 ek2 ec2 ep2] q2']] := Ha' j v' Hv'; move: E2; rewrite H1' => -[?]; subst v2.
split; first by split; rewrite ?el ?er ?ek ?ep ?el2 ?er2 ?ek2 ?ep2.
move=> r; rewrite er => Hr; rewrite q2 q2' el'.
suff [e ->] : exists e, assoc_last (entries_for (o_label v) (zip qs evs)) (rot_point w r xi) = Some e by [].
apply: assoc_last_mem; rewrite /entries_for -map_comp.
have Hmem : (o_label v, pinfo (dgen d) r xi_label xi) \in qs by rewrite Hin (in_query_entries _ _ _ Hv Hr).
have {Hmem} : (o_label v, pinfo (dgen d) r xi_label xi) \in map fst (zip qs evs) by rewrite -/unzip1 unzip1_zip ?se.
case/mapP => -[q e] Hqe Eq1; apply/mapP; exists (q, e); first by rewrite mem_filter Hqe andbT -Eq1.
by rewrite /= -[q]/((q, e).1) -Eq1.
Qed.
End Twin.

Lemma columns_form (F : fieldType) (C : Type) (ws fs ts : seq (voracle F C)) (ins : seq (ioracle F)) k xs tqs theta xi om a s va vs :
  construct_a_and_s_verifier ws ins fs ts k xs tqs theta xi om = Ok (a, s) -> vo_query a xi = Ok va -> vo_query s xi = Ok vs ->
  a = Oracle (append "lookup_" (append "a_" (append (show_nat k) "_poly"))) [:: curr] (@VData F C Witness [:: (xi, va)] None false) /\
  s = Oracle (append "lookup_" (append "s_" (append (show_nat k) "_poly"))) [:: curr] (@VData F C Witness [:: (xi, vs)] None false).
Proof.
rewrite /construct_a_and_s_verifier => H; have {H} [_ _ H] := rbind_ok H; have {H} [a0 _ H] := rbind_ok H; have {H} [s0 _ H] := rbind_ok H.
by case: H => <- <-; rewrite /vo_query /= eqxx => -[->] [->].
Qed.
Lemma rmapM_same A B (f g : A -> res B) s : (forall x, occurs x s -> f x = g x) -> rmapM f s = rmapM g s.
Proof. by elim: s => //= x s IH H; rewrite H; [rewrite IH // => y Hy; apply: H; right|left]. Qed.

Section Front.
Variables (F : fieldType) (env : fenv F).
Hypothesis eok : fenv_ok env.
Variables (PC : pcs F) (S S' : vinput PC) (es : seq (expr F oquery)) (theta xi : F) (pf : tp_proof PC).
Let d := s_d S.
Let n := dsize d.
Let w := dgen d.
Let pre := s_pre S.
Let pre' := s_pre S'.
Let u := pa_usable_rows (s_perm S).
Hypothesis sd : std_domain env d.
Hypothesis rdy : verifiable S es.
Let dok : domain_ok d := std_domain_ok eok sd.
Notation vorc := (voracle F (pc_com PC)).
Notation updated := (@updated F (pc_com PC) d xi).
Notation twin := (@twin F (pc_com PC) d xi).
Notation stand := (stand S).

Notation same_shape := (@same_shape F (pc_com PC)).
Record alike : Prop := Alike {
  al_vk : s_vk S' = s_vk S; al_ins : s_ins S' = s_ins S; al_vos : s_vos S' = s_vos S; al_d : s_d S' = s_d S; al_zh : s_zh S' = s_zh S;
  al_ws : each2 same_shape (s_ws S) (s_ws S');
  al_fixed : each2 same_but_evals (vp_fixed pre) (vp_fixed pre');
  al_table : each2 same_but_evals (vp_table pre) (vp_table pre');
  al_perm : each2 same_but_evals (vp_perm pre) (vp_perm pre');
  al_qb : same_but_evals (vp_q_blind pre) (vp_q_blind pre') }.
Hypothesis al : alike.

(** [pf] with the witness commitments [cs]. *)
Definition with_witness (cs : seq (pc_com PC)) : tp_proof PC :=
  TPProof cs (tp_witness_evals pf) (tp_fixed_evals pf) (tp_table_evals pf) (tp_perm_evals pf)
    (tp_q_blind_eval pf) (tp_lookup_commitments pf) (tp_lookup_z_commitments pf) (tp_lookup_evals pf) (tp_lookup_z_evals pf)
    (tp_z_commitments pf) (tp_z_evals pf) (tp_quotient_commitments pf) (tp_quotient_evals pf) (tp_multiopen pf).
Variable wc : seq (pc_com PC).
Lemma register_shapes (vs : seq vorc) cs : each2 same_shape vs (register_commitments vs cs).
Proof. by elim: vs cs => [|v vs IH] [|c cs] //=; split=> //; apply: each2_refl. Qed.
Lemma register_alike (vs vs' : seq vorc) cs cs' : each2 same_shape vs vs' ->
  each2 same_shape (register_commitments vs cs) (register_commitments vs' cs').
Proof.
move=> H; apply: each2_trans (each2_sym (@shape_sym _ _) (register_shapes vs cs)) _; first exact: shape_trans.
by apply: each2_trans H (register_shapes vs' cs'); exact: shape_trans.
Qed.

Record vt_twin (T T' : vtrace PC) : Prop := VtTwin {
  tw_d : vt_d T' = vt_d T;
  tw_ws : each2 twin (vt_ws T) (vt_ws T');
  tw_fixed : each2 twin (vt_fixed T) (vt_fixed T');
  tw_table : each2 twin (vt_table T) (vt_table T');
  tw_perm : each2 twin (vt_perm T) (vt_perm T');
  tw_qb : twin (vt_qb T) (vt_qb T');
  tw_los : vt_los T' = vt_los T;
  tw_lzs : vt_lzs T' = vt_lzs T;
  tw_zs : vt_zs T' = vt_zs T;
  tw_chunks : vt_chunks T' = vt_chunks T }.
Definition vt_coms (T : vtrace PC) (V : vinput PC) (cs : seq (pc_com PC)) : Prop :=
  [/\ map (@com_of _ _) (vt_ws T) = map (@com_of _ _) (register_commitments (s_ws V) cs),
      map (@com_of _ _) (vt_fixed T) = map (@com_of _ _) (vp_fixed (s_pre V)), map (@com_of _ _) (vt_table T) = map (@com_of _ _) (vp_table (s_pre V)),
      map (@com_of _ _) (vt_perm T) = map (@com_of _ _) (vp_perm (s_pre V)) & com_of (vt_qb T) = com_of (vp_q_blind (s_pre V))].

Lemma twin_lookup ws ws' fixed fixed' table table' perm perm' qb qb' k l cs evs : occurs l (s_lookups S) ->
  each2 updated (register_commitments (s_ws S) wc) ws -> each2 updated (vp_fixed pre) fixed -> each2 updated (vp_table pre) table ->
  each2 twin ws ws' -> each2 twin fixed fixed' -> each2 twin table table' ->
  lookup_oracles_v ws (s_ins S) (VerifierPre fixed table perm qb) theta xi w^-1 (elements d) (k, (l, cs, evs)) =
  lookup_oracles_v ws' (s_ins S) (VerifierPre fixed' table' perm' qb') theta xi w^-1 (elements d) (k, (l, cs, evs)).
Proof.
move=> Hl uw uf ut tw tf ttb; have [xs [tqs [Ex Et sz [xok xdec] [tok tdec rot]]]] := rd_lookups rdy Hl; have [lw li lf lt] := rd_labels rdy.
have mw : mirrors (s_ws S) (map stand ws).
  rewrite /mirrors -(updated_mirrors uw); exact: register_mirrors.
have mf := updated_mirrors uf; have mt := updated_mirrors ut.
have col (ws1 fx1 tb1 : seq vorc) : truthful w xi ws1 (map stand ws) -> truthful w xi fx1 (map stand fixed) -> truthful w xi tb1 (map stand table) ->
    exists a s, [/\ construct_a_and_s_verifier ws1 (s_ins S) fx1 tb1 k xs tqs theta xi (elements d) = Ok (a, s),
      vo_query a xi = Ok (lookup_poly (map stand ws) (bound_ins S) (map stand fixed) w xs theta).[xi] &
      vo_query s xi = Ok (table_point (map stand table) tqs theta xi)].
  move=> t1 t2 t3; apply: (@verifier_columns_eq F (pc_com PC) d xi dok (map stand ws) (bound_ins S) (map stand fixed)
    ws1 fx1 (s_ins S) t1 t2 _ _ _ _ (map stand table) tb1 t3 _ k xs tqs theta sz) => //.
  - by rewrite /same_instances /bound_ins -map_comp.
  - by rewrite -(mirrors_labels mw).
  - by rewrite -ins_labels.
  - by rewrite -(mirrors_labels mf).
  - by rewrite -(mirrors_labels mt).
  - exact: exprs_ok_stand xok.
  - exact: exprs_declared_mirror mw mf xdec.
  - by move=> q Hq; have := tok _ Hq; rewrite (mirrors_labels mt).
  - by move=> q Hq; have := tdec _ Hq; rewrite (declares_mirror _ mt).
have [a [s [E1 qa qs]]] := col ws fixed table (updated_truthful uw) (updated_truthful uf) (updated_truthful ut).
have [a' [s' [E2 qa' qs']]] := col ws' fixed' table' (twin_truthful (updated_truthful uw) tw) (twin_truthful (updated_truthful uf) tf) (twin_truthful (updated_truthful ut) ttb).
have [ea es1] := columns_form E1 qa qs; have [ea' es'] := columns_form E2 qa' qs'.
by rewrite /lookup_oracles_v Ex Et !rbind_Ok; cbn [vp_fixed vp_table]; rewrite E1 E2 ea es1 ea' es'.
Qed.

Lemma front_sim : rsim (fun T T' => vt_twin T T' /\ vt_coms T' S' (tp_witness_commitments pf)) (verify_front env (s_vk S) pre (with_witness wc) (s_ws S) (s_ins S) n theta xi)
  (verify_front env (s_vk S') pre' pf (s_ws S') (s_ins S') (dsize (s_d S')) theta xi).
Proof.
rewrite (al_vk al) (al_ins al) (al_d al).
have [lw li lf lt] := rd_labels rdy; have [rw rf rt] := rd_rots rdy; have [n1 un] := rd_rows rdy.
have mr := register_mirrors (s_ws S) wc.
rewrite /verify_front; apply: rsim_same => qc _.
rewrite (_ : domain_new env n = Some d) // !rbind_Ok.
apply: sim_register (register_alike _ _ (al_ws al)) _ => [//|||ws ws' uw tws cw].
- by move=> j o Ho r; have [o' [Ho' _ E _]] := register_shape Ho; rewrite E; exact: (rw _ _ Ho').
- by rewrite -(mirrors_labels mr).
apply: sim_register (each2_imp (@sbe_shape _ _) (al_fixed al)) _ => // fx fx' uf tfx cf; apply: sim_register (each2_imp (@sbe_shape _ _) (al_table al)) _ => // tb tb' ut ttb ct.
rewrite -(each2_size (al_perm al)); apply: rsim_same => _ /rassert_ok /eqP sp.
rewrite /finv (_ : element d 1 = w); last by rewrite /element expr1.
rewrite (negPf (dgen_neq0 dok)) !rbind_Ok.
apply: rsim_same => _ _; apply: rsim_same => _ _.
set perm := map _ (zip (vp_perm pre) _); set perm' := map _ (zip (vp_perm pre') _).
rewrite (@rmapM_same _ _ _ (lookup_oracles_v ws' (s_ins S) (VerifierPre fx' tb' perm' (vp_q_blind pre')) theta xi w^-1 (elements d))); last first.
  move=> [k [[l cs] evs]] Hk; apply: (@twin_lookup _ _ _ _ _ _ _ _ _ _ k l cs evs) => //.
  by have [_ H] := occurs_zip Hk; have [H' _] := occurs_zip H; have [] := occurs_zip H'.
apply: rsim_same => los _; apply: rsim_same => _ _; apply: rsim_same => _ _; apply: rsim_same => lzs _.
have -> : size [seq o <- ws' | vd_permute (o_data o)] = size [seq o <- ws | vd_permute (o_data o)].
  rewrite !size_filter -!sumn_count; congr sumn; apply: map_eq_idx => [|j a b Ha Hb]; first by rewrite (each2_size tws).
  by have [[_ _ _ ->] _] := each2_idx tws Hb Ha.
do 5!(apply: rsim_same => ? _).
have tw1 (v v' : vorc) e : o_rots v = [:: curr] -> same_but_evals v v' -> twin (register_eval_at_challenge xi e v) (register_eval_at_challenge xi e v').
  move=> er /sbe_shape [h1 h2 h3 h4]; split; first by split.
  by move=> r; cbn [register_eval_at_challenge o_rots]; rewrite er inE => /eqP ->; rewrite rot_point_curr !vo_query_register eqxx.
split; last first.
  split=> //; cbn [vt_perm]; rewrite /perm'; move: sp; rewrite (each2_size (al_perm al)); cbn [with_witness tp_perm_evals]; elim: (vp_perm pre') (tp_perm_evals pf) => [|v vs IH] [|e evs] //= [] se; rewrite (IH evs) //.
split=> //; cbn [vt_perm vt_qb].
- rewrite /perm /perm'; cbn [with_witness tp_perm_evals]; have fl v : occurs v (vp_perm pre) -> o_rots v = [:: curr] by move=> H; apply: (rd_flat rdy); apply/occurs_cat; left.
  elim: (vp_perm pre) (vp_perm pre') (tp_perm_evals pf) (al_perm al) fl {sp perm perm'} => [|v vs IH] [|v' vs'] [|e evs] //= [hv H] fl.
  by split; [apply: tw1 => //; apply: fl; left|apply: IH => // v0 H0; apply: fl; right].
- by apply: tw1 (al_qb al); apply: (rd_flat rdy); apply/occurs_cat; right; left.
Qed.
End Front.

(** ** The check and the opening on twins *)
Section Check.
Variables (F : fieldType) (env : fenv F).
Hypothesis eok : fenv_ok env.
Variables (PC : pcs F) (S : vinput PC) (es : seq (expr F oquery)) (cm : commitments PC) (Q : seq (pc_com PC))
  (theta xi : F) (pf : tp_proof PC) (T T' : vtrace PC).
Let d := s_d S.
Let n := dsize d.
Let w := dgen d.
Let pre := s_pre S.
Hypothesis sd : std_domain env d.
Hypothesis rdy : verifiable S es.
Hypothesis cnt : well_counted S cm.
Hypothesis car : carries pf cm Q.
Hypothesis fr : verify_front env (s_vk S) pre pf (s_ws S) (s_ins S) n theta xi = Ok T.
Hypothesis tw : vt_twin S xi T T'.
Let dok : domain_ok d := std_domain_ok eok sd.
Let ff := facts eok sd rdy cnt car fr.

Lemma sees_twin : sees w xi (pa_usable_rows (s_perm S)) (front_view (s_ins S) T') (stands S T) (map (stand S) (vt_chunks T)).
Proof.
have := sees_stands eok sd rdy cnt car fr.
case; cbn [front_view v_ws v_ins v_fs v_qb v_sigmas v_zs v_los v_lzs v_chunks] => h1 h2 h3 h4 h5 h6 h7 h8 h9 h10 h11 h12 h13.
split; cbn [front_view v_ws v_ins v_fs v_qb v_sigmas v_zs v_los v_lzs v_chunks]; rewrite ?(tw_los tw) ?(tw_lzs tw) ?(tw_zs tw) ?(tw_chunks tw) //.
- exact: twin_truthful h1 (tw_ws tw).
- exact: twin_truthful h3 (tw_fixed tw).
- have [e Ee] := ff_qb ff; have [_ q] := tw_qb tw; have := q curr; rewrite rot_point_curr Ee.
  rewrite -[o_rots _]/(o_rots (vp_q_blind pre)) (rd_flat rdy) ?inE //; last by apply/occurs_cat; right; left.
  by move=> /(_ isT) Eq; rewrite /answers -Eq -Ee.
- have := @twin_answer _ _ d xi [seq o <- vt_ws T | vd_permute (o_data o)] [seq o <- vt_ws T' | vd_permute (o_data o)] _ h5; apply.
    by apply: each2_filter; apply: each2_imp (tw_ws tw) => x y [[h1' h2' h3' h4'] q]; split=> //; split.
  move=> v Hv; have [pv Ho] := occurs_kept Hv.
  have [i Hi] := occurs_ex_idx Ho; have [v1 Hv1] := idx_size2 (esym (each2_size (ff_ws ff))) Hi.
  have [[_ er _ _ ep] _] := each2_idx (ff_ws ff) Hv1 Hi; have [v0 [Hv0 _ Er Epm]] := register_shape Hv1.
  by rewrite er Er; apply: (rd_copied rdy (occurs_idx Hv0)); rewrite -Epm -ep.
- apply: (@twin_answer _ _ d xi _ _ _ h6 (tw_perm tw)) => v Hv; have [j Hj] := occurs_ex_idx Hv.
  have [v0 Hv0] := idx_size2 (esym (each2_size (ff_perm ff))) Hj; have [e ->] := each2_idx (ff_perm ff) Hv0 Hj.
  by rewrite -[o_rots _]/(o_rots v0) (rd_flat rdy) ?inE //; apply/occurs_cat; left; exact: occurs_idx Hv0.
Qed.
Lemma check_twin beta gamma alpha z_h :
  vt_check (s_vk S) (s_ins S) (s_vos S) n z_h beta gamma alpha xi T' = vt_check (s_vk S) (s_ins S) (s_vos S) n z_h beta gamma alpha xi T.
Proof.
rewrite (check_stands eok sd rdy cnt car fr).
have [k0 ev eqok dec] := rd_gates rdy; have [lw li lf lt] := rd_labels rdy.
have mw := stand_ws_mirrors eok sd rdy cnt car fr; have mf := updated_mirrors (ff_fixed ff).
rewrite /vt_check (tw_d tw) (ff_d ff).
apply (@quotient_checkE F env eok d sd PC (s_vk S) (s_vos S) es (stands S T) ev (shape_stands eok sd rdy cnt car fr) (exprs_ok_stand mw mf eqok) k0 (vt_pre T') xi
  (front_view (s_ins S) T') (map (stand S) (vt_chunks T))) => //.
- by rewrite -(mirrors_labels mw).
- by rewrite -ins_labels.
- by rewrite -(mirrors_labels mf).
- exact: exprs_declared_mirror mw mf dec.
- exact: sees_twin.
Qed.
End Check.

Section MoTwin.
Variables (F : fieldType) (env : fenv F) (PC : pcs F) (FS : fsrng F).
Hypothesis eok : fenv_ok env.
Variables (pvk : pc_vk PC) (ds : nat) (d : domain F) (xi : F).
Hypothesis Ed : domain_new env ds = Some d.
Hypothesis dok : domain_ok d.
Notation vorc := (voracle F (pc_com PC)).
Definition twin_com (v v' : vorc) : Prop := twin d xi v v' /\ com_of v' = com_of v.
Definition twin_in (k : seq rotation) (v v' : vorc) : Prop := twin_com v v' /\ o_rots v = k.
Definition twin_set (s s' : seq rotation * seq vorc) : Prop := s.1 = s'.1 /\ each2 (twin_in s.1) s.2 s'.2.
Lemma each2_rcons A B (P : A -> B -> Prop) a b x y : each2 P a b -> P x y -> each2 P (rcons a x) (rcons b y).
Proof. by elim: a b => [|a0 a IH] [|b0 b] //= [h H] Hxy; split=> //; exact: IH. Qed.
Lemma oset_twin v v' m m' : twin_com v v' -> each2 twin_set m m' -> each2 twin_set (oset_add (o_rots v) v m) (oset_add (o_rots v') v' m').
Proof.
move=> tw; have [[[_ -> _ _] _] _] := tw; elim: m m' => [|[k os] m IH] [|[k' os'] m'] //=.
move=> [[/= <- Ho] H]; case: ifP => [/eqP E|_]; first by split=> //; split=> //=; apply: each2_rcons => //; split.
by case: ifP => _; split=> //; try exact: IH; do 2!split.
Qed.
Lemma sets_twin vs vs' : each2 twin_com vs vs' -> each2 twin_set (opening_sets (fun o => o_rots o) vs) (opening_sets (fun o => o_rots o) vs').
Proof.
have G m m' : each2 twin_set m m' -> each2 twin_com vs vs' -> each2 twin_set (foldl (fun m v => oset_add (o_rots v) v m) m vs) (foldl (fun m v => oset_add (o_rots v) v m) m' vs').
  by elim: vs vs' m m' => [|v vs IH] [|v' vs'] m m' //= Hm [h H]; apply: IH => //; exact: oset_twin.
exact: G.
Qed.
Lemma twin_commitment v v' : twin_com v v' -> get_commitment v' = get_commitment v.
Proof. by case=> -[[h1 h2 h3 h4] _]; rewrite /com_of /get_commitment h1 h3 => ->. Qed.
Lemma point_of r pt : compute_evaluation_point r xi (elements d) = Ok pt -> pt = rot_point (dgen d) r xi.
Proof.
case: (ltnP r.1 (dsize d)) => Hr; first by rewrite (compute_point_ok xi dok Hr) => -[].
by rewrite (compute_point_oob xi _ Hr) //; apply: leq_trans Hr; exact: (dsize_gt0 dok).
Qed.
Lemma item_twin pows s s' : twin_set s s' -> mo_verifier_item pows (elements d) xi s = mo_verifier_item pows (elements d) xi s' :> res (pc_com PC * seq (F * F)).
Proof.
case: s s' => [k os] [k' os'] [/= <- H]; rewrite /mo_verifier_item.
have -> : rfoldM (fun q ox => c <- get_commitment ox.1;; Ok (pc_add q (pc_scale c ox.2))) (pc_zero PC) (zip os' pows)
  = rfoldM (fun q ox => c <- get_commitment ox.1;; Ok (pc_add q (pc_scale c ox.2))) (pc_zero PC) (zip os pows).
  elim: os os' pows (pc_zero PC) H => [|v os IH] [|v' os'] [|x pows] acc //= [[h _] H]; rewrite (twin_commitment h).
  by case: (get_commitment v) => //= c; exact: IH.
have -> : forall acc, batched_evals (@vo_query F (pc_com PC)) (fun _ => Panic PExplicit) (elements d) xi pows os' k acc
  = batched_evals (@vo_query F (pc_com PC)) (fun _ => Panic PExplicit) (elements d) xi pows os k acc; last by [].
have : {subset k <= k} by [].
elim: {-2}k => [|r k1 IH] //= sub acc; case E: (compute_evaluation_point _ _ _) => [pt|e|p] //=.
have {E} Ep := point_of E.
have -> : rfoldM (fun e ox => v <- vo_query ox.1 pt;; Ok (e + ox.2 * v)) 0 (zip os' pows) = rfoldM (fun e ox => v <- vo_query ox.1 pt;; Ok (e + ox.2 * v)) 0 (zip os pows).
  have kr : r \in k by apply: sub; rewrite inE eqxx.
  elim: os os' pows (0 : F) H {IH} => [|v os IH] [|v' os'] [|x pows] e0 //= [[[[_ h] _] hk] H]; rewrite Ep -h ?hk // -Ep.
  by case: (vo_query v pt) => //= c; exact: IH.
case: (rfoldM _ _ _) => //= ev; case: ifP => // _; apply: IH => y Hy; apply: sub; by rewrite inE Hy orbT.
Qed.
Lemma zip_twin pows x3 sets sets' qe : each2 twin_set sets sets' ->
  mo_zip pows (elements d) xi x3 sets qe = mo_zip pows (elements d) xi x3 sets' qe :> res (seq (pc_com PC * F * F)).
Proof.
elim: sets sets' qe => [|s sets IH] [|s' sets'] [|e qe] //= [h H]; rewrite (item_twin _ h) //.
by case: (mo_verifier_item _ _ _ _) => //= -[q evs]; case: (mo_f_eval _ _ _) => //= fe; rewrite (IH sets').
Qed.
Lemma mo_twin (fs : fs_state FS) mo (vs vs' : seq vorc) : each2 twin_com vs vs' ->
  mo_verify env pvk mo vs' xi ds fs = mo_verify env pvk mo vs xi ds fs.
Proof. by move=> H; rewrite /mo_verify Ed !rbind_Ok -(each2_size H); do 4!case: (fs_rand _) => ? ?; rewrite -(zip_twin _ _ _ (sets_twin H)). Qed.
End MoTwin.

Section Verdict.
Variables (F : fieldType) (env : fenv F).
Hypothesis eok : fenv_ok env.
Variables (PC : pcs F) (S S1 S2 : vinput PC) (es : seq (expr F oquery)) (FS : fsrng F) (pvk : pc_vk PC).
Hypothesis sd : std_domain env (s_d S).
Hypothesis rdy : verifiable S es.
Hypothesis al1 : alike S S1.
Hypothesis al2 : alike S S2.
Let dok : domain_ok (s_d S) := std_domain_ok eok sd.
Notation com_of := (@com_of F (pc_com PC)).
Lemma oracles_twin xi (T T' : vtrace PC) : vt_twin S xi T T' -> each2 (twin (s_d S) xi) (vt_oracles T) (vt_oracles T').
Proof.
case=> h1 h2 h3 h4 h5 h6 h7 h8 h9 h10; rewrite /vt_oracles h7 h8 h9 h10.
have R (s : seq (voracle F (pc_com PC))) : each2 (twin (s_d S) xi) s s by apply: each2_refl => x; exact: twin_refl.
by repeat (apply: each2_cat => //); split.
Qed.
Lemma sbe_coms (vs vs' : seq (voracle F (pc_com PC))) : each2 same_but_evals vs vs' -> map com_of vs' = map com_of vs.
Proof. by elim: vs vs' => [|v vs IH] [|v' vs'] //= [[_ _ _ h _] /IH ->]; rewrite /com_of h. Qed.

Lemma alike_verdict pf : map com_of (register_commitments (s_ws S1) (tp_witness_commitments pf)) = map com_of (register_commitments (s_ws S2) (tp_witness_commitments pf)) ->
  verdict env FS pvk S1 pf = verdict env FS pvk S2 pf.
Proof.
move=> Ec; rewrite !verdictE; move: (derive_challenges FS pf) => ch.
pose wc := nseq (size (s_ws S)) (pc_zero PC); pose pf' := with_witness pf wc.
have s1 := front_sim eok (ch_theta ch) (ch_xi ch) pf sd rdy al1 wc; have s2 := front_sim eok (ch_theta ch) (ch_xi ch) pf sd rdy al2 wc.
have := front_goes eok (ch_theta ch) (ch_xi ch) pf' sd rdy; move: s1 s2; rewrite -/pf'.
case E: (verify_front _ _ _ _ (s_ws S) _ _ _ _) => [T|e|p]; case E1: (verify_front _ _ _ _ (s_ws S1) _ _ _ _) => [T1|e1|p1];
 case E2: (verify_front _ _ _ _ (s_ws S2) _ _ _ _) => [T2|e2|p2] //; last by move=> /= <- <-.
cbn [goes rsim] => -[tw1 [c11 c12 c13 c14 c15]] [tw2 [c21 c22 c23 c24 c25]] rl; rewrite !rbind_Ok (al_vk al1) (al_ins al1) (al_vos al1) (al_d al1) (al_zh al1) (al_vk al2) (al_ins al2) (al_vos al2) (al_d al2) (al_zh al2).
have cnt := counted_of rl (size_nseq _ _).
have car : carries pf' (Commitments (tp_witness_commitments pf') (tp_lookup_commitments pf') (tp_z_commitments pf') (tp_lookup_z_commitments pf')) (tp_quotient_commitments pf') by [].
rewrite (check_twin eok sd rdy cnt car E tw1) (check_twin eok sd rdy cnt car E tw2).
case: (vt_check _ _ _ _ _ _ _ _ _ _) => [t|e|p] //; rewrite !rbind_Ok.
have cE : map com_of (vt_oracles T2) = map com_of (vt_oracles T1).
  rewrite /vt_oracles !map_cat (tw_los tw1) (tw_lzs tw1) (tw_zs tw1) (tw_chunks tw1) (tw_los tw2) (tw_lzs tw2) (tw_zs tw2) (tw_chunks tw2).
  rewrite c11 c12 c13 c14 c21 c22 c23 c24 Ec (sbe_coms (al_fixed al1)) (sbe_coms (al_table al1)) (sbe_coms (al_perm al1)) (sbe_coms (al_fixed al2)) (sbe_coms (al_table al2)) (sbe_coms (al_perm al2)).
  cbn [map]; rewrite c15 c25; have [_ _ _ q1 _] := al_qb al1; have [_ _ _ q2 _] := al_qb al2; by rewrite /com_of q1 q2.
apply: esym; apply: (mo_twin _ sd dok); have o1 := oracles_twin tw1; have o2 := oracles_twin tw2.
apply: each2_intro => [|j v1 v2 H1 H2]; first by rewrite -(each2_size o1) (each2_size o2).
have [v H] := idx_size2 (esym (each2_size o1)) H1.
have [sh1 q1] := each2_idx o1 H H1; have [sh2 q2] := each2_idx o2 H H2; split; last first.
  by have := congr1 (fun s => idx s j) cE; rewrite !idx_map H1 H2 => -[].
split; first exact: shape_trans (shape_sym sh1) sh2.
by move=> r; case: sh1 => _ -> _ _ Hr; rewrite -q1 // -q2.
Qed.
End Verdict.

(** ** The state a call leaves behind *)
Section State.
Variables (F : fieldType) (env : fenv F) (PC : pcs F) (FS : fsrng F) (pvk : pc_vk PC).
Notation vorc := (voracle F (pc_com PC)).
Lemma sbind_state A B St (P : St -> Prop) (r : res A) (st : St) (k : A -> res B * St) :
  P st -> (forall a, r = Ok a -> P (k a).2) -> P (sbind r st k).2.
Proof. by case: r => [a|e|p] //= _; exact. Qed.
Lemma register_evals_sbe (vs vs' : seq vorc) missing qs : register_evals vs missing qs = Ok vs' -> each2 same_but_evals vs vs'.
Proof.
rewrite /register_evals; elim: qs vs => [|q qs IH] vs /=; first by move=> [<-]; apply: each2_refl; exact: sbe_refl.
case: (label_index _ _) => [i|] //= /IH H; apply: each2_trans H; first exact: sbe_trans.
elim: vs i => [|v vs IHv] [|i] //=; split=> //; by apply: each2_refl; exact: sbe_refl.
Qed.
Lemma after_alike_coms S pf : alike S (after env FS pvk S pf) /\ map (@com_of _ _) (s_ws (after env FS pvk S pf)) = map (@com_of _ _) (register_commitments (s_ws S) (tp_witness_commitments pf)).
Proof.
pose P (st : seq vorc * verifier_pre PC) := map (@com_of _ _) st.1 = map (@com_of _ _) (register_commitments (s_ws S) (tp_witness_commitments pf)) /\ [/\ each2 (@same_shape F (pc_com PC)) (s_ws S) st.1, each2 same_but_evals (vp_fixed (s_pre S)) (vp_fixed st.2),
  each2 same_but_evals (vp_table (s_pre S)) (vp_table st.2), each2 same_but_evals (vp_perm (s_pre S)) (vp_perm st.2) & same_but_evals (vp_q_blind (s_pre S)) (vp_q_blind st.2)].
suff [h0 [h1 h2 h3 h4 h5]] : P (tp_verify env FS pvk (s_vk S) (s_pre S) pf (s_ws S) (s_ins S) (s_vos S) (dsize (s_d S)) (s_zh S)).2 by [].
have R (s : seq vorc) : each2 same_but_evals s s by apply: each2_refl; exact: sbe_refl.
have W1 := register_shapes (s_ws S) (tp_witness_commitments pf).
rewrite /tp_verify; cbv zeta; cbn [vp_fixed vp_table vp_perm vp_q_blind]; set ch := derive_challenges FS pf.
have P1 : P (register_commitments (s_ws S) (tp_witness_commitments pf), s_pre S) by [].
apply: (sbind_state P1) => qc _; apply: (sbind_state P1) => d _; apply: (sbind_state P1) => wq _; apply: (sbind_state P1) => _ _; apply: (sbind_state P1) => ws /register_evals_sbe Ew.
have W2 : each2 (@same_shape F (pc_com PC)) (s_ws S) ws by apply: each2_trans W1 (each2_imp _ Ew); [exact: shape_trans|exact: sbe_shape].
have C2 := sbe_coms Ew; have P2 : P (ws, s_pre S) by [].
apply: (sbind_state P2) => fq _; apply: (sbind_state P2) => _ _; apply: (sbind_state P2) => fx /register_evals_sbe Ef.
have P3 : P (ws, VerifierPre fx (vp_table (s_pre S)) (vp_perm (s_pre S)) (vp_q_blind (s_pre S))) by split.
apply: (sbind_state P3) => tq _; apply: (sbind_state P3) => _ _; apply: (sbind_state P3) => tb /register_evals_sbe Et.
have P4 : P (ws, VerifierPre fx tb (vp_perm (s_pre S)) (vp_q_blind (s_pre S))) by split.
apply: (sbind_state P4) => _ /rassert_ok /eqP sp.
set perm := map _ _.
have Ep : each2 same_but_evals (vp_perm (s_pre S)) perm.
  rewrite /perm; elim: (vp_perm (s_pre S)) (tp_perm_evals pf) sp {perm P1 P2 P3 P4} => [|v vs IH] [|e evs] //= [/IH H]; by split.
have P5 : P (ws, VerifierPre fx tb perm (vp_q_blind (s_pre S))) by split.
do 12!(apply: (sbind_state P5); intros ? _).
have P6 : P (ws, VerifierPre fx tb perm (register_eval_at_challenge (ch_xi ch) (tp_q_blind_eval pf) (vp_q_blind (s_pre S)))) by split.
by apply: (sbind_state P6) => ? _.
Qed.
Lemma alike_refl (S : vinput PC) : alike S S.
Proof. by split=> //; apply: each2_refl => // v; exact: sbe_refl. Qed.
Lemma alike_trans (S1 S2 S3 : vinput PC) : alike S1 S2 -> alike S2 S3 -> alike S1 S3.
Proof.
case=> a1 a2 a3 a4 a5 a6 a7 a8 a9 a10 [b1 b2 b3 b4 b5 b6 b7 b8 b9 b10]; split; try congruence.
- exact: each2_trans (@shape_trans _ _) a6 b6.
- exact: each2_trans (@sbe_trans _ _) a7 b7.
- exact: each2_trans (@sbe_trans _ _) a8 b8.
- exact: each2_trans (@sbe_trans _ _) a9 b9.
- exact: sbe_trans a10 b10.
Qed.
Lemma after_all_alike S pfs : alike S (after_all env FS pvk S pfs).
Proof.
rewrite /after_all; elim: pfs S => [|pf pfs IH] S /=; first exact: alike_refl.
exact: alike_trans (proj1 (after_alike_coms S pf)) (IH _).
Qed.
Lemma register_coms (vs vs' : seq vorc) cs : map (@com_of _ _) vs = map (@com_of _ _) vs' ->
  map (@com_of _ _) (register_commitments vs cs) = map (@com_of _ _) (register_commitments vs' cs).
Proof. by elim: vs vs' cs => [|v vs IH] [|v' vs'] [|c cs] //= [h /IH H]; rewrite H. Qed.
Lemma after_all_coms S pfs : map (@com_of _ _) (s_ws (after_all env FS pvk S pfs)) =
  map (@com_of _ _) (s_ws (with_commitments S (map (@tp_witness_commitments _ _) pfs))).
Proof.
rewrite /after_all; cbn [with_commitments s_ws].
suff G S' : forall ws, map (@com_of _ _) (s_ws S') = map (@com_of _ _) ws ->
   map (@com_of _ _) (s_ws (foldl (after env FS pvk) S' pfs)) = map (@com_of _ _) (foldl (@register_commitments F PC) ws (map (@tp_witness_commitments _ _) pfs)) by exact: G.
elim: pfs S' => [|pf pfs IH] S' ws E //=; apply: IH.
by rewrite (proj2 (after_alike_coms S' pf)); exact: register_coms.
Qed.
Lemma with_commitments_alike (S : vinput PC) css : alike S (with_commitments S css).
Proof.
split=> //; try by apply: each2_refl => v; exact: sbe_refl.
cbn [with_commitments s_ws]; elim: css (s_ws S) => [|cs css IH] ws; first exact: each2_refl.
exact: each2_trans (@shape_trans _ _) (register_shapes ws cs) (IH _).
Qed.
Lemma register_over (vs : seq vorc) cs cs' : (size vs <= size cs')%N ->
  register_commitments (register_commitments vs cs) cs' = register_commitments vs cs'.
Proof. by elim: vs cs cs' => [|v vs IH] [|c cs] [|c' cs'] //= H; rewrite IH. Qed.
Lemma size_register (vs : seq vorc) cs : size (register_commitments vs cs) = size vs.
Proof. by elim: vs cs => [|v vs IH] [|c cs] //=; rewrite IH. Qed.
Lemma register_over_all (vs : seq vorc) css cs' : (size vs <= size cs')%N ->
  register_commitments (foldl (@register_commitments F PC) vs css) cs' = register_commitments vs cs'.
Proof. by elim: css vs => [|cs css IH] vs //= H; rewrite IH ?size_register // register_over. Qed.

Hypothesis eok : fenv_ok env.
Variables (S : vinput PC) (es : seq (expr F oquery)).
Hypothesis sd : std_domain env (s_d S).
Hypothesis rdy : verifiable S es.
Lemma history_leftover pfs pf : verdict env FS pvk (after_all env FS pvk S pfs) pf =
  verdict env FS pvk (with_commitments S (map (@tp_witness_commitments _ _) pfs)) pf.
Proof.
apply: (alike_verdict eok FS pvk sd rdy (after_all_alike S pfs) (with_commitments_alike S _)).
by apply: register_coms; exact: after_all_coms.
Qed.
Lemma history_full pfs pf : (size (s_ws S) <= size (tp_witness_commitments pf))%N ->
  verdict env FS pvk (after_all env FS pvk S pfs) pf = verdict env FS pvk S pf.
Proof.
move=> full; rewrite history_leftover; apply: (alike_verdict eok FS pvk sd rdy (with_commitments_alike S _) (alike_refl S)).
by cbn [with_commitments s_ws]; rewrite register_over_all.
Qed.
End State.
