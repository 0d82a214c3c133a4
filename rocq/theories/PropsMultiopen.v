(** Property theorems C39-C43: the multi-opening. The vocabulary is in Spec.v, SpecProtocol.v and
    SpecMultiopen.v; the proofs are in ProofMultiopen.v, ProofMultiopen2.v and ProofMultiopen3.v. *)
From mathcomp Require Import all_ssreflect all_algebra zify.
From Coq Require Import String Lia.
From Verif Require Import Base ModelPoly ModelVO ModelOracle ModelPC ModelMultiproof Spec SpecProtocol SpecMultiopen
  ProofBase ProofPoly ProofDomain ProofVO ProofOracle ProofLookup ProofMultiopen ProofMultiopen2 ProofMultiopen3 ProofPC.

Set Implicit Arguments.
Unset Strict Implicit.
Unset Printing Implicit Defensive.

Import GRing.Theory.
Local Open Scope ring_scope.

(** ** C39 *)
(** On distinct points the basis polynomials are the Lagrange basis: one per point, of degree below
    the number of points, 1 at its own point and 0 at the others. *)
Theorem c39_lagrange (F : fieldType) (ps : seq F) : uniq ps ->
  exists2 ls, construct_lagrange_basis ps = Ok ls &
  size ls = size ps /\ forall i, (i < size ps)%N ->
    (size (Poly (nth [::] ls i)) <= size ps)%N /\
    forall j, (j < size ps)%N -> peval (nth [::] ls i) ps`_j = (i == j)%:R.
Proof.
move=> U; have [ls Els Ep] := @lagrange_from_ok F [::] ps U; exists ls => //.
have sl : size ls = size ps by have := congr1 size Ep; rewrite !size_map.
split=> // i Hi; have E : Poly (nth [::] ls i) = lag ps ps`_i.
  have := congr1 (fun s => nth 0 s i) Ep; by rewrite (nth_map [::]) ?sl // (nth_map 0).
split=> [|j Hj].
  rewrite E; apply: leq_trans (size_lag _ _) _.
  have := count_predC (pred1 ps`_i) ps; rewrite (count_uniq_mem _ U) mem_nth //= add1n => <-.
  by rewrite ltnS; apply/eq_leq/eq_count.
by rewrite pevalE E lag_at ?mem_nth // nth_uniq.
Qed.
Print Assumptions c39_lagrange.

(** Repeated points make it panic: so it panics exactly on lists with a repetition. *)
Theorem c39_lagrange_panics (F : fieldType) (ps : seq F) : ~~ uniq ps -> construct_lagrange_basis ps = Panic PUnwrap.
Proof.
move=> U; apply: lagrange_from_panic; apply: contra U => /andP[] //.
Qed.
Print Assumptions c39_lagrange_panics.

(** The vanishing polynomial has exactly the points as roots, and degree their number. *)
Theorem c39_vanishing (F : fieldType) (ps : seq F) :
  size (construct_vanishing ps) = (size ps).+1 /\
  forall x, (peval (construct_vanishing ps) x == 0) = (x \in ps).
Proof.
split=> [|x]; last exact: vanish_eq0.
have E : ptrim (construct_vanishing ps) = construct_vanishing ps.
  rewrite /construct_vanishing; have : ptrim (ptrim [:: 1 : F]) = ptrim [:: 1] by rewrite ptrim_id.
  by elim: ps (ptrim [:: 1 : F]) => [|p ps IH] v Hv //=; apply: IH; rewrite /pmul ptrim_id.
by rewrite -E size_ptrim Poly_vanish -/(zpoly ps) size_zpoly.
Qed.
Print Assumptions c39_vanishing.

(** ** C40 *)
(** The oracles come as triples: the prover's oracle, its commitment randomness and the verifier's
    oracle standing for it. Whatever the prover returns is accepted, for every correct commitment
    scheme and transcript, unless x3 is one of the opened points. *)
Theorem c40_multiopen_completeness (F : fieldType) (env : fenv F) (PC : pcs F) (FS : fsrng F)
    (ck : pc_ck PC) (pvk : pc_vk PC) (ds : nat) (d : domain F) (xi : F)
    (ts : seq (poracle F * pc_rand PC * voracle F (pc_com PC))) (fs fs' : fs_state FS) (zk zk' : pc_zk PC) (pf : mo_proof PC) :
  fenv_ok env -> pcs_correct ck pvk -> domain_new env ds = Some d ->
  (forall p r v, occurs (p, r, v) ts -> stands_for ck (dgen d) xi v p r) ->
  mo_prove env ck [seq t.1.1 | t <- ts] [seq t.1.2 | t <- ts] xi ds fs zk = Ok (pf, fs', zk') ->
  (forall p r v rot, occurs (p, r, v) ts -> rot \in o_rots p -> rot_point (dgen d) rot xi != x3_of fs pf) ->
  mo_verify env pvk pf [seq t.2 | t <- ts] xi ds fs = Ok tt.
Proof.
move=> eok law Ed H1 H2 H3; apply: (multiopen_complete eok law Ed) H2 _ => [[[p r] v]|[[p r] v] rot]; [exact: H1|exact: H3].
Qed.
Print Assumptions c40_multiopen_completeness.

(** When x3 is one of the opened points the verifier panics instead (it inverts zero): the
    exception cannot be dropped. *)
Theorem c40_x3_collision (F : fieldType) (PC : pcs F) (x3 : F) (evs : seq (F * F)) (qe : F) :
  uniq (map fst evs) -> x3 \in map fst evs -> mo_f_eval x3 evs qe = Panic PUnwrap.
Proof. by move=> U H; rewrite f_eval_ok // H. Qed.
Print Assumptions c40_x3_collision.

(** ** C41, C42 *)
(** The property fails: whatever values are claimed, the proof with no q_evals, the commitment to
    zero and an opening of zero is accepted - by every correct commitment scheme (that can open the
    zero polynomial) and every transcript. *)
Theorem c41_multiopen_soundness_refuted (F : fieldType) (env : fenv F) (PC : pcs F) (FS : fsrng F)
    (ck : pc_ck PC) (pvk : pc_vk PC) (ds : nat) (d : domain F) (xi : F)
    (vs : seq (voracle F (pc_com PC))) (fs : fs_state FS) :
  fenv_ok env -> pcs_correct ck pvk -> (forall x, exists pi, pc_open ck [::] x (pc_empty PC) = Ok pi) ->
  domain_new env ds = Some d -> (forall v, occurs v vs -> well_claimed d xi v) ->
  exists pi, mo_verify env pvk (MoProof [::] (pc_zero PC) pi) vs xi ds fs = Ok tt.
Proof. by move=> eok law Ho Ed; apply: (empty_proof_accepted eok law Ed). Qed.
Print Assumptions c41_multiopen_soundness_refuted.

(** What holds, against public coins and a binding scheme. [x1] is given and the claims may depend
    on it: if for the oracles with the rotations of [v0] the claims batched with x1 differ from the
    batched committed polynomials at one of the points, then for all but a few x2, whatever f is
    committed, for all but a few x3, whatever q_evals are sent, one per set of rotations, for all
    but a few x4, no opening proof is accepted. *)
Theorem c42_batched_claims_bound (F : fieldType) (env : fenv F) (PC : pcs F) (pvk : pc_vk PC) (op : pc_com PC -> {poly F})
    (ds : nat) (d : domain F) (xi : F) (vs : seq (voracle F (pc_com PC))) (B : nat) (x1 : F) (v0 : voracle F (pc_com PC)) (rot : rotation) :
  fenv_ok env -> pcs_binding pvk op -> domain_new env ds = Some d ->
  (forall v c, occurs v vs -> get_commitment v = Ok c -> (size (op c) <= B)%N) ->
  occurs v0 vs -> rot \in o_rots v0 ->
  let p := rot_point (dgen d) rot xi in
  let group := [seq v <- vs | o_rots v == o_rots v0] in
  let sets := size (undup (map (@o_rots _) vs)) in
  let pts := size (undup [seq rot_point (dgen d) r xi | r <- flatten (map (@o_rots _) vs)]) in
  \sum_(j < size group) x1 ^+ j * ok_or 0 (vo_query (nth v0 group j) p) !=
  \sum_(j < size group) x1 ^+ j * (op (ok_or (pc_zero PC) (get_commitment (nth v0 group j)))).[p] ->
  at_most sets.-1 (fun x2 => exists2 f_commit, (size (op f_commit) <= B)%N &
    ~ at_most (B + pts).-1 (fun x3 => exists2 q_evals, size q_evals = sets &
    ~ at_most sets (fun x4 => exists pi,
      mo_verify (FS := scripted [::]) env pvk (MoProof q_evals f_commit pi) vs xi ds [:: x1; x2; x3; x4] = Ok tt))).
Proof.
move=> eok bind Ed small Hv Hrot p group sets pts ne.
set S := opening_sets (fun o : voracle F (pc_com PC) => o_rots o) vs.
have Es : sets = size S by rewrite /S size_opening_sets.
have [l Hl Hvl] := opening_sets_cover (fun o : voracle F (pc_com PC) => o_rots o) Hv.
have El := opening_setsE Hl; have [i0 Hi Ei] := (occurs_nth _ _).1 Hl.
rewrite Es; apply: (@batched_sound _ env PC eok pvk op bind ds d xi Ed vs B small x1 i0 p) => //.
  by rewrite Ei; apply: (map_f (fun r => rot_point (dgen d) r xi)) Hrot.
rewrite Ei /= El -/group.
have sg : (size group <= size vs)%N by rewrite size_filter count_size.
rewrite /agg_claim /agg_poly horner_sum.
rewrite (big_zip_powers (fun (o : voracle F (pc_com PC)) x => x * ok_or 0 (vo_query o p)) _ _ v0) //.
rewrite (big_zip_powers (fun (o : voracle F (pc_com PC)) x => (x *: op (com_of o)).[p]) _ _ v0) //.
move: ne; apply: contraNneq => E; apply/eqP; move: E; under eq_bigr do rewrite mul1r; move=> ->.
by apply: eq_bigr => j _; rewrite mul1r hornerZ.
Qed.
Print Assumptions c42_batched_claims_bound.

(** If the claims are fixed before x1 is drawn, a single wrong claim is caught. *)
Theorem c42_claims_bound (F : fieldType) (env : fenv F) (PC : pcs F) (pvk : pc_vk PC) (op : pc_com PC -> {poly F})
    (ds : nat) (d : domain F) (xi : F) (vs : seq (voracle F (pc_com PC))) (B : nat)
    (v : voracle F (pc_com PC)) (c : pc_com PC) (e : F) (rot : rotation) :
  fenv_ok env -> pcs_binding pvk op -> domain_new env ds = Some d ->
  (forall v c, occurs v vs -> get_commitment v = Ok c -> (size (op c) <= B)%N) ->
  occurs v vs -> rot \in o_rots v ->
  let p := rot_point (dgen d) rot xi in
  let sets := size (undup (map (@o_rots _) vs)) in
  let pts := size (undup [seq rot_point (dgen d) r xi | r <- flatten (map (@o_rots _) vs)]) in
  get_commitment v = Ok c -> vo_query v p = Ok e -> e != (op c).[p] ->
  at_most (size vs).-1 (fun x1 => ~ at_most sets.-1 (fun x2 => exists2 f_commit, (size (op f_commit) <= B)%N &
    ~ at_most (B + pts).-1 (fun x3 => exists2 q_evals, size q_evals = sets &
    ~ at_most sets (fun x4 => exists pi,
      mo_verify (FS := scripted [::]) env pvk (MoProof q_evals f_commit pi) vs xi ds [:: x1; x2; x3; x4] = Ok tt)))).
Proof.
move=> eok bind Ed small Hv Hrot p sets pts Ec Ee ne.
have -> : sets = size (opening_sets (fun o : voracle F (pc_com PC) => o_rots o) vs) by rewrite size_opening_sets.
exact: (multiopen_sound eok bind Ed small Hv Hrot Ec Ee ne).
Qed.
Print Assumptions c42_claims_bound.

(** ** C43 *)
(** The verdict depends on the claims only through the sums batched with x1, and x1 does not
    depend on the claims. *)
Theorem c43_only_batched_claims_matter (F : fieldType) (env : fenv F) (PC : pcs F) (FS : fsrng F) (pvk : pc_vk PC) (ds : nat) (d : domain F)
    (zs : seq (voracle F (pc_com PC) * voracle F (pc_com PC))) (xi : F) (fs : fs_state FS) (pf : mo_proof PC) :
  let x1 := (fs_rand fs).1 in
  fenv_ok env -> domain_new env ds = Some d ->
  (forall v v', occurs (v, v') zs -> o_rots v = o_rots v' /\ get_commitment v = get_commitment v') ->
  (forall v v' rot, occurs (v, v') zs -> rot \in o_rots v ->
     let p := rot_point (dgen d) rot xi in
     let group := [seq z <- zs | o_rots z.1 == o_rots v] in
     (forall z, occurs z group -> (exists e, vo_query z.1 p = Ok e) /\ (exists e, vo_query z.2 p = Ok e)) /\
     \sum_(j < size group) x1 ^+ j * ok_or 0 (vo_query (nth (v, v') group j).1 p) =
     \sum_(j < size group) x1 ^+ j * ok_or 0 (vo_query (nth (v, v') group j).2 p)) ->
  mo_verify env pvk pf (map fst zs) xi ds fs = mo_verify env pvk pf (map snd zs) xi ds fs.
Proof.
move=> x1 eok Ed H1 H2; apply: (verdict_batched _ _ eok Ed) => [[v v']|[v v'] rot Hz Hr k p]; first exact: H1.
have [Hq Es] := H2 v v' rot Hz Hr; split=> //.
have sk : (size k <= size zs)%N by rewrite size_filter count_size.
rewrite (big_zip_powers (fun z x => x * ok_or 0 (vo_query z.1 p)) _ _ (v, v')) //.
rewrite (big_zip_powers (fun z x => x * ok_or 0 (vo_query z.2 p)) _ _ (v, v')) //.
under eq_bigr do rewrite mul1r; under [RHS]eq_bigr do rewrite mul1r.
exact: Es.
Qed.
Print Assumptions c43_only_batched_claims_matter.

(** An oracle opened at xi only. *)
Definition opened {F : fieldType} {C : Type} (l : string) (c : C) (xi e : F) : voracle F C :=
  Oracle l [:: curr] (VData Witness [:: (xi, e)] (Some c) false).

(** So the property fails: for two oracles, any proof accepted for the claims e1, e2 is accepted
    for the claims e1 + x1 delta, e2 - delta, for every delta. *)
Theorem c43_individual_claims_refuted (F : fieldType) (env : fenv F) (PC : pcs F) (FS : fsrng F) (pvk : pc_vk PC) (ds : nat) (d : domain F)
    (l1 l2 : string) (c1 c2 : pc_com PC) (xi e1 e2 delta : F) (fs : fs_state FS) (pf : mo_proof PC) :
  let x1 := (fs_rand fs).1 in
  fenv_ok env -> domain_new env ds = Some d ->
  mo_verify env pvk pf [:: opened l1 c1 xi e1; opened l2 c2 xi e2] xi ds fs = Ok tt ->
  mo_verify env pvk pf [:: opened l1 c1 xi (e1 + x1 * delta); opened l2 c2 xi (e2 - delta)] xi ds fs = Ok tt.
Proof.
move=> x1 eok Ed <-.
pose zs := [:: (opened l1 c1 xi e1, opened l1 c1 xi (e1 + x1 * delta)); (opened l2 c2 xi e2, opened l2 c2 xi (e2 - delta))].
suff : mo_verify env pvk pf (map fst zs) xi ds fs = mo_verify env pvk pf (map snd zs) xi ds fs by move=> /esym.
apply: (@c43_only_batched_claims_matter _ env PC FS pvk ds d zs xi fs pf eok Ed) => [v v'|v v' rot].
  by rewrite /zs => -[[-> ->]|[[-> ->]|[]]].
have pc : rot_point (dgen d) curr xi = xi by rewrite /rot_point /= expr0 mulr1.
have q l c e : vo_query (opened l c xi e) xi = Ok e :> res F by rewrite /vo_query /= eqxx.
move=> H Hr; have Er : o_rots v = [:: curr] by case: H => [[-> _]|[[-> _]|[]]].
have {Hr} -> : rot = curr by apply/eqP; move: Hr; rewrite Er mem_seq1.
rewrite pc => p group.
have -> : group = zs by rewrite /group Er.
rewrite {}/p; split; first by move=> z [->|[->|[]]] /=; rewrite !q; split; eexists.
rewrite !big_ord_recl !big_ord0 /= !q /= expr0 expr1 !mul1r !addr0 -/x1.
by rewrite mulrBr addrACA -addrA addrA addrAC subrr addr0.
Qed.
Print Assumptions c43_individual_claims_refuted.

(** ** Concrete cases *)
From Coq Require Import NArith.
From Verif Require Import Field97 Concrete ProofConcrete ProofTools.
Local Close Scope ring_scope.

(** Three columns of four rows committed with KZG over F_97; the first is opened at xi and at the
    next row. *)
Definition mo_xi : f97_fieldType := n97 5.
Definition mo_a : poracle f97_fieldType := Oracle "a"%string [:: curr; next] (o_data (porc Witness 4 "a"%string (col [:: 1; 2; 3; 4]%nat) false)).
Definition mo_b : poracle f97_fieldType := Oracle "b"%string [:: curr] (o_data (porc Witness 4 "b"%string (col [:: 5; 9; 3; 0]%nat) false)).
Definition mo_c : poracle f97_fieldType := Oracle "c"%string [:: curr] (o_data (porc Witness 4 "c"%string (col [:: 8; 2; 7; 7]%nat) false)).
Definition mo_ra : pc_rand KZG97 := col [:: 3; 1; 2]%nat.
Definition mo_rb : pc_rand KZG97 := [::].
Definition mo_rc : pc_rand KZG97 := col [:: 5; 5; 6]%nat.
Definition mo_com (p : poracle f97_fieldType) (r : pc_rand KZG97) : pc_com KZG97 :=
  ok_or (n97 0) (pc_commit1 (p := KZG97) srs97 (po_poly p) r).
Definition mo_v (p : poracle f97_fieldType) (r : pc_rand KZG97) : voracle f97_fieldType (pc_com KZG97) :=
  vcopy (dom97 4) mo_xi (Some (mo_com p r)) p.
Definition mo_ts := [:: (mo_a, mo_ra, mo_v mo_a mo_ra); (mo_b, mo_rb, mo_v mo_b mo_rb); (mo_c, mo_rc, mo_v mo_c mo_rc)].

Lemma all_occurs A (P : A -> bool) (s : seq A) x : all P s -> occurs x s -> P x.
Proof. by elim: s => //= y s IH /andP[Hy Hs] [->|]; [exact: Hy|exact: IH]. Qed.

Lemma mo_v_stands p r : ok_any (pc_commit1 (p := KZG97) srs97 (po_poly p) r) ->
  stands_for (PC := KZG97) srs97 (dgen (dom97 4)) mo_xi (mo_v p r) p r.
Proof.
move=> H; split; first exact: (erefl (o_rots p)).
  exists (mo_com p r); first exact: (erefl (Ok (mo_com p r))).
  exact: (ok_anyP _ H).
move=> rot Hr; have [_ T] := vcopy_truthful (Some (mo_com p r)) (dom97 4) mo_xi [:: p].
exact: (T 0 _ p rot erefl erefl Hr).
Qed.

Definition mo_fs0 : fs_state FS97 := fs_init FS97 [:: 1; 2]%nat.
Definition mo_run : res (mo_proof KZG97 * fs_state FS97 * pc_zk KZG97) :=
  mo_prove (PC := KZG97) (FS := FS97) env97 srs97 [seq t.1.1 | t <- mo_ts] [seq t.1.2 | t <- mo_ts] mo_xi 4 mo_fs0 12%num.
Definition mo_pf : mo_proof KZG97 :=
  if mo_run is Ok (pf, _, _) then pf else MoProof (PC := KZG97) [::] (n97 0) (n97 0, None).

(** The hypotheses of the completeness theorem hold, and the run is accepted. *)
Example ex_c40 :
  (forall p r v, occurs (p, r, v) mo_ts -> stands_for (PC := KZG97) srs97 (dgen (dom97 4)) mo_xi v p r) /\
  ok_any mo_run /\
  (forall p r v rot, occurs (p, r, v) mo_ts -> rot \in o_rots p ->
     rot_point (dgen (dom97 4)) rot mo_xi != x3_of (PC := KZG97) (FS := FS97) mo_fs0 mo_pf) /\
  ok_is (mo_verify (PC := KZG97) (FS := FS97) env97 srs97 mo_pf [seq t.2 | t <- mo_ts] mo_xi 4 mo_fs0) tt.
Proof.
split.
  by move=> p r v [[-> -> ->]|[[-> -> ->]|[[-> -> ->]|[]]]]; apply: mo_v_stands; vm_compute.
split; first by vm_compute.
split; last by vm_compute.
have G (os : seq (poracle f97_fieldType)) : all (fun p => all (fun rot => rot_point (dgen (dom97 4)) rot mo_xi != x3_of (PC := KZG97) (FS := FS97) mo_fs0 mo_pf) (o_rots p)) os ->
  forall p rot, occurs p os -> rot \in o_rots p -> rot_point (dgen (dom97 4)) rot mo_xi != x3_of (PC := KZG97) (FS := FS97) mo_fs0 mo_pf.
  by elim: os => //= o os IH /andP[/allP Ho Hos] p rot [->|]; [exact: Ho|exact: IH].
move=> p r v rot Hp; apply: (G [:: mo_a; mo_b; mo_c]); first by vm_compute.
by case: Hp => [[-> _ _]|[[-> _ _]|[[-> _ _]|[]]]]; rewrite /=; tauto.
Qed.

(** C39 on the points 5, 11, 30 and on a repeated point. *)
Example ex_c39 : uniq (col [:: 5; 11; 30]%nat) && ok_any (construct_lagrange_basis (F := f97_fieldType) (col [:: 5; 11; 30]%nat)) /\
  ~~ uniq (col [:: 5; 11; 5]%nat) && panics PUnwrap (construct_lagrange_basis (F := f97_fieldType) (col [:: 5; 11; 5]%nat)).
Proof. by split; vm_compute. Qed.

(** x3 among the points. *)
Example ex_c40_collision : panics PUnwrap (mo_f_eval (F := f97_fieldType) (n97 5) [:: (n97 5, n97 1); (n97 6, n97 1)] (n97 3)).
Proof. by vm_compute. Qed.

(** The same columns with wrong claims everywhere (77 at every point): well formed, false, accepted
    with the empty proof, rejected with the honest one. *)
Definition mo_lie (p : poracle f97_fieldType) (r : pc_rand KZG97) : voracle f97_fieldType (pc_com KZG97) :=
  Oracle (o_label p) (o_rots p)
    (VData Witness [seq (rot_point (F := f97_fieldType) (dgen (dom97 4)) rot mo_xi, n97 77) | rot <- o_rots p] (Some (mo_com p r)) false).
Definition mo_lies := [seq mo_lie t.1.1 t.1.2 | t <- mo_ts].
Lemma mo_lie_claimed p r : all (fun rot : rotation => rot.1 < 4) (o_rots p) ->
  uniq [seq rot_point (F := f97_fieldType) (dgen (dom97 4)) rot mo_xi | rot <- o_rots p] ->
  well_claimed (dom97 4) mo_xi (mo_lie p r).
Proof.
move=> H1 H2; split; first by exists (mo_com p r).
- exact: H1.
- exact: H2.
move=> rot Hr; exists (n97 77).
rewrite /vo_query /mo_lie; set y := rot_point _ _ _.
rewrite -[vd_evals _]/([seq (rot_point (F := f97_fieldType) (dgen (dom97 4)) rot mo_xi, n97 77) | rot <- o_rots p]).
have -> : [seq (rot_point (F := f97_fieldType) (dgen (dom97 4)) rot mo_xi, n97 77) | rot <- o_rots p]
  = [seq (q, (fun _ => n97 77) q) | q <- [seq rot_point (F := f97_fieldType) (dgen (dom97 4)) rot mo_xi | rot <- o_rots p]].
  by rewrite -map_comp.
by rewrite (@assoc_graph f97_fieldType) //; apply/mapP; exists rot.
Qed.
Example ex_c41 :
  (forall v, occurs v mo_lies -> well_claimed (dom97 4) mo_xi v) /\
  (forall x, exists pi, pc_open (p := KZG97) srs97 [::] x (pc_empty KZG97) = Ok pi) /\
  ok_is (mo_verify (PC := KZG97) (FS := FS97) env97 srs97 (MoProof (PC := KZG97) [::] (n97 0) (n97 0, None)) mo_lies mo_xi 4 mo_fs0) tt /\
  ~~ ok_any (mo_verify (PC := KZG97) (FS := FS97) env97 srs97 mo_pf mo_lies mo_xi 4 mo_fs0).
Proof.
split; last split; last by split; vm_compute.
  move=> v /occurs_map[[[p r] v'] Hp ->]; apply: mo_lie_claimed.
    by case: Hp => [[-> _ _]|[[-> _ _]|[[-> _ _]|[]]]]; vm_compute.
  by case: Hp => [[-> _ _]|[[-> _ _]|[[-> _ _]|[]]]]; vm_compute.
by move=> x; eexists.
Qed.

(** A binding scheme (a commitment is the polynomial itself) and a wrong claim about the first column. *)
Definition PLAIN97 : pcs f97_fieldType := plain lcg_rand (fun p => flatten (map f97_bytes p)) f97_bytes.
Definition mo_w (p : poracle f97_fieldType) (e : seq (f97 * f97)) : voracle f97_fieldType (pc_com PLAIN97) :=
  Oracle (o_label p) (o_rots p) (VData Witness e (Some (po_poly p)) false).
Definition mo_ws := [:: vcopy (dom97 4) mo_xi (Some (po_poly mo_a) : option (pc_com PLAIN97)) mo_a;
  mo_w mo_b [:: (mo_xi, n97 1)]; vcopy (dom97 4) mo_xi (Some (po_poly mo_c) : option (pc_com PLAIN97)) mo_c].
Example ex_c42 :
  pcs_binding (PC := PLAIN97) tt (@Poly f97_fieldType) /\
  (forall v c, occurs v mo_ws -> get_commitment v = Ok c -> size (@Poly f97_fieldType c) <= 4) /\
  occurs (mo_w mo_b [:: (mo_xi, n97 1)]) mo_ws /\ curr \in o_rots (mo_w mo_b [:: (mo_xi, n97 1)]) /\
  vo_query (mo_w mo_b [:: (mo_xi, n97 1)]) mo_xi = Ok (n97 1) /\
  n97 1 != (@Poly f97_fieldType (po_poly mo_b)).[mo_xi]%R.
Proof.
split; first exact: plain_binding.
split.
  have E4 : all (fun p : poracle f97_fieldType => size (po_poly p) <= 4) [:: mo_a; mo_b; mo_c] by vm_compute.
  have G p : occurs p [:: mo_a; mo_b; mo_c] -> size (@Poly f97_fieldType (po_poly p)) <= 4.
    by move=> /(all_occurs E4); apply: leq_trans; apply: size_Poly.
  by move=> v c [->|[->|[->|[]]]] [<-]; apply: G; rewrite /=; tauto.
split; first by right; left.
split; first by vm_compute.
split; first by apply: ok_isP; vm_compute.
by rewrite -pevalE; vm_compute.
Qed.

(** Two columns, with true claims and with claims shifted as in the refutation of C43. *)
Definition mo_two (e1 e2 : f97) : seq (voracle f97_fieldType (pc_com KZG97)) :=
  [:: opened "b"%string (mo_com mo_b mo_rb) mo_xi e1; opened "c"%string (mo_com mo_c mo_rc) mo_xi e2].
Definition mo_run2 := mo_prove (PC := KZG97) (FS := FS97) env97 srs97 [:: mo_b; mo_c] [:: mo_rb; mo_rc] mo_xi 4 mo_fs0 13%num.
Definition mo_pf2 : mo_proof KZG97 :=
  if mo_run2 is Ok (pf, _, _) then pf else MoProof (PC := KZG97) [::] (n97 0) (n97 0, None).
Example ex_c43 :
  let e1 := peval (po_poly mo_b) mo_xi in let e2 := peval (po_poly mo_c) mo_xi in
  let x1 := (fs_rand mo_fs0).1 in
  ok_is (mo_verify (PC := KZG97) (FS := FS97) env97 srs97 mo_pf2 (mo_two e1 e2) mo_xi 4 mo_fs0) tt /\
  ok_is (mo_verify (PC := KZG97) (FS := FS97) env97 srs97 mo_pf2 (mo_two (e1 + x1 * n97 9)%R (e2 - n97 9)%R) mo_xi 4 mo_fs0) tt /\
  ~~ ok_any (mo_verify (PC := KZG97) (FS := FS97) env97 srs97 mo_pf2 (mo_two e1 (e2 - n97 9)%R) mo_xi 4 mo_fs0).
Proof. by do ![split]; vm_compute. Qed.
