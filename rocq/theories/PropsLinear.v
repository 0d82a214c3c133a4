(** C78: the multi-opening checks a single combination of all claimed evaluations. *)
From mathcomp Require Import all_ssreflect all_algebra.
From Coq Require Import String.
From Verif Require Import Base ModelPoly ModelVO ModelOracle ModelPC ModelPermutation ModelLookup ModelIndexer ModelMultiproof ModelProtocol
  Spec SpecProtocol SpecPIOP SpecMultiopen SpecCircuit SpecSound SpecSingle SpecOpenings SpecLinear
  ProofBase ProofPoly ProofEach ProofOracle ProofDomain ProofLookup ProofProver ProofFront ProofLinear.

Set Implicit Arguments.
Unset Strict Implicit.
Unset Printing Implicit Defensive.

Import GRing.Theory.
Local Open Scope ring_scope.

(** ** C78 *)
(** Let the multi-opening accept a proof for some oracles, and let each oracle be replaced by one with the same rotations and the same
    commitment, but any evaluations at the points of its rotations. It accepts again if the total claim is the same, and does not accept
    if it is another one and the commitment scheme accepts one value only. *)
Theorem c78_one_equation (F : fieldType) (env : fenv F) (PC : pcs F) (FS : fsrng F) (pvk : pc_vk PC) (ds : nat) (d : domain F)
    (zs : seq (voracle F (pc_com PC) * voracle F (pc_com PC))) (xi : F) (fs : fs_state FS) (pf : mo_proof PC) :
  let x1 := (fs_rand fs).1 in let x2 := (fs_rand (fs_rand fs).2).1 in
  let total := total_claim (dgen d) xi x1 x2 (x3_of fs pf) in
  fenv_ok env -> domain_new env ds = Some d ->
  (forall o o', occurs (o, o') zs -> [/\ o_rots o' = o_rots o, get_commitment o' = get_commitment o &
     forall r, r \in o_rots o -> exists e, vo_query o' (rot_point (dgen d) r xi) = Ok e]) ->
  (size (undup (map (@o_rots _) (map fst zs))) <= size (mp_q_evals pf))%N ->
  mo_verify env pvk pf (map fst zs) xi ds fs = Ok tt ->
  (total (map snd zs) = total (map fst zs) -> mo_verify env pvk pf (map snd zs) xi ds fs = Ok tt) /\
  (one_value pvk -> total (map snd zs) <> total (map fst zs) -> mo_verify env pvk pf (map snd zs) xi ds fs <> Ok tt).
Proof.
move=> x1 x2 total eok Ed al sq H; have [_ [c [v [Hv ->]]]] := claims_again eok Ed al sq H.
rewrite -![total_claim _ _ _ _ _ _]/(total _); split=> [->|ov ne]; first by rewrite subrr subr0 Hv.
case E: (pc_check _ _ _ _ _) => [[]|//|//] //= _.
by apply: ne; have /eqP := ov _ _ _ _ _ Hv E; rewrite eq_sym subr_eq addrC -subr_eq subrr eq_sym subr_eq0 => /eqP.
Qed.
Print Assumptions c78_one_equation.

(** Hence every change can be compensated with one evaluation: however the evaluations of the other oracles are changed, there is exactly
    one value that, registered with oracle o at the point of its rotation s, makes the multi-opening accept. *)
Theorem c78_one_evaluation_decides (F : fieldType) (env : fenv F) (PC : pcs F) (FS : fsrng F) (pvk : pc_vk PC) (ds : nat) (d : domain F)
    (zs1 zs2 : seq (voracle F (pc_com PC) * voracle F (pc_com PC))) (o : voracle F (pc_com PC)) (s : rotation) (xi : F)
    (fs : fs_state FS) (pf : mo_proof PC) :
  let old := map fst zs1 ++ o :: map fst zs2 in
  let new v := map snd zs1 ++ register_eval_at_challenge (rot_point (dgen d) s xi) v o :: map snd zs2 in
  fenv_ok env -> domain_new env ds = Some d -> one_value pvk ->
  (forall o o', occurs (o, o') (zs1 ++ zs2) -> [/\ o_rots o' = o_rots o, get_commitment o' = get_commitment o &
     forall r, r \in o_rots o -> exists e, vo_query o' (rot_point (dgen d) r xi) = Ok e]) ->
  (forall r, r \in o_rots o -> exists e, vo_query o (rot_point (dgen d) r xi) = Ok e) -> s \in o_rots o ->
  (size (undup (map (@o_rots _) old)) <= size (mp_q_evals pf))%N ->
  (fs_rand fs).1 != 0 -> (fs_rand (fs_rand fs).2).1 != 0 ->
  mo_verify env pvk pf old xi ds fs = Ok tt ->
  exists v, forall v', mo_verify env pvk pf (new v') xi ds fs = Ok tt <-> v' = v.
Proof.
move=> old new eok Ed ov al rd0 sk sq n1 n2 H.
set p0 := rot_point (dgen d) s xi.
have qE v p : vo_query (register_eval_at_challenge p0 v o) p = if p0 == p then Ok v else vo_query o p.
  by rewrite /vo_query; cbn [register_eval_at_challenge o_data vd_evals o_label]; rewrite assoc_ains; case: ifP.
pose zs v := zs1 ++ (o, register_eval_at_challenge p0 v o) :: zs2.
have f1 v : map fst (zs v) = old by rewrite /zs map_cat.
have f2 v : map snd (zs v) = new v by rewrite /zs map_cat.
have alz v a a' : occurs (a, a') (zs v) -> [/\ o_rots a' = o_rots a, get_commitment a' = get_commitment a &
     forall r, r \in o_rots a -> exists e, vo_query a' (rot_point (dgen d) r xi) = Ok e].
  rewrite /zs => /ProofEach.occurs_cat [Ha|[[-> ->]|Ha]]; [by apply: al; apply/ProofEach.occurs_cat; left| |by apply: al; apply/ProofEach.occurs_cat; right].
  by split=> // r Hr; rewrite qE; case: ifP => _; [exists v|exact: rd0].
have sz v : (size (undup (map (@o_rots _) (map fst (zs v)))) <= size (mp_q_evals pf))%N by rewrite f1.
have Hz v : mo_verify env pvk pf (map fst (zs v)) xi ds fs = Ok tt by rewrite f1.
have U0 : o_rots o \in map (@o_rots _) (map fst (zs 0)) by rewrite f1 /old map_cat mem_cat inE eqxx orbT.
have [UX _] := claims_again eok Ed (alz 0) (sz 0) (Hz 0); have [up nx] := UX _ U0.
pose x3 := x3_of fs pf; pose total := total_claim (C := pc_com PC) (dgen d) xi (fs_rand fs).1 (fs_rand (fs_rand fs).2).1 x3.
have [|||a a0 A] := @total_affine F PC (dgen d) xi (fs_rand fs).1 (fs_rand (fs_rand fs).2).1 x3 (map snd zs1) (map snd zs2)
  (fun v => register_eval_at_challenge p0 v o) (o_rots o) s _ sk _ _ up nx n1 n2.
- by [].
- by move=> v; rewrite qE eqxx.
- move=> v r Hr ne; rewrite !qE; case: eqP => // E.
  have Ei : seq.index r (o_rots o) = seq.index s (o_rots o).
    by apply/eqP; rewrite -(nth_uniq 0 _ _ up) ?size_map ?index_mem // !(nth_map s) ?index_mem // !nth_index // -E.
  by case/eqP: ne; rewrite -(nth_index s Hr) Ei nth_index.
exists ((total old - total (new 0)) / a) => v'.
have E : (total (new v') = total old) <-> v' = (total old - total (new 0)) / a.
  rewrite -[total (new v')]/(total_claim _ _ _ _ _ (_ ++ _ :: _)) A -/(total (new 0)); split=> [<-|->]; last by rewrite divfK // addrC subrK.
  by rewrite addrAC subrr add0r mulfK.
rewrite -E -(f2 v') -(f1 v'); have [Y N] := c78_one_equation eok Ed (@alz v') (sz v') (Hz v'); split=> [Hm|/Y //].
by apply/eqP; case: eqP => // ne; case: (N ov ne).
Qed.
Print Assumptions c78_one_evaluation_decides.

(** ** Concrete cases *)
From Coq Require Import NArith.
From Verif Require Import Field97 Concrete ProofConcrete ProofTools PropsMultiopen Run97 PropsTranscript PropsEndToEnd PropsAttack PropsSingle.
Local Close Scope ring_scope.

(** The accepted multi-opening of PropsMultiopen.v: a and b are claimed to be 77 at all their points, which is wrong. There is exactly one value
    of c at xi with which this is accepted. *)
Definition li_zs := [:: (mo_v mo_a mo_ra, mo_lie mo_a mo_ra); (mo_v mo_b mo_rb, mo_lie mo_b mo_rb)].
Lemma li_aligned p r : all (fun rot : rotation => rot.1 < 4) (o_rots p) ->
  uniq [seq rot_point (F := f97_fieldType) (dgen (dom97 4)) rot mo_xi | rot <- o_rots p] ->
  [/\ o_rots (mo_lie p r) = o_rots (mo_v p r), get_commitment (mo_lie p r) = get_commitment (mo_v p r) &
     forall rot, rot \in o_rots (mo_v p r) -> exists e, vo_query (mo_lie p r) (rot_point (dgen (dom97 4)) rot mo_xi) = Ok e].
Proof. by move=> H1 H2; have [_ _ _ H] := mo_lie_claimed r H1 H2; split; [exact: erefl|exact: erefl|exact: H]. Qed.
Lemma li_accepted : mo_verify (PC := KZG97) (FS := FS97) env97 srs97 mo_pf (map fst li_zs ++ [:: mo_v mo_c mo_rc]) mo_xi 4 mo_fs0 = Ok tt.
Proof. by have [_ [_ [_ H]]] := ex_c40; apply/ok_isP. Qed.
Example ex_c78 : exists v, forall v' : F97,
  mo_verify (PC := KZG97) (FS := FS97) env97 srs97 mo_pf
    [:: mo_lie mo_a mo_ra; mo_lie mo_b mo_rb; register_eval_at_challenge (rot_point (F := f97_fieldType) (dgen (dom97 4)) curr mo_xi) v' (mo_v mo_c mo_rc)] mo_xi 4 mo_fs0 = Ok tt
  <-> v' = v.
Proof.
pose proof (@c78_one_evaluation_decides F97 env97 KZG97 FS97 srs97 4 (dom97 4) li_zs [::] (mo_v mo_c mo_rc) curr mo_xi mo_fs0 mo_pf env97_ok) as H.
have h1 : domain_new env97 4 = Some (dom97 4) by vm_compute.
have h2 : forall o o', occurs (o, o') (li_zs ++ [::]) -> [/\ o_rots o' = o_rots o, get_commitment o' = get_commitment o &
     forall r, r \in o_rots o -> exists e, vo_query o' (rot_point (F := f97_fieldType) (dgen (dom97 4)) r mo_xi) = Ok e].
  by move=> o o' [[-> ->]|[[-> ->]|[]]]; apply: li_aligned; vm_compute.
have h3 : forall r, r \in o_rots (mo_v mo_c mo_rc) -> exists e, vo_query (mo_v mo_c mo_rc) (rot_point (F := f97_fieldType) (dgen (dom97 4)) r mo_xi) = Ok e.
  have [|_ _ T] := @mo_v_stands mo_c mo_rc; first by vm_compute.
  by move=> r Hr; eexists; apply: T.
have h4 : curr \in o_rots (mo_v mo_c mo_rc) by vm_compute.
have h5 : size (undup (map (@o_rots _) (map fst li_zs ++ [:: mo_v mo_c mo_rc]))) <= size (mp_q_evals mo_pf) by vm_compute.
have h6 : ((fs_rand (f := FS97) mo_fs0).1 != 0)%R by vm_compute.
have h7 : ((fs_rand (f := FS97) (fs_rand (f := FS97) mo_fs0).2).1 != 0)%R by vm_compute.
exact (H h1 kzg97_one h2 h3 h4 h5 h6 h7 li_accepted).
Qed.
