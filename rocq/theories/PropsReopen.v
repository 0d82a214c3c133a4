(** C77: which other opening proofs verify accepts in an accepted proof. *)
From mathcomp Require Import all_ssreflect all_algebra.
From Coq Require Import String.
From Verif Require Import Base ModelPoly ModelVO ModelOracle ModelPC ModelPermutation ModelLookup ModelIndexer ModelMultiproof ModelProtocol
  Spec SpecProtocol SpecPIOP SpecMultiopen SpecCircuit SpecSound SpecShape SpecSingle
  ProofBase ProofPoly ProofMultiopen ProofLookup ProofPermutation ProofProver ProofFront ProofTotal3.

Set Implicit Arguments.
Unset Strict Implicit.
Unset Printing Implicit Defensive.

Import GRing.Theory.
Local Open Scope ring_scope.

Section Reopen.
Variables (F : fieldType) (env : fenv F) (PC : pcs F) (FS : fsrng F).

Lemma mo_reopen pvk (pf : mo_proof PC) (os : seq (voracle F (pc_com PC))) xi n (fs : fs_state FS) :
  mo_verify env pvk pf os xi n fs = Ok tt ->
  exists c v, forall p, mo_verify env pvk (MoProof (mp_q_evals pf) (mp_f_commit pf) p) os xi n fs
    = (b <- pc_check pvk c (x3_of fs pf) v p ;; if b then Ok tt else Err OpeningCheckFailed).
Proof.
rewrite /mo_verify /x3_of; cbn [mp_q_evals mp_f_commit mp_opening].
case: (fs_rand fs) => x1 fs1; case: (fs_rand fs1) => x2 fs2 /=; case: (fs_rand (fs_absorb fs2 _)) => x3 fs3 /=.
case: (opt_unwrap _) => [d|//|//]; rewrite !rbind_Ok; case: (fs_rand (fs_absorb fs3 _)) => x4 fs4.
case E: (mo_zip _ _ _ _ _ _) => [it|//|//] _.
by eexists; eexists => p; rewrite rbind_Ok E rbind_Ok.
Qed.

Lemma verdict_reopen pvk (S : vinput PC) pf : verdict env FS pvk S pf = Ok tt ->
  exists c v, forall p, verdict env FS pvk S (with_opening pf p)
    = (b <- pc_check pvk c (x3_of (ch_fs (derive_challenges FS pf)) (tp_multiopen pf)) v p ;; if b then Ok tt else Err OpeningCheckFailed).
Proof.
rewrite verdictE => H; have [T Hf {}H] := rbind_ok H; have [[] Hc Hm] := rbind_ok H.
have [c [v G]] := mo_reopen Hm; exists c, v => p.
rewrite verdictE (_ : derive_challenges FS (with_opening pf p) = derive_challenges FS pf) //.
rewrite (_ : verify_front env (s_vk S) (s_pre S) (with_opening pf p) = verify_front env (s_vk S) (s_pre S) pf) //.
by rewrite Hf rbind_Ok Hc rbind_Ok G.
Qed.
End Reopen.

(** ** C77 *)
(** In an accepted proof the opening proof is checked once: there are a commitment c and a value v, that of x3, such that verify's
    answer to the proof with any other opening proof is that of the commitment scheme for c, x3 and v. *)
Theorem c77_one_opening_check (F : fieldType) (env : fenv F) (PC : pcs F) (FS : fsrng F) (pvk : pc_vk PC) (S : vinput PC) (pf : tp_proof PC) :
  verdict env FS pvk S pf = Ok tt ->
  exists c v, forall p, verdict env FS pvk S (with_opening pf p)
    = (b <- pc_check pvk c (x3_of (ch_fs (derive_challenges FS pf)) (tp_multiopen pf)) v p ;; if b then Ok tt else Err OpeningCheckFailed).
Proof. exact: verdict_reopen. Qed.
Print Assumptions c77_one_opening_check.

(** Over KZG10: the pairs (w', random_v') that are accepted in place of (w, random_v) are exactly those with
    (tau - x3) (w' - w) = (random_v - random_v') gamma_g; for all others the answer is OpeningCheckFailed. *)
Theorem c77_kzg_opening_proofs (F : fieldType) (env : fenv F) (G : lmodType F) (Z : Type) (zk_rand : Z -> F * Z) (cbytes : G -> bytes)
    (fbytes : F -> bytes) (FS : fsrng F) (s : kzg_srs G) (S : vinput (kzg zk_rand cbytes fbytes)) (pf : tp_proof (kzg zk_rand cbytes fbytes))
    (p : G * option F) :
  let x3 := x3_of (ch_fs (derive_challenges FS pf)) (tp_multiopen pf) in let p0 : G * option F := mp_opening (tp_multiopen pf) in
  verdict env FS (PC := kzg zk_rand cbytes fbytes) s S pf = Ok tt ->
  verdict env FS (PC := kzg zk_rand cbytes fbytes) s S (with_opening (PC := kzg zk_rand cbytes fbytes) pf p)
  = if (k_tau s - x3) *: (p.1 - p0.1) == (random_v p0 - random_v p) *: k_gamma_g s then Ok tt else Err OpeningCheckFailed.
Proof.
move=> x3 p0 H; have [c [v E]] := verdict_reopen H.
have := E (mp_opening (tp_multiopen pf)); rewrite (_ : with_opening _ _ = pf); last by case: (pf) => ? ? ? ? ? ? ? ? ? ? ? ? ? ? [].
rewrite H E [pc_check]/= /kzg_check !rbind_Ok -/x3 -/p0 -![if _ is Some x then x else 0]/(random_v _).
case: eqP => // E0 _; congr (if _ then _ else _).
rewrite scalerBr -E0 [(random_v p0 - _) *: _]scalerBl -subr_eq0 -[RHS]subr_eq0 -oppr_eq0; congr (_ == 0).
by move: (c - _) => y; rewrite opprB -[RHS]addrA -opprD; congr (_ - _); rewrite [RHS]addrA subrK.
Qed.
Print Assumptions c77_kzg_opening_proofs.

(** So the group element is determined (unless tau is x3), the scalar is determined (unless gamma_g is 0), and a missing scalar can be
    replaced by 0 and the other way round, which gives another accepted proof. *)
Theorem c77_kzg_changed_opening (F : fieldType) (env : fenv F) (G : lmodType F) (Z : Type) (zk_rand : Z -> F * Z) (cbytes : G -> bytes)
    (fbytes : F -> bytes) (FS : fsrng F) (s : kzg_srs G) (S : vinput (kzg zk_rand cbytes fbytes)) (pf : tp_proof (kzg zk_rand cbytes fbytes))
    (w w' : G) (r r' : option F) :
  let ans p := verdict env FS (PC := kzg zk_rand cbytes fbytes) s S (with_opening (PC := kzg zk_rand cbytes fbytes) pf p) in
  let x3 := x3_of (ch_fs (derive_challenges FS pf)) (tp_multiopen pf) in
  mp_opening (tp_multiopen pf) = (w, r) -> verdict env FS (PC := kzg zk_rand cbytes fbytes) s S pf = Ok tt ->
  [/\ k_tau s != x3 -> w' != w -> ans (w', r) = Err OpeningCheckFailed,
      k_gamma_g s != 0 -> odflt 0 r' != odflt 0 r -> ans (w, r') = Err OpeningCheckFailed &
      odflt 0 r' = odflt 0 r -> ans (w, r') = Ok tt].
Proof.
move=> ans x3 Ep H; have rE (a : G) o : random_v (a, o) = odflt 0 o by case: o.
have E p : ans p = if (k_tau s - x3) *: (p.1 - w) == (odflt 0 r - random_v p) *: k_gamma_g s then Ok tt else Err OpeningCheckFailed.
  by have := c77_kzg_opening_proofs p H; rewrite Ep rE.
split=> [t0 ne|g0 ne|Er]; rewrite E rE /=.
- by rewrite subrr scale0r scaler_eq0 !subr_eq0 (negbTE t0) (negbTE ne).
- by rewrite subrr scaler0 eq_sym scaler_eq0 subr_eq0 eq_sym (negbTE ne) (negbTE g0).
- by rewrite Er !subrr scaler0 scale0r eqxx.
Qed.
Print Assumptions c77_kzg_changed_opening.

(** ** C39 *)
(** The points and values of one opening set are kept in a map sorted by the points. Neither the vanishing polynomial of the points nor
    what verify computes from points and values depends on the order of the map, so that the model may keep them in another one. *)
Theorem c39_order_of_points (F : fieldType) (evs evs' : seq (F * F)) : perm_eq evs evs' ->
  construct_vanishing (map fst evs) = construct_vanishing (map fst evs') /\
  forall x3 q, mo_f_eval x3 evs q = mo_f_eval x3 evs' q.
Proof.
move=> P; have Pf : perm_eq (map fst evs) (map fst evs') by exact: perm_map.
have tr ps : ptrim (construct_vanishing ps) = construct_vanishing ps :> lpoly F.
  rewrite /construct_vanishing; have : ptrim (ptrim [:: 1 : F]) = ptrim [:: 1] by rewrite ptrim_id.
  by elim: ps (ptrim [:: 1 : F]) => [|p ps IH] v Hv //=; apply: IH; rewrite /pmul ptrim_id.
split=> [|x3 q]; first by rewrite -tr -[RHS]tr; apply/eqP; rewrite ptrim_inj !Poly_vanish (perm_big _ Pf).
case U: (uniq (map fst evs)); have U' := U; rewrite (perm_uniq Pf) in U'.
  rewrite !f_eval_ok // (perm_mem Pf) /zpoly /interp (perm_big _ Pf) (perm_big _ P).
  case: ifP => // _; congr (Ok ((_ - _.[_]) / _)); apply: eq_bigr => t _; congr (_ *: _).
  by rewrite /lag (perm_big _ Pf).
by rewrite /mo_f_eval /construct_lagrange_basis !lagrange_from_panic ?U ?U'.
Qed.
Print Assumptions c39_order_of_points.

(** ** Concrete cases *)
From Coq Require Import NArith.
From Verif Require Import ModelGates Field97 Concrete ProofPC ProofConcrete ProofTools ProofCheck ProofCheck2 Run97 PropsTranscript PropsEndToEnd PropsAttack PropsSingle.
Local Close Scope ring_scope.

(** The accepted proof of PropsSingle.v: neither tau = x3 nor gamma_g = 0, so both parts of its opening are determined. *)
Definition s_open : F97 * option F97 := mp_opening (tp_multiopen s_proof).
Example ex_c77 (w' : F97) (r' : option F97) :
  let ans p := verdict env97 FS97 (PC := KZG97) srs97 r_S (with_opening (PC := KZG97) s_proof p) in
  (w' != s_open.1 -> ans (w', s_open.2) = Err OpeningCheckFailed) /\
  (odflt 0%R r' != odflt 0%R s_open.2 -> ans (s_open.1, r') = Err OpeningCheckFailed).
Proof.
pose proof (@c77_kzg_changed_opening F97 env97 [lmodType f97 of f97^o] N lcg_rand f97_bytes f97_bytes FS97 srs97 r_S s_proof
  s_open.1 w' s_open.2 r') as H.
have h1 : mp_opening (tp_multiopen s_proof) = (s_open.1, s_open.2) by rewrite /s_open; case: (mp_opening _).
have h2 : (k_tau srs97 != x3_of (ch_fs (derive_challenges FS97 s_proof)) (tp_multiopen s_proof))%R by vm_compute.
have h3 : (k_gamma_g srs97 != 0)%R by vm_compute.
by have [A B _] := H h1 s_accepted; split; [exact: (A h2)|exact: (B h3)].
Qed.
(** Three points in two orders. *)
Example ex_c39_order : perm_eq [:: (n97 5, n97 1); (n97 11, n97 2); (n97 30, n97 9)] [:: (n97 30, n97 9); (n97 5, n97 1); (n97 11, n97 2)].
Proof. by vm_compute. Qed.
