(** C79: which quotient evaluations verify accepts in place of others. *)
From mathcomp Require Import all_ssreflect all_algebra.
From Coq Require Import String.
From Verif Require Import Base ModelPoly ModelVO ModelOracle ModelPC ModelPermutation ModelLookup ModelIndexer ModelMultiproof ModelProtocol
  Spec SpecProtocol SpecPIOP SpecMultiopen SpecCircuit SpecSound SpecShape SpecShift SpecSingle SpecOpenings SpecLinear SpecRequote
  ProofBase ProofPoly ProofDomain ProofEach ProofOracle ProofLookup ProofProver ProofFront ProofCounts ProofHistory ProofComplete ProofSound
  ProofOpen ProofPermutation ProofTotal ProofTotal3 ProofShape ProofShift ProofSingle ProofSingle2 ProofSingle3 ProofLinear ProofRequote PropsSingle PropsLinear.

Set Implicit Arguments.
Unset Strict Implicit.
Unset Printing Implicit Defensive.

Import GRing.Theory.
Local Open Scope ring_scope.

Section Requote.
Variables (F : fieldType) (env : fenv F) (PC : pcs F) (FS : fsrng F) (pvk : pc_vk PC) (S : vinput PC) (es : seq (expr F oquery)).
Notation vorc := (voracle F (pc_com PC)).

Lemma requote (pf : tp_proof PC) es' :
  let ch := derive_challenges FS pf in let k := size (tp_quotient_commitments pf) in
  let x1 := (fs_rand (ch_fs ch)).1 in let x2 := (fs_rand (fs_rand (ch_fs ch)).2).1 in
  let same y := \sum_(i < k) y ^+ i * es'`_i = \sum_(i < k) y ^+ i * (tp_quotient_evals pf)`_i in
  fenv_ok env -> std_domain env (s_d S) -> verifiable S es ->
  verdict env FS pvk S pf = Ok tt ->
  size (tp_witness_commitments pf) = size (s_ws S) ->
  (size (undup (opened_rots S k)) <= size (mp_q_evals (tp_multiopen pf)))%N ->
  (k <= size es')%N ->
  (same (ch_xi ch ^+ dsize (s_d S)) -> same x1 -> verdict env FS pvk S (with_quotient_evals pf es') = Ok tt) /\
  (one_value pvk -> x1 != 0 -> x2 != 0 -> (Poly (s_zh S)).[ch_xi ch] != 0 ->
   verdict env FS pvk S (with_quotient_evals pf es') = Ok tt -> same (ch_xi ch ^+ dsize (s_d S)) /\ same x1).
Proof.
move=> ch k x1 x2 same eok sd rdy; rewrite !verdictE => H sw sq sk.
have [T Hf {}H] := rbind_ok H; have [[] Hc Hm] := rbind_ok H.
have Ech := front_some Hf; have [cs' Ecs] := same_chunks Ech sk; have [Hf' _] := front_chunks Ech Ecs Hf.
rewrite (_ : derive_challenges FS (with_quotient_evals pf _) = ch) // Hf' rbind_Ok -/ch.
have rl : right_lengths S pf by have := front_goes eok (ch_theta ch) (ch_xi ch) pf sd rdy; rewrite Hf.
have cnt := counted_of rl sw.
have car : carries pf (Commitments (tp_witness_commitments pf) (tp_lookup_commitments pf) (tp_z_commitments pf) (tp_lookup_z_commitments pf)) (tp_quotient_commitments pf) by [].
have Er := vt_rots eok sd rdy cnt car Hf; rewrite -/k -Er in sq.
have cl v : occurs v (vt_oracles T) -> forall r, r \in o_rots v -> exists e, vo_query v (rot_point (dgen (s_d S)) r (ch_xi ch)) = Ok e.
  by move=> Hv; have [C _] := vt_claimed eok sd rdy cnt car Hf Hv.
(* the quotient identity *)
have [e El Es] : exists2 e, check_lhs (s_vk S) (s_ins S) (s_vos S) (dsize (s_d S)) (ch_beta ch) (ch_gamma ch) (ch_alpha ch) (ch_xi ch) T = Ok e &
   e = (\sum_(i < k) (ch_xi ch ^+ dsize (s_d S)) ^+ i * (tp_quotient_evals pf)`_i) * peval (s_zh S) (ch_xi ch).
  move: Hc; rewrite vt_checkE (sum_read _ Ech); case: (check_lhs _ _ _ _ _ _ _ _ _) => [e|//|//]; rewrite !rbind_Ok.
  by case: eqP => // E _; exists e => //; apply/eqP; rewrite -subr_eq0 E.
rewrite vt_checkE [vt_chunks (rechunk _ _)]/= (sum_read _ Ecs).
rewrite [check_lhs _ _ _ _ _ _ _ _ (rechunk _ _)](_ : _ = Ok e) ?rbind_Ok; last exact: El.
rewrite Es -mulrBl -/k.
(* the openings *)
pose os1 := vt_ws T ++ lookup_primes (vt_los T) ++ vt_lzs T.
pose os2 := vt_zs T ++ vt_fixed T ++ vt_table T ++ vt_perm T ++ [:: vt_qb T].
have pos cs : vt_oracles (rechunk cs T) = os1 ++ cs ++ os2 by rewrite /vt_oracles /os1 /os2 /= -!catA.
have posT : vt_oracles T = os1 ++ vt_chunks T ++ os2 by rewrite -pos; case: (T).
have [_ r1 r2 r3 r4] := chunks_read Ech; have [_ q1 q2 q3 q4] := chunks_read Ecs; rewrite -/k in r1 r2 q1 q2.
pose dup (o : vorc) := (o, o); pose zs := map dup os1 ++ zip (vt_chunks T) cs' ++ map dup os2.
have m1 s : map fst (map dup s) = s by elim: s => //= o s ->.
have m2 s : map snd (map dup s) = s by elim: s => //= o s ->.
have sc : size (vt_chunks T) = k by rewrite -(size_map (@o_rots _)) r2 size_nseq.
have sc' : size cs' = k by rewrite -(size_map (@o_rots _)) q2 size_nseq.
have E1 : map fst zs = vt_oracles T by rewrite posT /zs !map_cat !m1 -/(unzip1 _) unzip1_zip // sc sc'.
have E2 : map snd zs = vt_oracles (rechunk cs' T) by rewrite pos /zs !map_cat !m2 -/(unzip2 _) unzip2_zip // sc sc'.
have al o o' : occurs (o, o') zs -> [/\ o_rots o' = o_rots o, get_commitment o' = get_commitment o &
     forall r, r \in o_rots o -> exists e, vo_query o' (rot_point (dgen (s_d S)) r (ch_xi ch)) = Ok e].
  have dp s : (forall v, occurs v s -> occurs v (vt_oracles T)) -> occurs (o, o') (map dup s) ->
      [/\ o_rots o' = o_rots o, get_commitment o' = get_commitment o & forall r, r \in o_rots o -> exists e, vo_query o' (rot_point (dgen (s_d S)) r (ch_xi ch)) = Ok e].
    by move=> sub Ho; have [v Hv [-> ->]] := ProofEach.occurs_map Ho; split=> //; apply: cl; apply: sub.
  rewrite /zs => /ProofEach.occurs_cat [|/ProofEach.occurs_cat [Ho|]].
  - by apply: dp => v Hv; rewrite posT; apply/ProofEach.occurs_cat; left.
  - have [i Hi] := occurs_ex_idx Ho; have [Ha Hb] := ProofOpen.idx_zip Hi.
    have at_ (A : Type) (x0 : A) (f : vorc -> A) (s : seq vorc) v : idx s i = Ok v -> f v = nth x0 (map f s) i.
      by move=> Hv; have [Hl /(_ v) Ev] := idx_ok Hv; rewrite (nth_map v) // Ev.
    have ra := at_ _ [::] (@o_rots _) _ _ Ha; have rb := at_ _ [::] (@o_rots _) _ _ Hb; rewrite r2 in ra; rewrite q2 in rb.
    have lt : (i < k)%N by rewrite -sc; have [] := idx_ok Ha.
    rewrite nth_nseq lt in ra; rewrite nth_nseq lt in rb; rewrite ra rb; split=> //.
      by rewrite (at_ _ (Panic PUnwrap) (@get_commitment _ _) _ _ Ha) (at_ _ (Panic PUnwrap) (@get_commitment _ _) _ _ Hb) r4 q4.
    move=> r; rewrite inE => /eqP ->; rewrite /rot_point /= expr0 mulr1; apply: q3; exact: occurs_idx Hb.
  - by apply: dp => v Hv; rewrite posT; do 2! [apply/ProofEach.occurs_cat; right].
rewrite -E1 in Hm sq; rewrite -E2.
have [UX _] := claims_again eok sd al sq Hm.
have [Y N] := c78_one_equation eok sd al sq Hm; rewrite E1 E2 pos posT -/x1 -/x2 in Y N.
have kcase : (k = 0)%N \/ (0 < k)%N by case: (k); [left|right].
case: kcase => [k0|k0].
  have c0 : vt_chunks T = [::] by apply: size0nil; rewrite sc k0.
  have c0' : cs' = [::] by apply: size0nil; rewrite sc' k0.
  rewrite c0 c0' in Y N; rewrite k0 /same k0 !big_ord0 subrr mul0r eqxx; split=> // _ _.
  by rewrite E2 pos c0'; exact: Y.
have [_ nx] : uniq [seq rot_point (dgen (s_d S)) r (ch_xi ch) | r <- [:: curr]] /\ x3_of (ch_fs ch) (tp_multiopen pf) \notin [seq rot_point (dgen (s_d S)) r (ch_xi ch) | r <- [:: curr]].
  apply: UX; rewrite E1 posT !map_cat r2 !mem_cat; case: (k) k0 => // k' _; by rewrite inE eqxx orbT.
rewrite inE /= /rot_point /= expr0 mulr1 in nx.
have D := total_chunks (dgen (s_d S)) (ch_xi ch) x1 x2 (x3_of (ch_fs ch) (tp_multiopen pf)) os1 os2 r2 q2 k0.
rewrite r1 q1 !combined_sum // in D; last by have [] := chunks_read Ech.
split=> [s1 s2|ov n1 n2 nz].
  rewrite s1 subrr mul0r eqxx rbind_Ok E2 pos; apply: Y; apply/eqP; rewrite -subr_eq0 D s2 subrr mulr0 mul0r mulr0; exact: eqxx.
case: eqP => [/eqP E|//]; rewrite rbind_Ok.
rewrite mulf_eq0 pevalE (negbTE nz) orbF subr_eq0 in E; move=> Hm'; split; first by apply/esym/eqP.
case: (eqVneq (\sum_(i < k) x1 ^+ i * es'`_i) (\sum_(i < k) x1 ^+ i * (tp_quotient_evals pf)`_i)) => // ne.
case: (N ov); last by rewrite -pos -E2.
apply/eqP; rewrite -subr_eq0 D !mulf_neq0 ?expf_neq0 ?subr_eq0 // invr_eq0 subr_eq0 //.
Qed.
End Requote.

(** ** C79 *)
(** Let verify accept a proof with k quotient commitments, and let its quotient evaluations e be replaced by any others e', at least k of
    them. verify accepts again if the sums of y^i e_i and of y^i e'_i for i < k are the same for two values of y: xi^n and x1. Neither depends
    on the quotient evaluations. *)
Theorem c79_quotient_evaluations_accepted (F : fieldType) (env : fenv F) (PC : pcs F) (FS : fsrng F) (pvk : pc_vk PC)
    (S : vinput PC) (es : seq (expr F oquery)) (pf : tp_proof PC) (es' : seq F) :
  let ch := derive_challenges FS pf in let k := size (tp_quotient_commitments pf) in
  let same y := \sum_(i < k) y ^+ i * es'`_i = \sum_(i < k) y ^+ i * (tp_quotient_evals pf)`_i in
  fenv_ok env -> std_domain env (s_d S) -> verifiable S es ->
  verdict env FS pvk S pf = Ok tt ->
  size (tp_witness_commitments pf) = size (s_ws S) ->
  (size (undup (opened_rots S k)) <= size (mp_q_evals (tp_multiopen pf)))%N ->
  (k <= size es')%N ->
  same (ch_xi ch ^+ dsize (s_d S)) -> same (fs_rand (ch_fs ch)).1 ->
  verdict env FS pvk S (with_quotient_evals pf es') = Ok tt.
Proof. by move=> ch k same eok sd rdy H sw sq sk; have [A _] := requote eok sd rdy H sw sq sk. Qed.
Print Assumptions c79_quotient_evaluations_accepted.

(** It accepts no others, if the commitment scheme accepts one value for a commitment, point and opening proof, x1 and x2 are not 0 and
    xi is no root of z_h. *)
Theorem c79_quotient_evaluations_exactly (F : fieldType) (env : fenv F) (PC : pcs F) (FS : fsrng F) (pvk : pc_vk PC)
    (S : vinput PC) (es : seq (expr F oquery)) (pf : tp_proof PC) (es' : seq F) :
  let ch := derive_challenges FS pf in let k := size (tp_quotient_commitments pf) in
  let x1 := (fs_rand (ch_fs ch)).1 in let x2 := (fs_rand (fs_rand (ch_fs ch)).2).1 in
  let same y := \sum_(i < k) y ^+ i * es'`_i = \sum_(i < k) y ^+ i * (tp_quotient_evals pf)`_i in
  fenv_ok env -> std_domain env (s_d S) -> verifiable S es -> one_value pvk ->
  verdict env FS pvk S pf = Ok tt ->
  size (tp_witness_commitments pf) = size (s_ws S) ->
  (size (undup (opened_rots S k)) <= size (mp_q_evals (tp_multiopen pf)))%N ->
  x1 != 0 -> x2 != 0 -> (Poly (s_zh S)).[ch_xi ch] != 0 ->
  (k <= size es')%N ->
  verdict env FS pvk S (with_quotient_evals pf es') = Ok tt <-> same (ch_xi ch ^+ dsize (s_d S)) /\ same x1.
Proof.
move=> ch k x1 x2 same eok sd rdy ov H sw sq n1 n2 nz sk; have [A B] := requote eok sd rdy H sw sq sk.
by split=> [/(B ov n1 n2 nz)|[]].
Qed.
Print Assumptions c79_quotient_evaluations_exactly.

(** Hence an accepted proof with three or more quotient commitments is one of at least as many as there are field elements: the
    coefficients of t (X - xi^n) (X - x1) can be added to its first three quotient evaluations, for any t. *)
Theorem c79_three_quotient_evaluations (F : fieldType) (env : fenv F) (PC : pcs F) (FS : fsrng F) (pvk : pc_vk PC)
    (S : vinput PC) (es : seq (expr F oquery)) (pf : tp_proof PC) (t : F) :
  let ch := derive_challenges FS pf in let k := size (tp_quotient_commitments pf) in let x1 := (fs_rand (ch_fs ch)).1 in
  let es' := moved3 (ch_xi ch ^+ dsize (s_d S)) x1 t (tp_quotient_evals pf) in
  fenv_ok env -> std_domain env (s_d S) -> verifiable S es ->
  verdict env FS pvk S pf = Ok tt ->
  size (tp_witness_commitments pf) = size (s_ws S) ->
  (size (undup (opened_rots S k)) <= size (mp_q_evals (tp_multiopen pf)))%N ->
  (2 < k)%N ->
  verdict env FS pvk S (with_quotient_evals pf es') = Ok tt /\ (t != 0 -> take k es' <> take k (tp_quotient_evals pf)).
Proof.
move=> ch k x1 es' eok sd rdy H sw sq k2.
have szk : (k <= size (tp_quotient_evals pf))%N.
  have := H; rewrite verdictE => H1; have [T Hf _] := rbind_ok H1; by have [] := chunks_read (front_some Hf).
have [e0 [e1 [e2 [r Eq]]]] : exists e0 e1 e2 r, tp_quotient_evals pf = e0 :: e1 :: e2 :: r.
  by move: (leq_trans k2 szk); case: (tp_quotient_evals pf) => [|e0 [|e1 [|e2 r]]] // _; exists e0, e1, e2, r.
have [k' Ek] : exists k', k = k'.+3 by move: k2; case: (k) => [|[|[|k']]] // _; exists k'.
have Es : es' = e0 + t * (ch_xi ch ^+ dsize (s_d S) * x1) :: e1 - t * (ch_xi ch ^+ dsize (s_d S) + x1) :: e2 + t :: r by rewrite /es' Eq.
split; last first.
  move=> t0; rewrite Es Eq Ek /= => -[_ _ /eqP]; rewrite -subr_eq0 addrAC subrr add0r => /eqP tz; by rewrite tz eqxx in t0.
have sm y : (y - ch_xi ch ^+ dsize (s_d S)) * (y - x1) = 0 ->
    \sum_(i < k) y ^+ i * es'`_i = \sum_(i < k) y ^+ i * (tp_quotient_evals pf)`_i.
  move=> yz; rewrite Es Eq Ek !big_ord_recl /= expr0 !mul1r /bump /= !addn0 expr1 expr2; exact: three_moved.
apply: (c79_quotient_evaluations_accepted eok sd rdy H sw sq).
- by rewrite -/k -/es' Es Ek /=; move: szk; rewrite Eq Ek.
- by apply: sm; rewrite subrr mul0r.
- by apply: sm; rewrite subrr mulr0.
Qed.
Print Assumptions c79_three_quotient_evaluations.

(** ** Concrete cases *)
From Coq Require Import NArith.
From Verif Require Import Field97 Concrete ProofPC ProofConcrete ProofTools ProofCheck ProofCheck2 Run97 PropsTranscript PropsEndToEnd PropsAttack.
Local Close Scope ring_scope.

(** The accepted proof of PropsSingle.v has more than two quotient commitments; so there are as many other quotient evaluations that are
    accepted as there are field elements, and those accepted are exactly the ones with the two sums. *)
Example ex_c79 (t : F97) : verdict env97 FS97 (PC := KZG97) srs97 r_S
  (with_quotient_evals s_proof (moved3 (F := f97_fieldType) (ch_xi (derive_challenges FS97 s_proof) ^+ 8)%R (fs_rand (ch_fs (derive_challenges FS97 s_proof))).1 t (tp_quotient_evals s_proof))) = Ok tt.
Proof.
pose proof (@c79_three_quotient_evaluations F97 env97 KZG97 FS97 srs97 r_S (r_exprs r_C) s_proof t env97_ok dom97_8 r_verifiable s_accepted) as H.
have h1 : size (tp_witness_commitments s_proof) = size (s_ws r_S) by apply/eqP; vm_compute.
have h2 : size (undup (opened_rots r_S (size (tp_quotient_commitments s_proof)))) <= size (mp_q_evals (tp_multiopen s_proof)) by vm_compute.
have h3 : 2 < size (tp_quotient_commitments s_proof) by vm_compute.
exact (proj1 (H h1 h2 h3)).
Qed.
Example ex_c79_exactly (es' : seq F97) : let ch := derive_challenges FS97 s_proof in let k := size (tp_quotient_commitments s_proof) in
  let same y := (\sum_(i < k) y ^+ i * nth 0 es' i = \sum_(i < k) y ^+ i * nth 0 (tp_quotient_evals s_proof) i :> f97_fieldType)%R in
  k <= size es' ->
  (verdict env97 FS97 (PC := KZG97) srs97 r_S (with_quotient_evals s_proof es') = Ok tt <->
   same (ch_xi ch ^+ dsize (s_d r_S))%R /\ same (fs_rand (ch_fs ch)).1).
Proof.
pose proof (@c79_quotient_evaluations_exactly F97 env97 KZG97 FS97 srs97 r_S (r_exprs r_C) s_proof es' env97_ok dom97_8 r_verifiable kzg97_one s_accepted) as H.
have h1 : size (tp_witness_commitments s_proof) = size (s_ws r_S) by apply/eqP; vm_compute.
have h2 : size (undup (opened_rots r_S (size (tp_quotient_commitments s_proof)))) <= size (mp_q_evals (tp_multiopen s_proof)) by vm_compute.
have h3 : ((fs_rand (ch_fs (derive_challenges FS97 s_proof))).1 != 0)%R by vm_compute.
have h4 : ((fs_rand (fs_rand (ch_fs (derive_challenges FS97 s_proof))).2).1 != 0)%R by vm_compute.
have h5 : ((Poly (s_zh r_S)).[ch_xi (derive_challenges FS97 s_proof)] != 0)%R by rewrite -pevalE; vm_compute.
exact (H h1 h2 h3 h4 h5).
Qed.
