(** Boolean checks of the hypotheses of the end-to-end theorems, for concrete circuits. *)
From mathcomp Require Import all_ssreflect all_algebra.
From Verif Require Import Base ModelPoly ModelVO ModelOracle ModelPC ModelPermutation ModelIndexer ModelMultiproof ModelProtocol
  Spec SpecProtocol SpecPIOP SpecMultiopen SpecCircuit ProofBase ProofPoly ProofDomain ProofPermutation ProofEach.

Set Implicit Arguments.
Unset Strict Implicit.
Unset Printing Implicit Defensive.

Import GRing.Theory.
Local Open Scope ring_scope.

Lemma all_occurs A (p : pred A) (s : seq A) x : all p s -> occurs x s -> p x.
Proof. by elim: s => //= a s IH /andP[Ha Hs] [->|/(IH Hs)]. Qed.

Section Check.
Variables (F : fieldType) (C : circuit F).
Let n := c_rows C.
Definition interpolatesb (o : poracle F) : bool := (size (po_evals o) == n) && (po_poly o == ptrim (ifft (c_d C) (po_evals o))).
Definition rots_belowb (os : seq (poracle F)) : bool := all (fun o => all (fun r : rotation => (r.1 < n)%N) (o_rots o)) os.
Definition laid_outb : bool :=
  [&& (1 < n)%N, all interpolatesb (c_ws C ++ c_ins C ++ c_fs C ++ c_ts C ++ c_sigmas C ++ [:: c_qb C]),
   [&& uniq (map (@o_label _) (c_ws C)), uniq (map (@o_label _) (c_ins C)), uniq (map (@o_label _) (c_fs C)) & uniq (map (@o_label _) (c_ts C))],
   [&& rots_belowb (c_ws C), rots_belowb (c_fs C) & rots_belowb (c_ts C)],
   all (fun o => all (fun r => r == curr) (o_rots o)) (c_sigmas C ++ [:: c_qb C]),
   all (fun o => curr \in o_rots o) (copied (c_ws C)) &
   ~~ c_arguments C || all (fun i => (po_evals (c_qb C))`_i == (pi_u (c_info C) < i)%N%:R) (iota 0 n)].
Lemma rots_belowP os : rots_belowb os -> rots_below os n.
Proof. by move=> H j o Ho r Hr; have /allP := all_occurs H (occurs_idx Ho); apply. Qed.
Lemma laid_outP : laid_outb -> laid_out C.
Proof.
case/and5P => n1 Hi /and4P[u1 u2 u3 u4] /and3P[r1 r2 r3] /and3P[Hf Hc Hb]; split=> //.
- by move=> o /(all_occurs Hi) /andP[/eqP E1 /eqP E2].
- by split; apply: rots_belowP.
- by move=> o r /(all_occurs Hf) /allP H /H /eqP.
- by move=> o /(all_occurs Hc).
- move=> ar i Hi'; move: Hb; rewrite ar orFb => Hb; have /allP/(_ i) := Hb; rewrite mem_iota add0n => /(_ Hi') /eqP -> //.
Qed.

Definition exprsb (es : seq (expr F oquery)) : bool :=
  all (fun e => all (fun q => query_ok (c_ws C) (c_ins C) (c_fs C) n q && declared (c_ws C) (c_fs C) q) (leaves e)) es.
Lemma exprsP es : exprsb es -> exprs_ok (c_ws C) (c_ins C) (c_fs C) n es /\ exprs_declared (c_ws C) (c_fs C) es.
Proof. by move=> H; split=> e q He Hq; have /andP[] := all_occurs (all_occurs H He) Hq. Qed.

Definition lookup_okb (N : nat) (l : generic_lookup_vo F) : bool :=
  if gl_get_expressions l is Ok es then
  if gl_get_table_queries l is Ok tqs then
  [&& exprsb es,
   all (fun q => [&& oq_type q == Fixed, oq_label q \in map (@o_label _) (c_ts C) & declares (c_ts C) (OQuery (oq_label q) curr Fixed)]) tqs,
   all (fun e => all (fun q => (oq_type q == Witness) || (oq_rot q == curr)) (leaves e)) es &
   all (fun e => (expr_degree n.-1 e < N)%N) es] else false else false.
Lemma lookup_okP N l : lookup_okb N l -> lookup_ok C N l.
Proof.
rewrite /lookup_okb; case E1: (gl_get_expressions l) => [es|//|//]; case E2: (gl_get_table_queries l) => [tqs|//|//].
case/and4P => /exprsP He Ht Hr Hd; exists es, tqs; split=> //.
- by split=> q /(all_occurs Ht) /and3P[/eqP].
- split=> [e q He' Hq Hw|e]; last exact: (all_occurs Hd).
  by have /orP[/eqP//|/eqP] := all_occurs (all_occurs Hr He') Hq.
Qed.
Definition lookups_okb (N : nat) : bool :=
  all (lookup_okb N) (c_lookups C) && (nilp (c_lookups C) || [&& pi_u (c_info C) == c_u C, (0 < c_u C)%N & (c_u C < n)%N]).
Lemma lookups_okP N : lookups_okb N -> lookups_ok C N.
Proof. case/andP => H H2; split=> [l /(all_occurs H) /lookup_okP //|nn]; by move: H2; rewrite (negbTE nn) => /and3P[/eqP E h1 h2]. Qed.

Definition satisfiedb (es : seq (expr F oquery)) (rows : seq nat) : bool :=
  all (fun e => all (fun i => meaning (row_value (c_ws C) (c_ins C) (c_fs C) n i) e == 0) rows) es.
Lemma satisfiedP es rows : satisfiedb es rows -> satisfied C es rows.
Proof. by move=> H e i He Hi; have /allP/(_ i Hi)/eqP := all_occurs H He. Qed.

Definition quotient_roomb (es : seq (expr F oquery)) (m k N : nat) : bool :=
  [&& all (fun e => (expr_degree n.-1 e < m + N)%N) es, (k.+2 * n.-1 < m + N)%N & (4 * n.-1 < m + N)%N].
Lemma quotient_roomP es m k N : quotient_roomb es m k N -> quotient_room C es m k N.
Proof. by case/and3P => H h1 h2; split=> // e; exact: (all_occurs H). Qed.

(** z_h = X^n - 1. *)
Lemma vanishes_everywhere N : domain_ok (c_d C) -> Poly (c_zh C) = 'X^n - 1 -> vanishes_on C (iota 0 n) N.
Proof.
move=> dok E; split; [exact: iota_uniq|by move=> i; rewrite mem_iota| |by right].
by exists 1; [exact: oner_neq0|rewrite scale1r E vanishing_prod // big_map].
Qed.

(** No rotation of xi is x3 when their n-th powers differ. *)
Lemma x3_clear (xi x3 : F) : domain_ok (c_d C) -> xi ^+ n != x3 ^+ n -> forall r, rot_point (dgen (c_d C)) r xi != x3.
Proof.
move=> dok /eqP H r; apply/eqP => E; apply: H; rewrite -E /rot_point; case: ifP => _; rewrite exprMn ?exprVn exprAC (dgen_exp dok) expr1n ?invr1 mulr1 //.
Qed.

(** The verifier's copy made by committing without hiding. *)
Variables (PC : pcs F) (ck : pc_ck PC) (fix_ : poracle F -> voracle F (pc_com PC)).
Hypothesis fixE : forall o, o_label (fix_ o) = o_label o /\ o_rots (fix_ o) = o_rots o.
Lemma publishes_map os :
  (forall o, occurs o os -> exists2 c, get_commitment (fix_ o) = Ok c & pc_commit1 ck (po_poly o) (pc_empty PC) = Ok c) ->
  publishes ck (map fix_ os) os.
Proof.
move=> H; split; first by rewrite /mirrors -map_comp; apply: eq_map => o /=; case: (fixE o) => -> ->.
move=> j v p Hv Hp; have [p' Hp' ->] := idx_map_inv Hv; move: Hp'; rewrite Hp => -[<-]; exact: H (occurs_idx Hp).
Qed.
End Check.
