(** A boolean check of [verifiable], for concrete circuits, and computable columns for the scheme whose commitments
    are the polynomials. *)
From mathcomp Require Import all_ssreflect all_algebra.
From Verif Require Import Base ModelPoly ModelVO ModelOracle ModelPC ModelPermutation ModelIndexer ModelMultiproof ModelProtocol
  Spec SpecProtocol SpecPIOP SpecMultiopen SpecCircuit SpecSound ProofBase ProofPoly ProofVO ProofPermutation ProofEach ProofCheck.

Set Implicit Arguments.
Unset Strict Implicit.
Unset Printing Implicit Defensive.

Section Check.
Variables (F : fieldType) (PC : pcs F) (S : vinput PC).
Let n := dsize (s_d S).
Let pre := s_pre S.
Definition vexprsb (es : seq (expr F oquery)) : bool :=
  all (fun e => all (fun q => query_ok (s_ws S) (s_ins S) (vp_fixed pre) n q && declared (s_ws S) (vp_fixed pre) q) (leaves e)) es.
Lemma vexprsP es : vexprsb es -> exprs_ok (s_ws S) (s_ins S) (vp_fixed pre) n es /\ exprs_declared (s_ws S) (vp_fixed pre) es.
Proof. by move=> H; split=> e q He Hq; have /andP[] := all_occurs (all_occurs H He) Hq. Qed.
Definition readableb (l : generic_lookup_vo F) : bool :=
  if gl_get_expressions l is Ok es then
  if gl_get_table_queries l is Ok tqs then
  [&& size es == size tqs, vexprsb es,
   all (fun q => [&& oq_type q == Fixed, oq_label q \in map (@o_label _) (vp_table pre) & declares (vp_table pre) (OQuery (oq_label q) curr Fixed)]) tqs &
   all (fun e => all (fun q => (oq_type q == Witness) || (oq_rot q == curr)) (leaves e)) es] else false else false.
Lemma readableP l : readableb l -> readable S l.
Proof.
rewrite /readableb; case E1: (gl_get_expressions l) => [es|//|//]; case E2: (gl_get_table_queries l) => [tqs|//|//].
case/and4P => /eqP sz /vexprsP He Ht Hr; exists es, tqs; split=> //; split.
- by move=> q /(all_occurs Ht) /and3P[/eqP].
- by move=> q /(all_occurs Ht) /and3P[].
- by move=> e q He' Hq Hw; have /orP[/eqP//|/eqP] := all_occurs (all_occurs Hr He') Hq.
Qed.
Definition vrotsb (os : seq (voracle F (pc_com PC))) : bool := all (fun o => all (fun r : rotation => (r.1 < n)%N) (o_rots o)) os.
Lemma vrotsP os : vrotsb os -> rots_below os n.
Proof. by move=> H j o Ho r Hr; have /allP := all_occurs H (occurs_idx Ho); apply. Qed.
Definition ncopied : nat := size [seq v <- s_ws S | vd_permute (o_data v)].
(** All conditions but the one on the gates' expressions. *)
Definition verifiableb : bool :=
  [&& [&& uniq (map (@o_label _) (s_ws S)), uniq (map (@o_label _) (s_ins S)), uniq (map (@o_label _) (vp_fixed pre)) & uniq (map (@o_label _) (vp_table pre))],
   [&& vrotsb (s_ws S), vrotsb (vp_fixed pre) & vrotsb (vp_table pre)],
   all (fun v => o_rots v == [:: curr]) (vp_perm pre ++ [:: vp_q_blind pre]),
   all (fun v => ~~ vd_permute (o_data v) || (curr \in o_rots v)) (s_ws S) &
   [&& all (fun v => if get_commitment v is Ok _ then true else false) (vp_fixed pre ++ vp_table pre ++ vp_perm pre ++ [:: vp_q_blind pre]),
    all readableb (s_lookups S), (1 < n)%N && (pa_usable_rows (s_perm S) < n)%N,
    (ncopied == 0%N) || [&& (0 < pa_max_cols (s_perm S))%N, size (vp_perm pre) == ncopied & size (pa_deltas (s_perm S)) == ncopied] &
    [|| (0 < pa_usable_rows (s_perm S))%N, ncopied == 0%N | nilp (s_lookups S)]]].
Lemma verifiableP es : verifiableb -> (0 < size (s_vos S))%N -> map (@gv_get_expression F) (s_vos S) = map Ok es -> vexprsb es -> verifiable S es.
Proof.
case/and5P => /and4P[u1 u2 u3 u4] /and3P[r1 r2 r3] fl cp /and5P[co lo /andP[n1 un] pe us] k0 ev /vexprsP [eok dec]; split=> //.
- by split; apply: vrotsP.
- by move=> v /(all_occurs fl) /eqP.
- by move=> v /(all_occurs cp) /orP[/negP|].
- by move=> v /(all_occurs co); case: (get_commitment v) => // c _; exists c.
- by move=> l /(all_occurs lo) /readableP.
- by move=> K K0; move: pe; rewrite /ncopied -/K => /orP[/eqP//|/and3P[h /eqP h2 /eqP h3]].
- by case/or3P: us => [h|/nilP h|/nilP h]; [apply: Or31|apply: Or32|apply: Or33].
Qed.
End Check.

(** When a commitment is the polynomial itself, what it binds to can be computed. *)
Section Plain.
Variables (F : fieldType) (Z : Type) (zk_rand : Z -> F * Z) (cbytes : lpoly F -> bytes) (fbytes : F -> bytes).
Notation PL := (plain zk_rand cbytes fbytes).
Variable d : domain F.
Notation com := (pc_com PL).
Definition raw (v : voracle F com) : poracle F :=
  column d (o_label v) (o_rots v) (ok_or (pc_zero PL) (get_commitment v)) (vd_permute (o_data v)).
Notation cmt := (committed (PC := PL) (@Poly F) d).
Lemma raw_evals v : po_evals (cmt v) = po_evals (raw v).
Proof. by apply: eq_map => i; rewrite !pevalE polyseqK. Qed.
Lemma raw_column vs l : column_named (map cmt vs) l = column_named (map raw vs) l.
Proof. by rewrite /column_named /named; elim: vs => //= v vs IH; case: ifP => //= _; exact: raw_evals. Qed.
Lemma raw_cell vs j i : cell_value (map cmt vs) j i = cell_value (map raw vs) j i.
Proof. by rewrite /cell_value !idx_map; case: (idx vs j) => //= v; rewrite -raw_evals. Qed.
Lemma raw_copied vs : copied (map cmt vs) = map cmt [seq v <- vs | vd_permute (o_data v)].
Proof. by rewrite /copied filter_map. Qed.
Lemma raw_copied2 vs : copied (map raw vs) = map raw [seq v <- vs | vd_permute (o_data v)].
Proof. by rewrite /copied filter_map. Qed.
Lemma raw_copied_cell vs j i : cell_value (copied (map cmt vs)) j i = cell_value (copied (map raw vs)) j i.
Proof. by rewrite raw_copied raw_copied2 raw_cell. Qed.
Lemma raw_row ws ins fs n i q : row_value (map cmt ws) ins (map cmt fs) n i q = row_value (map raw ws) ins (map raw fs) n i q.
Proof. by rewrite /row_value /oracles_of; case: (oq_type q); rewrite /by_kind ?raw_column. Qed.
Lemma raw_meaning ws ins fs n i e :
  meaning (row_value (map cmt ws) ins (map cmt fs) n i) e = meaning (row_value (map raw ws) ins (map raw fs) n i) e.
Proof. by apply: eq_meaning => q _; exact: raw_row. Qed.
Lemma raw_tuple ws ins fs n i es : [seq meaning (row_value (map cmt ws) ins (map cmt fs) n i) e | e <- es] =
  [seq meaning (row_value (map raw ws) ins (map raw fs) n i) e | e <- es].
Proof. by apply: eq_map => e; exact: raw_meaning. Qed.
Lemma raw_table ts (qs : seq oquery) i : [seq nth 0%R (column_named (map cmt ts) (oq_label q)) i | q <- qs] =
  [seq nth 0%R (column_named (map raw ts) (oq_label q)) i | q <- qs].
Proof. by apply: eq_map => q; rewrite raw_column. Qed.
End Plain.
