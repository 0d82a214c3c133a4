(** Property theorems C50 (the mock prover), C52 (the length assertion in prove) and C54 (what
    cumulative_info reports). The vocabulary is in Spec.v, SpecProtocol.v and SpecProver.v; the
    proofs are in ProofMock.v and ProofCounts.v. *)
From mathcomp Require Import all_ssreflect all_algebra zify.
From Verif Require Import Base ModelPoly ModelVO ModelOracle ModelPC ModelPermutation ModelLookup ModelIndexer ModelMultiproof ModelProtocol
  Spec SpecProtocol SpecMultiopen SpecTranscript SpecProver ProofBase ProofPoly ProofDomain ProofVO ProofOracle ProofProver ProofMock ProofCounts.

Set Implicit Arguments.
Unset Strict Implicit.
Unset Printing Implicit Defensive.

Import GRing.Theory.
Local Open Scope ring_scope.

(** ** C50 *)
(** Columns of [d] rows with distinct labels. *)
Definition mock_columns (F : fieldType) (d : domain F) (os : seq (poracle F)) : Prop :=
  uniq (map (@o_label _) os) /\ forall o, occurs o os -> interpolates d o.

(** The value of the k-th expression on row i, read off the columns. *)
Definition vo_row_value (F : fieldType) (ws ins fs : seq (poracle F)) (n : nat) (es : seq (expr F oquery)) (i k : nat) : F :=
  meaning (row_value ws ins fs n i) (nth (Const 0) es k).

Theorem c50_mock_accepts_iff (F : fieldType) (env : fenv F) (PC : pcs F) (pre : prover_pre PC) (ws ins : seq (poracle F))
    (vos : seq (generic_vo F)) (es : seq (expr F oquery)) (n : nat) (d : domain F) :
  fenv_ok env -> domain_new env n = Some d ->
  mock_columns d ws -> mock_columns d ins -> mock_columns d (pp_fixed pre) ->
  map (@gv_get_expression F) vos = map Ok es -> exprs_ok ws ins (pp_fixed pre) (dsize d) es ->
  mock_prove env pre ws ins vos n = Ok tt <->
  forall i k, (i < dsize d)%N -> (k < size es)%N -> vo_row_value ws ins (pp_fixed pre) (dsize d) es i k = 0.
Proof.
move=> eok Hd okw oki okf Hes Hq.
case: (mock_proveE eok Hd okw oki okf Hes Hq) => [[E H]|[i [k [E Hi Hk nz _]]]]; first by split.
by rewrite E; split=> // H; case: nz; apply: H.
Qed.
Print Assumptions c50_mock_accepts_iff.

(** Otherwise it panics, naming the first row on which some expression is not zero and, on that
    row, the first such expression. *)
Theorem c50_mock_first_failure (F : fieldType) (env : fenv F) (PC : pcs F) (pre : prover_pre PC) (ws ins : seq (poracle F))
    (vos : seq (generic_vo F)) (es : seq (expr F oquery)) (n : nat) (d : domain F) (i k : nat) :
  fenv_ok env -> domain_new env n = Some d ->
  mock_columns d ws -> mock_columns d ins -> mock_columns d (pp_fixed pre) ->
  map (@gv_get_expression F) vos = map Ok es -> exprs_ok ws ins (pp_fixed pre) (dsize d) es ->
  let value := vo_row_value ws ins (pp_fixed pre) (dsize d) es in
  mock_prove env pre ws ins vos n = Panic (PMock k i) <->
  [/\ (i < dsize d)%N, (k < size es)%N, value i k <> 0,
      forall i' k', (i' < i)%N -> (k' < size es)%N -> value i' k' = 0 &
      forall k', (k' < k)%N -> value i k' = 0].
Proof.
move=> eok Hd okw oki okf Hes Hq value.
case: (mock_proveE eok Hd okw oki okf Hes Hq) => [[E H]|[i1 [k1 [E Hi1 Hk1 nz1 H1]]]].
  by rewrite E; split=> // -[Hi Hk nz _ _]; case: nz; apply: H.
rewrite E; split=> [[<- <-]|[Hi Hk nz H2 H3]].
  split=> // [i' k' Hi' Hk'|k' Hk']; apply: H1 => //; [by left|exact: ltn_trans Hk' Hk1|by right].
have [lt|gt|Ei] := ltngtP i i1.
- by case: nz; apply: H1 => //; left.
- by case: nz1; apply: H2.
have [lt|gt|Ek] := ltngtP k k1; last by rewrite Ei Ek.
  by case: nz; apply: H1 => //; right.
by case: nz1; rewrite -Ei; apply: H3.
Qed.
Print Assumptions c50_mock_first_failure.

(** Copy constraints and lookups play no part: of the preprocessed input only the selector columns
    are read, not the permutation, the tables or the blinding selector (the index information, with
    the lookups, is not read at all), and the verdict is the same whatever columns are marked as
    copied. *)
Definition mark_copied (F : fieldType) (m : bool) (o : poracle F) : poracle F :=
  Oracle (o_label o) (o_rots o) (PData (pd_kind (o_data o)) (pd_poly (o_data o)) (pd_evals (o_data o)) (pd_coset (o_data o)) m).
Theorem c50_no_copy_no_lookup (F : fieldType) (env : fenv F) (PC : pcs F) (pre pre' : prover_pre PC) (ws ins : seq (poracle F))
    (vos : seq (generic_vo F)) (n : nat) (m : poracle F -> bool) :
  pp_fixed pre = pp_fixed pre' ->
  mock_prove env pre ws ins vos n = mock_prove env pre' [seq mark_copied (m o) o | o <- ws] ins vos n.
Proof.
move=> Ef; rewrite /mock_prove; case: (domain_new env n) => //= d.
apply: eq_rfoldM => _ ro; apply: eq_rfoldM => _ kv.
case: (res_unwrap _ _) => //= e; congr rbind; apply: eq_eval_res => q _.
rewrite /mock_leaf; case: (compute_evaluation_point _ _ _) => //= p; congr res_unwrap.
rewrite /query_leaf Ef; case: (oq_type q) => //; rewrite /resolve -map_comp.
rewrite (_ : map _ ws = map (@o_label _) ws) //; case: (label_index _ _) => //= j.
by rewrite idx_map; case: (idx ws j).
Qed.
Print Assumptions c50_no_copy_no_lookup.

Theorem c50_mock_verify : mock_verify = Ok tt.
Proof. by []. Qed.
Print Assumptions c50_mock_verify.

(** ** C52 *)
(** prove behaves as if the comparison of the two lengths were not there: for every input built
    by ProverPreprocessedInput::new the two programs have the same outcome. *)
Theorem c52_length_assertion_silent (F : fieldType) (env : fenv F) (PC : pcs F) (FS : fsrng F) (ck : pc_ck PC) (vk : verifier_key F)
    (fixed perm table : seq (poracle F)) (q_blind : poracle F) (ix : index_info F)
    (ws ins : seq (poracle F)) (vos : seq (generic_vo F)) (n : nat) (zk : pc_zk PC) :
  let pre := prover_pre_new env PC fixed perm table q_blind ix in
  tp_prove env FS ck vk pre ws ins vos n zk = tp_prove_unasserted env FS ck vk pre ws ins vos n zk.
Proof. exact: unassertedE. Qed.
Print Assumptions c52_length_assertion_silent.

(** The preprocessed input is the only thing that matters: with a randomness value missing from
    it, the assertion does fire in every run that reaches it. *)
Theorem c52_assertion_can_fire (F : fieldType) (env : fenv F) (PC : pcs F) (FS : fsrng F) (ck : pc_ck PC) (vk : verifier_key F)
    (pre : prover_pre PC) (ws ins : seq (poracle F)) (vos : seq (generic_vo F)) (n : nat) (zk : pc_zk PC) :
  size (pp_empty_rands pre) <> (size (pp_fixed pre) + size (pp_table pre) + size (pp_perm pre)).+1%N ->
  ~ is_ok (tp_prove env FS ck vk pre ws ins vos n zk).
Proof.
move=> ne; case E: (tp_prove _ _ _ _ _ _ _ _ _ _) => [[pf zk']|//|//] _; apply: ne.
have [T [H _]] := prover_inv E; have := pt_size H.
have [_ w] := commit_all_size (pt_w H); have [_ l] := commit_all_size (pt_l H).
have [_ z] := commit_all_size (pt_z H); have [_ lz] := commit_all_size (pt_lz H); have [_ q] := commit_all_size (pt_q H).
rewrite /t_oracles /t_rands !size_cat w l z lz q !size_labeled /=; lia.
Qed.
Print Assumptions c52_assertion_can_fire.

(** ** C54 *)
Theorem c54_cumulative_info (F : fieldType) (PC : pcs F) (pf : tp_proof PC) :
  cumulative_info pf = (size (proof_commitments pf), size (proof_evals pf)).
Proof. by rewrite /cumulative_info /proof_commitments /proof_evals !size_cat /=; congr pair; lia. Qed.
Print Assumptions c54_cumulative_info.

(** How many commitments a proof returned by prove contains: one per witness column, three per
    lookup, one per aggregation polynomial (the number nz of groups of at most pa_max_cols copied
    columns), one per quotient chunk (the number nq of pieces of n coefficients covering the
    extended domain), and one for the multi-opening. *)
Theorem c54_prover_commitments (F : fieldType) (env : fenv F) (PC : pcs F) (FS : fsrng F) (ck : pc_ck PC) (vk : verifier_key F)
    (pre : prover_pre PC) (ws ins : seq (poracle F)) (vos : seq (generic_vo F)) (n : nat) (zk zk' : pc_zk PC) (pf : tp_proof PC) :
  tp_prove env FS ck vk pre ws ins vos n zk = Ok (pf, zk') ->
  let copied := size [seq o <- ws | pd_permute (o_data o)] in
  let m := pa_max_cols (ix_perm (vk_index vk)) in
  let N := dsize (ix_ext (vk_index vk)) in
  exists nz nq d,
    [/\ domain_new env n = Some d, (0 < dsize d)%N, (N <= nq * dsize d < N + dsize d)%N,
        (copied == 0%N) && (nz == 0%N) || (copied <= nz * m < copied + m)%N &
        (cumulative_info pf).1 = (size ws + 3 * size (ix_lookups (vk_index vk)) + nz + nq + 1)%N].
Proof.
move=> /prover_inv[T [H _]] copied m N.
have [[E1 E2 E3 E4 E5] _] := trace_counts H.
have [d0 Hq] := quotient_round_size (pt_chunks H).
exists (size (t_zs T)), (size (t_chunks T)), (t_d T); split=> //; first exact: pt_d H.
  have Ec : size (oracles_to_copy (ws_ext env vk ws)) = copied.
    rewrite /oracles_to_copy /ws_ext /copied filter_map size_map; congr size; exact: eq_filter.
  case: (permutation_round_size (pt_zs H)) => [[E ->]|[_ _]]; last by rewrite Ec -/m => ->; rewrite orbT.
  by rewrite -Ec E.
rewrite /cumulative_info /= E1 E2 E3 E4 E5; lia.
Qed.
Print Assumptions c54_prover_commitments.

(** ** Concrete cases *)
From Coq Require Import NArith String.
From Verif Require Import Field97 Concrete ProofConcrete ProofTools Run97 PropsTranscript.
Local Close Scope ring_scope.

Definition mock_columnsb (os : seq (poracle F97)) : bool :=
  uniq (map (@o_label _) os) && all (fun o => (size (po_evals o) == 8) && (po_poly o == ptrim (ifft r_d (po_evals o)))) os.
Lemma mock_columnsP os : mock_columnsb os -> mock_columns r_d os.
Proof.
rewrite /mock_columnsb /mock_columns => /andP[Hu H]; split=> // o.
elim: os {Hu} H => //= a os IH /andP[/andP[/eqP H1 /eqP H2] H] [->|]; last exact: IH.
by split=> //; rewrite H1.
Qed.

(** The circuit of Run97.v meets the hypotheses; the mock prover accepts it. *)
Definition r_es : seq (expr F97 oquery) := [seq ok_or (Const 0%R) (gv_get_expression vo) | vo <- r_vos].
Lemma exprs_okP (F : fieldType) (ws ins fs : seq (poracle F)) n (es : seq (expr F oquery)) :
  all (fun e => all (query_ok ws ins fs n) (leaves e)) es -> exprs_ok ws ins fs n es.
Proof.
move=> H e q He Hq.
have {}H : all (query_ok ws ins fs n) (leaves e) by elim: es H He => //= e' es IH /andP[H1 H2] [->|]; last exact: IH.
by elim: (leaves e) H Hq => //= q' qs IH' /andP[H3 H4] [->|]; last exact: IH'.
Qed.
Example ex_c50 : [/\ mock_columns r_d r_ws, mock_columns r_d r_ins, mock_columns r_d (pp_fixed r_pre),
    map (@gv_get_expression F97) r_vos = map Ok r_es & exprs_ok r_ws r_ins (pp_fixed r_pre) (dsize r_d) r_es] /\
  domain_new env97 8 = Some r_d /\ mock_prove env97 r_pre r_ws r_ins r_vos 8 = Ok tt.
Proof.
split; last by split; [by []|apply: ok_isP; vm_compute].
split; [by apply: mock_columnsP; vm_compute|by apply: mock_columnsP; vm_compute|by apply: mock_columnsP; vm_compute| |].
  by vm_compute.
by apply: exprs_okP; vm_compute.
Qed.

(** With 83 and 19 in the public input column instead of 82 and 0 the first failure is that of the
    arithmetic gate on row 2. *)
Example ex_c50_first : mock_prove env97 r_pre r_ws r_ins' r_vos 8 = Panic (PMock 0 2).
Proof. by vm_compute. Qed.

(** A witness with 50 instead of 2 in row 0 of column d, which violates the copy constraint between
    that cell and row 2 of b, and the lookup on row 0, is accepted by the mock prover; prove itself
    rejects it. *)
Definition r_bad_w : seq (poracle F97) :=
  [seq if o_label o == "d"%string
       then Oracle (o_label o) (o_rots o) (o_data (porc Witness 8 "d" (col [:: 50; 2; 4; 5; 1; 2; 77; 4]) true)) else o | o <- r_ws].
Example ex_c50_copy : mock_prove env97 r_pre r_bad_w r_ins r_vos 8 = Ok tt /\
  ~~ is_ok (tp_prove env97 (PC := KZG97) FS97 srs97 r_vk r_pre r_bad_w r_ins r_vos 8 11%num).
Proof. by split; [apply: ok_isP; vm_compute|vm_compute]. Qed.

(** The run of Run97.v reaches the assertion of C52 with 29 oracles on both sides. *)
Example ex_c52 : ok_any (tp_prove_unasserted env97 (PC := KZG97) FS97 srs97 r_vk r_pre r_ws r_ins r_vos 8 11%num) /\
  r_pre = prover_pre_new env97 KZG97 r_fs r_sigma r_ts r_qblind (vk_index r_vk).
Proof. by split; first by vm_compute. Qed.
Example ex_c52_fires :
  let pre := ProverPre (PC := KZG97) (pp_fixed r_pre) (pp_perm r_pre) (pp_table r_pre) (pp_q_blind r_pre) (behead (pp_empty_rands r_pre)) in
  panics PAssert (tp_prove env97 (PC := KZG97) FS97 srs97 r_vk pre r_ws r_ins r_vos 8 11%num).
Proof. by vm_compute. Qed.

(** Its proof has 14 commitments (4 witness columns, 3 for the lookup, 2 aggregation polynomials,
    4 quotient chunks, 1 for the multi-opening) and 37 evaluations. *)
Example ex_c54 : [/\ cumulative_info r_proof == (14, 37), size r_ws == 4, size (ix_lookups (vk_index r_vk)) == 1,
  pa_max_cols (ix_perm (vk_index r_vk)) == 3 & dsize (ix_ext (vk_index r_vk)) == 32].
Proof. by split; vm_compute. Qed.
