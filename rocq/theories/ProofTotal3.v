(** The verdict on an arbitrary proof of the right lengths, and a proof for anything. *)
From mathcomp Require Import all_ssreflect all_algebra.
From mathcomp Require Import zify.
From Coq Require Import String.
From Verif Require Import Base ModelPoly ModelVO ModelOracle ModelPC ModelPermutation
  ModelLookup ModelIndexer ModelMultiproof ModelProtocol Spec SpecProtocol SpecPIOP SpecMultiopen SpecCircuit SpecSound SpecShape
  ProofBase ProofPoly ProofDomain ProofEach ProofOracle ProofLookup ProofPermutation ProofPermArg ProofIndexer ProofOpen ProofPIOP ProofPIOP2 ProofPIOP3 ProofColumns
  ProofVerifierCols ProofProver ProofFront ProofCounts ProofRounds ProofMultiopen ProofMultiopen2 ProofMultiopen3 ProofHonest ProofComplete ProofSound ProofShape ProofTotal ProofTotal2.

Set Implicit Arguments.
Unset Strict Implicit.
Unset Printing Implicit Defensive.

Import GRing.Theory.
Local Open Scope ring_scope.

Lemma occurs_in_map (A : Type) (B : eqType) (f : A -> B) s x : occurs x s -> f x \in map f s.
Proof. by elim: s => //= y s IH [->|/IH H]; rewrite inE ?eqxx // H orbT. Qed.

Section Any.
Variables (F : fieldType) (env : fenv F).
Hypothesis eok : fenv_ok env.
Variables (PC : pcs F) (S : vinput PC) (es : seq (expr F oquery)).
Let d := s_d S.
Let n := dsize d.
Let w := dgen d.
Let pre := s_pre S.
Let u := pa_usable_rows (s_perm S).
Hypothesis sd : std_domain env d.
Hypothesis rdy : verifiable S es.
Let dok : domain_ok d := std_domain_ok eok sd.

Lemma opened_below nq rs r : rs \in opened_rots S nq -> r \in rs -> (r.1 < n)%N.
Proof.
have [n1 un] := rd_rows rdy; have n0 : (0 < n)%N by exact: ltnW.
have below (vs : seq (voracle F (pc_com PC))) : rots_below vs n -> rs \in map (@o_rots _) vs -> r \in rs -> (r.1 < n)%N.
  by move=> H Hrs Hr; have [v Hv E] := in_map_occurs Hrs; have [j Hj] := occurs_ex_idx Hv; apply: (H j v Hj); rewrite -E.
have two a : a \in [:: curr; next] -> (a.1 < n)%N by rewrite !inE => /orP[]/eqP->.
have [bw bf bt] := rd_rots rdy.
rewrite /opened_rots; cbv zeta; rewrite !mem_cat !map_cat !mem_cat.
case/orP; first exact: below. case/orP.
  by move=> /flattenP [s /in_map_occurs [l _ ->]]; rewrite !inE => /orP[]/eqP->; rewrite !inE; [case/orP|] => /eqP ->.
case/orP; first by move=> /in_map_occurs [l _ ->]; exact: two.
case/orP; first by rewrite mem_nseq => /andP[_ /eqP ->]; rewrite inE => /eqP ->.
case/orP.
  move=> /mapP [k _ ->]; case: ifP => _; last exact: two.
  by rewrite mem_sinsert inE => /orP[/eqP -> //|]; exact: two.
case/orP; first exact: below. case/orP; first exact: below.
have flat : rs \in map (@o_rots _) (vp_perm pre ++ [:: vp_q_blind pre]) -> r \in rs -> (r.1 < n)%N.
  by move=> /in_map_occurs [v Hv ->]; rewrite (rd_flat rdy Hv) inE => /eqP ->.
by move=> H; apply: flat; rewrite map_cat mem_cat.
Qed.

Section Front.
Variables (cm : commitments PC) (Q : seq (pc_com PC)) (theta xi : F) (pf : tp_proof PC) (VT : vtrace PC).
Hypothesis cnt : well_counted S cm.
Hypothesis car : carries pf cm Q.
Hypothesis fr : verify_front env (s_vk S) pre pf (s_ws S) (s_ins S) n theta xi = Ok VT.
Lemma all_well_claimed : (forall rs, rs \in opened_rots S (size Q) -> uniq [seq rot_point w r xi | r <- rs]) ->
  forall v, occurs v (vt_oracles VT) -> well_claimed d xi v.
Proof.
move=> U v Hv; have Hr : o_rots v \in opened_rots S (size Q) by rewrite -(vt_rots eok sd rdy cnt car fr); exact: occurs_in_map.
have [cl [c Hc _]] := vt_claimed eok sd rdy cnt car fr Hv; split=> //; first by exists c.
- by apply/allP => r; exact: opened_below Hr.
- exact: U.
Qed.
End Front.

Lemma counted_of pf : right_lengths S pf -> size (tp_witness_commitments pf) = size (s_ws S) ->
  well_counted S (Commitments (tp_witness_commitments pf) (tp_lookup_commitments pf) (tp_z_commitments pf) (tp_lookup_z_commitments pf)).
Proof.
rewrite /right_lengths /product_count; cbv zeta => /and5P[_ _ _ _ /and5P[_ /eqP sl _ /eqP slz /andP[_ /andP[/eqP sz _]]]] sw.
by split.
Qed.

Section Verdict.
Variables (FS : fsrng F) (pvk : pc_vk PC).
Lemma verdictE pf : let ch := derive_challenges FS pf in
  verdict env FS pvk S pf =
  (T <- verify_front env (s_vk S) pre pf (s_ws S) (s_ins S) n (ch_theta ch) (ch_xi ch) ;;
   _ <- vt_check (s_vk S) (s_ins S) (s_vos S) n (s_zh S) (ch_beta ch) (ch_gamma ch) (ch_alpha ch) (ch_xi ch) T ;;
   mo_verify env pvk (tp_multiopen pf) (vt_oracles T) (ch_xi ch) n (ch_fs ch)).
Proof. exact: (proj1 (verify_frontE _ _ _ _ _ _ _ _ _ _ _)). Qed.

Lemma wrong_lengths pf : ~~ right_lengths S pf -> exists p, verdict env FS pvk S pf = Panic p.
Proof.
move=> H; have := front_goes eok (ch_theta (derive_challenges FS pf)) (ch_xi (derive_challenges FS pf)) pf sd rdy.
rewrite verdictE; case: (verify_front _ _ _ _ _ _ _ _ _) => [T|e|p] //=; first by rewrite (negbTE H).
by exists p.
Qed.

Lemma right_lengths_total pf : right_lengths S pf -> size (tp_witness_commitments pf) = size (s_ws S) ->
  (forall rs, rs \in opened_rots S (size (tp_quotient_commitments pf)) ->
     uniq [seq rot_point w r (ch_xi (derive_challenges FS pf)) | r <- rs] /\
     forall r, r \in rs -> x3_of (ch_fs (derive_challenges FS pf)) (tp_multiopen pf) != rot_point w r (ch_xi (derive_challenges FS pf))) ->
  (forall c x v pi p, pc_check pvk c x v pi <> Panic p) ->
  forall p, verdict env FS pvk S pf <> Panic p.
Proof.
move=> H sw; move: (derive_challenges FS pf) (verdictE pf) => ch /= -> U chk p.
have := front_goes eok (ch_theta ch) (ch_xi ch) pf sd rdy.
case E: (verify_front _ _ _ _ _ _ _ _ _) => [T|e|q] //=; last by rewrite H.
move=> _; have cnt := counted_of H sw.
have car : carries pf (Commitments (tp_witness_commitments pf) (tp_lookup_commitments pf) (tp_z_commitments pf) (tp_lookup_z_commitments pf)) (tp_quotient_commitments pf) by [].
rewrite (check_stands eok sd rdy cnt car E); case: ifP => // _; rewrite rbind_Ok.
apply: (mo_total eok sd chk).
  by apply: (all_well_claimed cnt car E) => rs /U [].
move=> v r Hv Hr; apply: (proj2 (U (o_rots v) _) r Hr).
by rewrite -(vt_rots eok sd rdy cnt car E); exact: occurs_in_map.
Qed.
End Verdict.
End Any.

(** ** A proof for anything *)
Section Anything.
Variables (F : fieldType) (env : fenv F).
Hypothesis eok : fenv_ok env.
Variables (PC : pcs F) (S : vinput PC) (es : seq (expr F oquery)) (cm : commitments PC) (Q : seq (pc_com PC)).
Let d := s_d S.
Let n := dsize d.
Let w := dgen d.
Let pre := s_pre S.
Hypothesis sd : std_domain env d.
Hypothesis rdy : verifiable S es.
Hypothesis cnt : well_counted S cm.

(** The given commitments, zero evaluations, quotient evaluations [qe] and the opening [mo]. *)
Definition anything (qe : seq F) (mo : mo_proof PC) : tp_proof PC :=
  let nl := size (s_lookups S) in
  TPProof (cm_w cm) (nseq (openings (map (@o_rots _) (s_ws S))) 0) (nseq (openings (map (@o_rots _) (vp_fixed pre))) 0)
    (nseq (openings (map (@o_rots _) (vp_table pre))) 0) (nseq (size (vp_perm pre)) 0) 0 (cm_l cm) (cm_lz cm)
    (nseq (3 * nl) 0) (nseq (2 * nl) 0) (cm_z cm) (nseq (openings (product_rots S)) 0) Q qe mo.

Lemma anything_carries qe mo : carries (anything qe mo) cm Q. Proof. by []. Qed.
Lemma anything_lengths qe mo : (size Q <= size qe)%N -> right_lengths S (anything qe mo).
Proof.
move=> H; have [_ sl slz sz] := cnt.
by rewrite /right_lengths /anything; cbn [tp_quotient_commitments tp_quotient_evals tp_witness_evals tp_fixed_evals tp_table_evals tp_perm_evals
  tp_lookup_commitments tp_lookup_evals tp_lookup_z_commitments tp_lookup_z_evals tp_z_commitments tp_z_evals]; rewrite !size_nseq H sl slz !eqxx /product_count sz eqxx.
Qed.

Lemma front_chunks theta xi qe qe' mo mo' T : (size Q <= size qe')%N ->
  verify_front env (s_vk S) pre (anything qe mo) (s_ws S) (s_ins S) n theta xi = Ok T ->
  exists2 T', verify_front env (s_vk S) pre (anything qe' mo') (s_ws S) (s_ins S) n theta xi = Ok T' &
    stands S T' = stands S T.
Proof.
move=> Hs fr.
have := front_goes eok theta xi (anything qe' mo') sd rdy; rewrite anything_lengths //.
case E: (verify_front _ _ _ (anything qe' mo') _ _ _ _ _) => [T'|e|p] // _; exists T' => //.
move: fr E; rewrite /verify_front; cbn [anything tp_quotient_commitments tp_witness_commitments tp_quotient_evals tp_witness_evals tp_fixed_evals tp_table_evals tp_perm_evals
  tp_lookup_commitments tp_lookup_evals tp_lookup_z_commitments tp_lookup_z_evals tp_z_commitments tp_z_evals tp_q_blind_eval].
move=> H H'; have {H} [c _ H] := rbind_ok H; have {H'} [c' _ H'] := rbind_ok H'.
do 23 (let x := fresh "x" in let Ex := fresh "Ex" in have {H} [x Ex H] := rbind_ok H; rewrite Ex rbind_Ok in H').
by rewrite -(Ok_inj H) -(Ok_inj H').
Qed.
Lemma anything_quotient theta xi q qe mo T : (size Q <= (size qe).+1)%N -> (0 < size Q)%N -> (forall i, qe`_i = 0) ->
  verify_front env (s_vk S) pre (anything (q :: qe) mo) (s_ws S) (s_ins S) n theta xi = Ok T ->
  (recombined n (map (@opoly F) (map (stand S) (vt_chunks T)))).[xi] = q.
Proof.
move=> Hs Q0 Hz fr; have ff := facts eok sd rdy cnt (anything_carries (q :: qe) mo) fr.
have [qc Eqc ET] : exists2 qc, rmapM (quotient_oracle_v xi (q :: qe)) (enumerate Q) = Ok qc & vt_chunks T = qc.
  move: fr; rewrite /verify_front; cbn [anything tp_quotient_commitments tp_quotient_evals].
  move=> H; have {H} [c Ec H] := rbind_ok H; exists c => //.
  do 23 (let x := fresh "x" in let Ex := fresh "Ex" in have {H} [x Ex H] := rbind_ok H).
  by rewrite -(Ok_inj H).
have sq : size qc = size Q by rewrite -ET (each2_size (ff_chunks ff)).
have at_ k : (k < size Q)%N -> (nth 0 (map (@opoly F) (map (stand S) qc)) k).[xi] = (q :: qe)`_k.
  move=> Hk; have [v Hv] : exists v, idx qc k = Ok v by apply: idx_some; rewrite sq.
  have [c Hc] := idx_some Hk.
  have := each2_idx (rmapM_each Eqc) _ Hv; rewrite idx_enumerate Hc => /(_ _ erefl); rewrite /quotient_oracle_v; cbn [fst snd] => H.
  have {H} [e He H] := rbind_ok H; have Ee := idx_ok_nth 0 He.
  rewrite (nth_map (stand S v)) ?size_map ?sq // (nth_map v) ?sq // -(idx_ok_nth v Hv) -Ee.
  have Hq : vo_query v xi = Ok e by rewrite -(Ok_inj H) /vo_query /= eqxx.
  by have := stand_at S Hq; rewrite /answers Hq pevalE => -[<-].
rewrite /recombined horner_sum 2!size_map ET sq; case: Q Q0 Hs at_ {Eqc sq ff fr} => // c0 Q' _ Hs at_.
rewrite big_ord_recl hornerM at_ // muln0 expr0 hornerC mul1r /= big1 ?addr0 // => i _.
by rewrite hornerM at_ /= ?Hz ?mulr0 // /bump /= add1n ltnS.
Qed.

Section Accepted.
Variables (FS : fsrng F) (ck : pc_ck PC) (pvk : pc_vk PC).
Hypothesis law : pcs_correct ck pvk.
Hypothesis open0 : forall x, exists pi, pc_open ck [::] x (pc_empty PC) = Ok pi.
Hypothesis Q0 : (0 < size Q)%N.
Hypothesis good : forall pf, carries pf cm Q -> let xi := ch_xi (derive_challenges FS pf) in
  (Poly (s_zh S)).[xi] != 0 /\ forall rs, rs \in opened_rots S (size Q) -> uniq [seq rot_point w r xi | r <- rs].
Lemma anything_accepted : exists2 pf, carries pf cm Q & verdict env FS pvk S pf = Ok tt.
Proof.
have [pi0 _] := open0 0.
pose ch := derive_challenges FS (anything [::] (MoProof [::] (pc_zero PC) pi0)).
have chE qe mo : derive_challenges FS (anything qe mo) = ch by [].
have [zh U] := good (anything_carries [::] (MoProof [::] (pc_zero PC) pi0)); rewrite -/ch in zh U.
pose zs := nseq (size Q).-1 (0 : F); have zs0 i : zs`_i = 0 by rewrite nth_nseq; case: ifP.
have zs1 q : (size Q <= size (q :: zs))%N by rewrite /= size_nseq prednK.
have := front_goes eok (ch_theta ch) (ch_xi ch) (anything (0 :: zs) (MoProof [::] (pc_zero PC) pi0)) sd rdy; rewrite anything_lengths //.
case E: (verify_front _ _ _ _ _ _ _ _ _) => [T|e|p] // _.
pose q := (numerator d (s_perm S) es (ch_beta ch) (ch_gamma ch) (stands S T) (ch_alpha ch)).[ch_xi ch] / (Poly (s_zh S)).[ch_xi ch].
have [T' E' ET] := front_chunks (MoProof [::] (pc_zero PC) pi0) (zs1 q) E.
have wc := all_well_claimed eok sd rdy cnt (anything_carries _ _) E' U.
have [pi Hpi] := empty_proof_accepted eok law sd (ch_fs ch) open0 wc.
exists (anything (q :: zs) (MoProof [::] (pc_zero PC) pi)); first exact: anything_carries.
rewrite verdictE chE.
have -> : verify_front env (s_vk S) (s_pre S) (anything (q :: zs) (MoProof [::] (pc_zero PC) pi)) (s_ws S) (s_ins S) (dsize (s_d S)) (ch_theta ch) (ch_xi ch) = Ok T'.
  exact: E'.
rewrite rbind_Ok (check_stands eok sd rdy cnt (anything_carries _ _) E') ET (anything_quotient _ Q0 zs0 E') //.
  by rewrite /q divfK // subrr eqxx.
exact: (zs1 q).
Qed.
End Accepted.
End Anything.
