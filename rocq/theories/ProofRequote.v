(** Other quotient evaluations in a proof: what the multi-opening makes of them. *)
From mathcomp Require Import all_ssreflect all_algebra zify.
From Coq Require Import String.
From Verif Require Import Base ModelPoly ModelVO ModelOracle ModelPC ModelPermutation ModelLookup ModelIndexer ModelMultiproof ModelProtocol
  Spec SpecProtocol SpecPIOP SpecMultiopen SpecSound SpecShape SpecShift SpecSingle SpecOpenings SpecLinear
  ProofBase ProofPoly ProofDomain ProofEach ProofOracle ProofLookup ProofProver ProofFront ProofShift ProofLinear.

Set Implicit Arguments.
Unset Strict Implicit.
Unset Printing Implicit Defensive.

Import GRing.Theory.
Local Open Scope ring_scope.

Section Requote.
Variables (F : fieldType) (PC : pcs F).
Notation vorc := (voracle F (pc_com PC)).

Lemma combined_sum (x : F) es k : (k <= size es)%N -> combined x (take k es) = \sum_(i < k) x ^+ i * es`_i.
Proof.
elim: es k => [|e es IH] [|k] //= H; rewrite ?big_ord0 // big_ord_recl /= expr0 mul1r IH // mulr_sumr; congr (_ + _).
by apply: eq_bigr => i _; rewrite /bump /= add1n exprS mulrA.
Qed.

(** The oracles of the quotient chunks for a list of evaluations. *)
Lemma chunks_read xi es (cs : seq (pc_com PC)) T : rmapM (quotient_oracle_v xi es) (enumerate cs) = Ok T ->
  [/\ (size cs <= size es)%N, [seq claim o xi | o <- T] = take (size cs) es, map (@o_rots _) T = nseq (size cs) [:: curr],
      forall o, occurs o T -> exists e, vo_query o xi = Ok e &
      [seq get_commitment o | o <- T] = map (@Ok _) cs].
Proof.
rewrite /enumerate -{3}[es]drop0.
suff G k : rmapM (quotient_oracle_v xi es) (zip (iota k (size cs)) cs) = Ok T -> (k <= size es)%N ->
   [/\ (k + size cs <= size es)%N, [seq claim o xi | o <- T] = take (size cs) (drop k es), map (@o_rots _) T = nseq (size cs) [:: curr],
      forall o, occurs o T -> exists e, vo_query o xi = Ok e &
      [seq get_commitment o | o <- T] = map (@Ok _) cs] by move=> H; exact: (G 0%N H).
elim: cs k T => [|c cs IH] k T.
  by case=> <- sk; rewrite addn0; split=> //; rewrite take0.
rewrite [zip (iota _ _) _]/= => H sk; have [x Hx {}H] := rbind_ok H; have [R HR {}H] := rbind_ok H; case: H => <-.
have [e He {}Hx] := rbind_ok Hx; case: Hx => <-; have lk := idx_lt He; have [_ /(_ 0) Ee] := idx_ok He; cbn [fst] in lk, Ee.
have [s1 s2 s3 s4 s5] := IH _ _ HR lk.
have q : vo_query (Oracle ("quotient_chunk_" ++ show_nat k)%string [:: curr] (VData Witness [:: (xi, e)] (Some c) false)) xi = Ok e by rewrite /vo_query /= eqxx.
split=> /=; rewrite ?addnS // ?s2 ?s3 ?s5 //; last by move=> o [->|/s4 //]; exists e.
by rewrite (drop_nth 0 lk) /= Ee /claim q.
Qed.

Lemma same_chunks xi es es' (cs : seq (pc_com PC)) T : rmapM (quotient_oracle_v xi es) (enumerate cs) = Ok T -> (size cs <= size es')%N ->
  exists T', rmapM (quotient_oracle_v xi es') (enumerate cs) = Ok T'.
Proof.
move=> _; rewrite /enumerate; suff G k : (k + size cs <= size es')%N -> exists T', rmapM (quotient_oracle_v xi es') (zip (iota k (size cs)) cs) = Ok T' by exact: (G 0%N).
elim: cs k => [|c cs IH] k /=; first by exists [::].
rewrite addnS -addSn => H; have [R ->] := IH _ H; have [|e He] := @idx_some _ es' k; first by exact: leq_trans (leq_addr _ _) H.
by rewrite /quotient_oracle_v /= He /=; eexists.
Qed.

Add Field Ffield79 : (F_field_theory F).
Lemma three_moved (a x y t e0 e1 e2 R : F) : (y - a) * (y - x) = 0 ->
  (e0 + t * (a * x)) + (y * (e1 - t * (a + x)) + (y * y * (e2 + t) + R)) = e0 + (y * e1 + (y * y * e2 + R)).
Proof.
move=> yz; have -> : (e0 + t * (a * x)) + (y * (e1 - t * (a + x)) + (y * y * (e2 + t) + R)) = e0 + (y * e1 + (y * y * e2 + R)) + t * ((y - a) * (y - x)).
  f_conv F; ring.
by rewrite yz mulr0 addr0.
Qed.

Variables (w xi x1 x2 x3 : F) (os1 os2 : seq vorc).
Lemma total_chunks (cs cs' : seq vorc) k :
  map (@o_rots _) cs = nseq k [:: curr] -> map (@o_rots _) cs' = nseq k [:: curr] -> (0 < k)%N ->
  total_claim w xi x1 x2 x3 (os1 ++ cs' ++ os2) - total_claim w xi x1 x2 x3 (os1 ++ cs ++ os2) =
  x2 ^+ place [:: curr] (map (@o_rots _) (os1 ++ cs ++ os2)) * (x1 ^+ size [seq o <- os1 | o_rots o == [:: curr]] *
    (combined x1 [seq claim o xi | o <- cs'] - combined x1 [seq claim o xi | o <- cs]) / (x3 - xi)).
Proof.
move=> r r' k0; set ks := map (@o_rots _) (os1 ++ cs ++ os2).
have ksE : map (@o_rots _) (os1 ++ cs' ++ os2) = ks by rewrite /ks !map_cat r r'.
have kin : [:: curr] \in ks by rewrite /ks !map_cat r !mem_cat; case: (k) k0 => // k' _; rewrite inE eqxx orbT.
rewrite /total_claim ksE -/ks (bigD1_seq [:: curr]) ?mem_undup ?undup_uniq //= [X in _ - X](bigD1_seq [:: curr]) ?mem_undup ?undup_uniq //=.
have fl (q : seq rotation) (s : seq vorc) : map (@o_rots _) s = nseq k [:: curr] -> [seq o <- s | o_rots o == q] = if q == [:: curr] then s else [::].
  elim: s k {r r' k0} => [|o s IH] [|k'] //=; first by case: ifP.
  by case=> -> /IH ->; rewrite eq_sym; case: (q == _).
have -> : \sum_(k1 <- undup ks | k1 != [:: curr]) x2 ^+ place k1 ks * set_claim w xi x1 x3 (os1 ++ cs' ++ os2) k1 =
          \sum_(k1 <- undup ks | k1 != [:: curr]) x2 ^+ place k1 ks * set_claim w xi x1 x3 (os1 ++ cs ++ os2) k1.
  by apply: eq_bigr => q nq; congr (_ * _); rewrite /set_claim !filter_cat (fl _ _ r) (fl _ _ r') (negbTE nq).
rewrite opprD addrACA subrr addr0 -mulrBr; congr (_ * _).
have rc : rot_point w curr xi = xi by rewrite /rot_point /= expr0 mulr1.
rewrite /set_claim /= rc !big_cons !big_nil !addr0 !mulr1 -mulrBl; congr (_ / _).
have -> : basis_at [:: xi] xi x3 = 1 by rewrite /basis_at big_cons big_nil eqxx.
rewrite !mulr1 !filter_cat (fl _ _ r) (fl _ _ r') eqxx !map_cat !combined_cat !size_map.
have -> : size cs' = size cs by rewrite -(size_map (@o_rots _)) r' -r size_map.
by rewrite opprD addrACA subrr add0r -mulrBr opprD addrACA subrr addr0.
Qed.
End Requote.
