(** Property theorems C60: the prover's random values. The vocabulary is in SpecBlind.v. *)
From mathcomp Require Import all_ssreflect all_algebra.
From mathcomp Require Import zify.
From Verif Require Import Base ModelPoly ModelVO ModelOracle ModelPC ModelPermutation ModelLookup ModelIndexer ModelMultiproof ModelProtocol
  Spec SpecProtocol SpecBlind ProofBase ProofPoly ProofDomain ProofLookup ProofEach ProofProver ProofBlind.

Set Implicit Arguments.
Unset Strict Implicit.
Unset Printing Implicit Defensive.

Import GRing.Theory.
Local Open Scope ring_scope.

Section C60.
Variables (F : fieldType) (env : fenv F) (PC : pcs F) (FS : fsrng F).
Variables (ck : pc_ck PC) (vk : verifier_key F) (pre : prover_pre PC) (ws ins : seq (poracle F)) (vos : seq (generic_vo F)) (ds : nat)
  (zk : pc_zk PC) (pf : tp_proof PC) (zk' : pc_zk PC).
(** The numbers of rows the lookups and the permutation argument may use. *)
Let u := ix_usable_rows (vk_index vk).
Let up := pa_usable_rows (ix_perm (vk_index vk)).

Lemma committed_map (g : poracle F -> poracle F) os rs cs : (forall o, po_poly (g o) = po_poly o) ->
  committed ck (map g os) rs cs -> committed ck os rs cs.
Proof.
move=> gE [H1 H2 H3]; rewrite size_map in H1 H2; split=> // j o r c Ho Hr Hc.
by rewrite -gE; apply: (H3 j) => //; rewrite idx_map Ho.
Qed.

(** C60: a run of prove uses the generator for these values, in this order, each of them once and nothing else: the
    randomness of the witness commitments; the rows after the usable ones of the two permuted columns of each lookup,
    and the randomness of their commitments; the rows after row [up] of the permutation products and the randomness of
    their commitments; the same for the lookup products; the randomness of the quotient commitments; the randomness of
    the commitment of the multi-opening. Each commitment in the proof is to its polynomial under its own randomness, and
    the evaluations in the proof are those of these columns. *)
Theorem c60_fresh_randomness :
  tp_prove env FS ck vk pre ws ins vos ds zk = Ok (pf, zk') ->
  exists d (los : seq (lookup_oracles (poracle F))) (zs lzs chunks : seq (poracle F)) (f : lpoly F) (rw rl rz rlz rq : seq (pc_rand PC))
    (rf : pc_rand PC),
  [/\ domain_new env ds = Some d,
      drawn zk (map DRand rw
             ++ map DField (flatten [seq alternate (rows_from u (lo_a' lo)) (rows_from u (lo_s' lo)) | lo <- los]) ++ map DRand rl
             ++ map DField (flatten (map (rows_from up.+1) zs)) ++ map DRand rz
             ++ map DField (flatten (map (rows_from u.+1) lzs)) ++ map DRand rlz
             ++ map DRand rq ++ [:: DRand rf]) zk',
      [/\ committed ck ws rw (tp_witness_commitments pf),
          committed ck (flatten [seq [:: lo_a' lo; lo_s' lo] | lo <- los]) rl (tp_lookup_commitments pf),
          committed ck zs rz (tp_z_commitments pf), committed ck lzs rlz (tp_lookup_z_commitments pf) &
          committed ck chunks rq (tp_quotient_commitments pf) /\ pc_commit1 ck f rf = Ok (mp_f_commit (tp_multiopen pf))],
      [/\ size los = size (ix_lookups (vk_index vk)), size lzs = size (ix_lookups (vk_index vk)) &
          let xi := ch_xi (derive_challenges FS pf) in let w := element d 1 in
          [/\ tp_lookup_evals pf = flatten [seq [:: opened (lo_a' lo) xi; opened (lo_a' lo) (xi / w); opened (lo_s' lo) xi] | lo <- los],
              tp_lookup_z_evals pf = flatten [seq [:: opened z xi; opened z (xi * w)] | z <- lzs] &
              tp_quotient_evals pf = [seq opened c xi | c <- chunks]]] &
      forall o, occurs o (flatten [seq [:: lo_a' lo; lo_s' lo] | lo <- los] ++ zs ++ lzs) -> interpolates d o].
Proof.
move=> H; have [T [tr [fs' Hmo]]] := prover_inv H.
have [D1 c1] := commit_drawn (pt_w tr); have [D2 s2 i2] := lookup_round_drawn (pt_los tr).
have [D3 c3] := commit_drawn (pt_l tr); have [D4 i4] := permutation_round_drawn (pt_zs tr).
have [D5 c5] := commit_drawn (pt_z tr); have [D6 s6 i6] := subset_round_drawn (pt_lzs tr).
have [D7 c7] := commit_drawn (pt_lz tr); have [D8 c8] := commit_drawn (pt_q tr).
have [f [rf [D9 c9]]] : exists f rf, drawn (t_zk8 T) [:: DRand rf] zk' /\ pc_commit1 ck f rf = Ok (mp_f_commit (tp_multiopen pf)).
  move: Hmo; rewrite /mo_prove; case: (fs_rand _) => x1 f1; case: (fs_rand f1) => x2 f2 Hm.
  do 3 have [? _ {}Hm] := rbind_ok Hm.
  move: Hm; cbn [commit_all]; case Es: (pc_sample _ _) => [rf zk9] Hm; have [[[fcs frs] zk10] Ec {}Hm] := rbind_ok Hm.
  have [c9 E9 E10] := rbind_ok Ec; case: E10 => Efcs Efrs Ezk.
  have [fr _ {}Hm] := rbind_ok Hm; move: Hm; case: (fs_rand _) => x3 f3; case: (fs_rand _) => x4 f4 Hm.
  do 2 have [? _ {}Hm] := rbind_ok Hm; have [fc Hfc {}Hm] := rbind_ok Hm.
  case: Hm => <- _ Ez; move: Hfc; rewrite -Efcs /= => -[<-].
  by eexists; exists rf; split; [rewrite /= Es -Ez Ezk | exact: E9].
exists (t_d T), (t_los T), (t_zs T), (t_lzs T), (t_chunks T), f, (t_wr T), (t_lr T), (t_zr T), (t_lzr T), (t_qr T), rf.
split.
- exact: (pt_d tr).
- do 8 (apply: drawn_cat; first by eassumption); exact: D9.
- by split=> //; exact: (@committed_map (compute_extended_evals env (ix_ext (vk_index vk)))) c1.
- split; [by rewrite s2 size_enumerate | by rewrite s6 size_enumerate s2 size_enumerate |].
  by split; [exact: (pt_levals tr) | exact: (pt_lzevals tr) | exact: (pt_qevals tr)].
- by move=> o; rewrite !occurs_cat => -[/i2|[/i4|/i6]].
Qed.
End C60.
Print Assumptions c60_fresh_randomness.

Section Kinds.
Variables (F : fieldType) (PC : pcs F).
Notation kind := (fun x : draw PC => if x is DField _ then true else false).
Lemma kinds_rand (rs : seq (pc_rand PC)) : map kind (map DRand rs) = nseq (size rs) false.
Proof. by elim: rs => //= r rs ->. Qed.
Lemma kinds_field (xs : seq F) : map kind (map DField xs) = nseq (size xs) true.
Proof. by elim: xs => //= r rs ->. Qed.
Lemma size_flatten_pair (los : seq (lookup_oracles (poracle F))) :
  size (flatten [seq [:: lo_a' lo; lo_s' lo] | lo <- los]) = (2 * size los)%N.
Proof. by elim: los => //= r rs ->; lia. Qed.
Lemma size_alternate (xs ys : seq F) : size xs = size ys -> size (alternate xs ys) = (2 * size xs)%N.
Proof. by elim: xs ys => [|x xs IH] [|y ys] //= [] /IH; rewrite /alternate /= => ->; lia. Qed.
Lemma size_lookup_rows u n (los : seq (lookup_oracles (poracle F))) :
  (forall o, occurs o (flatten [seq [:: lo_a' lo; lo_s' lo] | lo <- los]) -> size (po_evals o) = n) ->
  size (flatten [seq alternate (rows_from u (lo_a' lo)) (rows_from u (lo_s' lo)) | lo <- los]) = (2 * (n - u) * size los)%N.
Proof.
elim: los => [|lo los IH] H /=; first by rewrite muln0.
have h1 : size (po_evals (lo_a' lo)) = n by apply: H; left.
have h2 : size (po_evals (lo_s' lo)) = n by apply: H; right; left.
rewrite size_cat size_alternate /rows_from ?size_drop ?h1 ?h2 // IH; first by lia.
by move=> o Ho; apply: H; right; right.
Qed.
Lemma size_column_rows u n (zs : seq (poracle F)) :
  (forall o, occurs o zs -> size (po_evals o) = n) -> size (flatten (map (rows_from u) zs)) = ((n - u) * size zs)%N.
Proof.
elim: zs => [|z zs IH] H /=; first by rewrite muln0.
rewrite size_cat /rows_from size_drop (H z) ?IH; [by rewrite mulnS | by move=> o Ho; apply: H; right | by left].
Qed.
End Kinds.

(** C60, second part: which calls are made, and so each of the random values, depends on the numbers of columns only,
    not on what is in them: two runs from the same generator state, for any two assignments of the columns, under keys
    with the same numbers of usable rows and lookups, leave the generator in the same state. *)
Theorem c60_independent_of_the_witness (F : fieldType) (env : fenv F) (PC : pcs F) (FS1 FS2 : fsrng F) (ck1 ck2 : pc_ck PC)
    (vk1 vk2 : verifier_key F) (pre1 pre2 : prover_pre PC) (ws1 ws2 ins1 ins2 : seq (poracle F)) (vos1 vos2 : seq (generic_vo F)) (ds : nat)
    (zk zk1 zk2 : pc_zk PC) (pf1 pf2 : tp_proof PC) :
  tp_prove env FS1 ck1 vk1 pre1 ws1 ins1 vos1 ds zk = Ok (pf1, zk1) ->
  tp_prove env FS2 ck2 vk2 pre2 ws2 ins2 vos2 ds zk = Ok (pf2, zk2) ->
  ix_usable_rows (vk_index vk1) = ix_usable_rows (vk_index vk2) ->
  pa_usable_rows (ix_perm (vk_index vk1)) = pa_usable_rows (ix_perm (vk_index vk2)) ->
  size (ix_lookups (vk_index vk1)) = size (ix_lookups (vk_index vk2)) ->
  size ws1 = size ws2 -> size (tp_z_commitments pf1) = size (tp_z_commitments pf2) ->
  size (tp_quotient_commitments pf1) = size (tp_quotient_commitments pf2) ->
  zk1 = zk2.
Proof.
move=> H1 H2 eu eup el ew ez eq.
have [d [los1 [zs1 [lzs1 [ch1 [f1 [rw1 [rl1 [rz1 [rlz1 [rq1 [rf1 [Ed D1 [[a1 _ _] [b1 _ _] [c1 c1' _] [g1 _ _] [[h1 h1' _] _]] [sl1 sz1 _] i1]]]]]]]]]]]]] :=
  c60_fresh_randomness H1.
have [d' [los2 [zs2 [lzs2 [ch2 [f2 [rw2 [rl2 [rz2 [rlz2 [rq2 [rf2 [Ed' D2 [[a2 _ _] [b2 _ _] [c2 c2' _] [g2 _ _] [[h2 h2' _] _]] [sl2 sz2 _] i2]]]]]]]]]]]]] :=
  c60_fresh_randomness H2.
have Edd : d' = d by move: Ed'; rewrite Ed => -[].
subst d'.
apply: (proj2 (drawn_det D1 D2 _)).
rewrite /same_calls !map_cat !kinds_rand !kinds_field a1 a2 ew b1 b2 !size_flatten_pair c1 c2 g1 g2 h1 h2 -h1' -h2' eq sl1 sl2 sz1 sz2 -c1' -c2' ez el.
have n1 o : occurs o (flatten [seq [:: lo_a' lo; lo_s' lo] | lo <- los1] ++ zs1 ++ lzs1) -> size (po_evals o) = dsize d by case/i1.
have n2 o : occurs o (flatten [seq [:: lo_a' lo; lo_s' lo] | lo <- los2] ++ zs2 ++ lzs2) -> size (po_evals o) = dsize d by case/i2.
rewrite (@size_lookup_rows _ _ (dsize d) los1); last by move=> o Ho; apply: n1; rewrite occurs_cat; left.
rewrite (@size_lookup_rows _ _ (dsize d) los2); last by move=> o Ho; apply: n2; rewrite occurs_cat; left.
rewrite (@size_column_rows _ _ (dsize d) zs1); last by move=> o Ho; apply: n1; rewrite !occurs_cat; tauto.
rewrite (@size_column_rows _ _ (dsize d) zs2); last by move=> o Ho; apply: n2; rewrite !occurs_cat; tauto.
rewrite (@size_column_rows _ _ (dsize d) lzs1); last by move=> o Ho; apply: n1; rewrite !occurs_cat; tauto.
rewrite (@size_column_rows _ _ (dsize d) lzs2); last by move=> o Ho; apply: n2; rewrite !occurs_cat; tauto.
by rewrite eu eup sl1 sl2 sz1 sz2 -c1' -c2' ez el.
Qed.
Print Assumptions c60_independent_of_the_witness.

From Coq Require Import NArith.
From Verif Require Import Field97 Concrete ProofConcrete ProofTools SpecCircuit ProofCheck Run97 PropsTranscript PropsEndToEnd PropsPIOPRuns.
Local Close Scope ring_scope.

Lemma r_run_blind : tp_prove env97 (PC := KZG97) FS97 srs97 r_vk r_pre r_ws r_ins r_vos 8 11%num = Ok (r_proof, (ok_or (r_dummy, 0%num) r_run).2).
Proof. rewrite -r_run_ok /r_run; reflexivity. Qed.
(** A run with one lookup. *)
Example ex_c60 : exists d (los : seq (lookup_oracles (poracle F97))) ds,
  [/\ drawn (PC := KZG97) 11%num ds (ok_or (r_dummy, 0%num) r_run).2, size los = 1, 0 < size (flatten [seq rows_from r_u (lo_a' lo) | lo <- los]) & 
      forall lo, occurs lo los -> interpolates d (lo_a' lo)].
Proof.
have [d [los [zs [lzs [ch [f [rw [rl [rz [rlz [rq [rf [Ed D _ [sl _ _] il]]]]]]]]]]]]] := c60_fresh_randomness r_run_blind.
have sl1 : size los = 1 by rewrite sl; vm_compute.
exists d, los; eexists; split; [exact D | exact sl1 | |].
- move: sl1 il; case: los {D sl} => [|lo [|]] // _ il; cbn [map flatten foldr cat].
  have [E _] : interpolates d (lo_a' lo) by apply: il; rewrite occurs_cat; left; left.
  rewrite cats0 /rows_from size_drop E.
  have -> : d = r_d by move: Ed; rewrite dom97_8 => -[<-].
  by vm_compute.
- move=> lo Hlo; apply: il; rewrite occurs_cat; left; elim: {sl sl1 D} los Hlo => [//|lo' los IH] /= [->|/IH]; tauto.
Qed.
(** Two runs from generator state 11, for different instances. *)
Lemma r2_e1 : ix_usable_rows (vk_index r2_vk) = ix_usable_rows (vk_index r_vk). Proof. by apply/eqP; vm_compute. Qed.
Lemma r2_e2 : pa_usable_rows (ix_perm (vk_index r2_vk)) = pa_usable_rows (ix_perm (vk_index r_vk)). Proof. by apply/eqP; vm_compute. Qed.
Lemma r2_e3 : size (ix_lookups (vk_index r2_vk)) = size (ix_lookups (vk_index r_vk)). Proof. by apply/eqP; vm_compute. Qed.
Lemma r2_e4 : size (c_ws r2_C) = size r_ws. Proof. by apply/eqP; vm_compute. Qed.
Lemma r2_e5 : size (tp_z_commitments r2_proof) = size (tp_z_commitments r_proof). Proof. by apply/eqP; vm_compute. Qed.
Lemma r2_e6 : size (tp_quotient_commitments r2_proof) = size (tp_quotient_commitments r_proof). Proof. by apply/eqP; vm_compute. Qed.
Lemma r2_rows : c_rows r2_C = 8. Proof. by apply/eqP; vm_compute. Qed.
Lemma r2_run_blind : tp_prove env97 (PC := KZG97) FS97 srs97 r2_vk (preprocessed env97 KZG97 r2_C r2_vk) (c_ws r2_C) (c_ins r2_C) (c_vos r2_C) 8 11%num
  = Ok (r2_proof, (ok_or (r_dummy, 0%num) r2_run).2).
Proof. rewrite -r2_rows -r2_run_ok /r2_run; reflexivity. Qed.
Lemma r2_differs : tp_quotient_evals r2_proof <> tp_quotient_evals r_proof. Proof. by apply/eqP; vm_compute. Qed.
Example ex_c60_independent : tp_quotient_evals r2_proof <> tp_quotient_evals r_proof /\ (ok_or (r_dummy, 0%num) r2_run).2 = (ok_or (r_dummy, 0%num) r_run).2.
Proof. exact (conj r2_differs (c60_independent_of_the_witness r2_run_blind r_run_blind r2_e1 r2_e2 r2_e3 r2_e4 r2_e5 r2_e6)). Qed.
