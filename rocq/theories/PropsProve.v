(** Property theorems about prove returning a proof: C59. The vocabulary is in SpecProve.v and
    SpecCircuit.v; the proofs are in ProofProve.v. *)
From mathcomp Require Import all_ssreflect all_algebra.
From mathcomp Require Import zify.
From Verif Require Import Base ModelPoly ModelVO ModelOracle ModelPC ModelPermutation ModelLookup ModelIndexer ModelMultiproof ModelProtocol
  Spec SpecProtocol SpecPIOP SpecMultiopen SpecCircuit SpecProve ProofBase ProofPoly ProofDomain ProofOracle ProofPIOP ProofCheck ProofProve PropsEndToEnd.

Set Implicit Arguments.
Unset Strict Implicit.
Unset Printing Implicit Defensive.

Import GRing.Theory.
Local Open Scope ring_scope.

(** ** C59 *)
(** prove returns a proof, for every commitment scheme whose key is long enough, every circuit that
    is well laid out, has a gate, and whose copy constraints and lookups hold, every randomness and
    all challenges that cause no division by zero. Whether the gates hold does not matter. *)
Theorem c59_prove_succeeds (F : fieldType) (env : fenv F) (PC : pcs F) (ck : pc_ck PC) (C : circuit F) (vk : verifier_key F)
    (es : seq (expr F oquery)) (tau : nat * nat -> nat * nat) (theta beta gamma alpha xi : F) (rest : seq F) (zk : pc_zk PC) :
  let n := c_rows C in
  fenv_ok env -> std_domain env (c_d C) -> indexed env C vk -> laid_out C -> distinct_rotations C ->
  gates_ok C es -> (0 < size (c_vos C))%N -> (pi_u (c_info C) < n)%N -> lookups_ok C n ->
  (~~ nilp (copied (c_ws C)) -> copies_hold C tau) -> lookups_hold C ->
  pcs_total ck n -> no_zero_denominator C theta beta gamma -> xi != 0 ->
  exists pf zk', tp_prove env (scripted [:: theta, beta, gamma, alpha, xi & rest]) ck vk (preprocessed env PC C vk)
    (c_ws C) (c_ins C) (c_vos C) n zk = Ok (pf, zk').
Proof.
move=> n eok sd ixd lay dr gok vp ul lks cph lkh tot nzd x0.
exact: (prove_ok eok alpha zk sd ixd lay gok vp ul lks lkh cph nzd dr tot x0).
Qed.
Print Assumptions c59_prove_succeeds.

(** With any other transcript, prove does what it does with the challenges the transcript gives. *)
Theorem c59_any_transcript (F : fieldType) (env : fenv F) (PC : pcs F) (FS : fsrng F) (ck : pc_ck PC) (vk : verifier_key F)
    (pre : prover_pre PC) (ws ins : seq (poracle F)) (vos : seq (generic_vo F)) (n : nat) (zk : pc_zk PC) :
  exists theta beta gamma alpha xi rest,
  tp_prove env FS ck vk pre ws ins vos n zk =
  tp_prove env (scripted [:: theta, beta, gamma, alpha, xi & rest]) ck vk pre ws ins vos n zk.
Proof. exact: prove_scripted. Qed.
Print Assumptions c59_any_transcript.

(** Few challenges cause a division by zero: for every theta at most one beta per usable row and
    lookup; then at most one gamma per copied cell and per usable row and lookup. *)
Theorem c59_few_bad_challenges (F : fieldType) (C : circuit F) (theta : F) :
  let L := (size (c_lookups C) * c_u C)%N in
  at_most L (beta_clash C theta) /\
  forall beta, ~ beta_clash C theta beta ->
    at_most (size (copied (c_ws C)) * pi_u (c_info C) + L) (fun gamma => ~ no_zero_denominator C theta beta gamma).
Proof. by split=> [|beta]; [exact: bad_betas|exact: bad_gammas]. Qed.
Print Assumptions c59_few_bad_challenges.

(** Together with C55: the proof of a satisfied circuit is accepted, whatever the challenges, unless
    one of the above or x3 is a rotation of xi. *)
Theorem c59_completeness (F : fieldType) (env : fenv F) (PC : pcs F) (ck : pc_ck PC) (pvk : pc_vk PC)
    (C : circuit F) (vk : verifier_key F) (es : seq (expr F oquery)) (rows : seq nat) (tau : nat * nat -> nat * nat)
    (vws : seq (voracle F (pc_com PC))) (vins : seq (ioracle F)) (vpre : verifier_pre PC)
    (theta beta gamma alpha xi x1 x2 x3 x4 : F) (zk : pc_zk PC) :
  let N := dsize (ix_ext (vk_index vk)) in let n := c_rows C in
  let FS := scripted [:: theta; beta; gamma; alpha; xi; x1; x2; x3; x4] in
  fenv_ok env -> pcs_correct ck pvk -> pcs_total ck n -> std_domain env (c_d C) ->
  indexed env C vk -> laid_out C -> distinct_rotations C -> verifier_copy ck C vws vins vpre ->
  gates_ok C es -> (0 < size (c_vos C))%N -> (pi_u (c_info C) < n)%N -> lookups_ok C n ->
  vanishes_on C rows N -> quotient_room C es (size rows) (pa_max_cols (ix_perm (vk_index vk))) N ->
  satisfied C es rows -> (~~ nilp (copied (c_ws C)) -> copies_hold C tau) -> lookups_hold C ->
  no_zero_denominator C theta beta gamma -> xi != 0 -> (forall i, (i < n)%N -> x3 != xi * dgen (c_d C) ^+ i) ->
  exists pf zk',
    tp_prove env FS ck vk (preprocessed env PC C vk) (c_ws C) (c_ins C) (c_vos C) n zk = Ok (pf, zk') /\
    (tp_verify env FS pvk vk vpre pf vws vins (c_vos C) n (c_zh C)).1 = Ok tt.
Proof.
move=> N n FS eok law tot sd ixd lay dr copy gok vp ul lks van room sat cph lkh nzd x0 x3n.
have [pf [zk' Hp]] := prove_ok eok alpha zk sd ixd lay gok vp ul lks lkh cph nzd dr tot x0 [:: x1; x2; x3; x4].
exists pf, zk'; split; first exact: Hp.
apply: (c55_completeness eok law sd ixd lay gok (lks_ext eok sd ixd lks) van sat room copy Hp) => r.
rewrite eq_sym -[ch_xi _]/xi -[x3_of _ _]/x3.
have dok := std_domain_ok eok sd; have n0 := dsize_gt0 dok.
have lt : (rot_row n r 0 < n)%N by exact: rot_row_lt.
have -> : rot_point (dgen (c_d C)) r xi = rot_point (dgen (c_d C)) (rot_row n r 0, Plus) xi; last exact: x3n.
by apply/(rot_point_eq _ _ dok x0); rewrite [RHS]/rot_row /= add0n modn_small.
Qed.
Print Assumptions c59_completeness.

(** The KZG commitments of the model succeed on all polynomials its key is long enough for. *)
Theorem c59_kzg_total (F : fieldType) (G : lmodType F) (Z : Type) (zk_rand : Z -> F * Z) (cbytes : G -> seq nat) (fbytes : F -> seq nat)
    (srs : kzg_srs G) (n : nat) :
  (n <= (k_max srs).+1)%N -> pcs_total (PC := kzg zk_rand cbytes fbytes) srs n.
Proof.
move=> Hn p Hp; have Hd : (pdeg p <= k_max srs)%N.
  by rewrite pdegE; have := leq_trans (size_Poly p) (leq_trans Hp Hn); case: (size _).
split=> [r|x r]; rewrite /= /kzg_commit1 /kzg_open Hd; by eexists.
Qed.
Print Assumptions c59_kzg_total.

(** ** A concrete case *)
From Coq Require Import NArith String.
From Verif Require Import Field97 Concrete ProofPC ProofConcrete ProofTools Run97.
Local Close Scope ring_scope.

(** The circuit of Run97.v. Its copy constraints hold along the permutation [r_next], its lookup
    holds, and no challenge below divides by zero. *)
Definition cells k u : seq (nat * nat) := [seq (j, i) | j <- iota 0 k, i <- iota 0 u].
Lemma cellsP k u c : is_cell k u c -> c \in cells k u.
Proof.
by case: c => j i /andP[/= Hj Hi]; apply/allpairsP; exists (j, i); rewrite !mem_iota.
Qed.
Definition copies_holdb (C : circuit F97) (tau : nat * nat -> nat * nat) : bool :=
  let ws := copied (c_ws C) in let k := size ws in let u := pi_u (c_info C) in let cs := cells k u in
  let name (c : nat * nat) := (nth 0 (pi_deltas (c_info C)) c.1 * dgen (c_d C) ^+ c.2)%R in
  [&& size (c_sigmas C) == k, size (pi_deltas (c_info C)) == k, all (fun c => is_cell k u (tau c)) cs,
   uniq (map tau cs), all (fun c => cell_value (c_sigmas C) c.1 c.2 == name (tau c)) cs &
   all (fun c => cell_value ws c.1 c.2 == cell_value ws (tau c).1 (tau c).2) cs].
Lemma uniq_inj (A B : eqType) (g : A -> B) s : uniq (map g s) -> {in s &, injective g}.
Proof.
elim: s => //= a s IH /andP[Ha /IH H] x y; rewrite !inE => /orP[/eqP ->|Hx] /orP[/eqP ->|Hy] //.
- by move=> E; rewrite E map_f in Ha.
- by move=> E; rewrite -E map_f in Ha.
- exact: H.
Qed.
Lemma copies_holdP C tau : copies_holdb C tau -> copies_hold C tau.
Proof.
case/and5P => /eqP h1 /eqP h2 /allP h3 h4 /andP[/allP h5 /allP h6]; split=> //.
- by move=> c /cellsP /h3.
- by move=> c c' /cellsP Hc /cellsP Hc' E; apply: (uniq_inj h4).
- by move=> c /cellsP /h5 /eqP.
- by move=> c /cellsP /h6 /eqP.
Qed.
Definition lookups_holdb (C : circuit F97) : bool :=
  all (fun l => let es := ok_or [::] (gl_get_expressions l) in let tqs := ok_or [::] (gl_get_table_queries l) in
    (size es == size tqs) && all (fun i => has (fun j =>
      [seq meaning (row_value (c_ws C) (c_ins C) (c_fs C) (c_rows C) i) e | e <- es] ==
      [seq nth 0%R (column_named (c_ts C) (oq_label q)) j | q <- tqs]) (iota 0 (c_u C))) (iota 0 (c_u C))) (c_lookups C).
Lemma lookups_holdP C : lookups_holdb C -> lookups_hold C.
Proof.
move=> H l es tqs Hl E1 E2; have := all_occurs H Hl; rewrite E1 E2 /= => /andP[/eqP ss /allP Hr]; split=> // i Hi.
have Hi' : i \in iota 0 (c_u C) by rewrite mem_iota.
have /hasP[j Hj /eqP E] := Hr i Hi'; exists j => //; by rewrite mem_iota in Hj.
Qed.
Definition nonzerob (C : circuit F97) (theta beta gamma : F97) : bool :=
  all (fun c => cell_value (copied (c_ws C)) c.1 c.2 + beta * cell_value (c_sigmas C) c.1 c.2 + gamma != 0)%R
    (cells (size (copied (c_ws C))) (pi_u (c_info C))) &&
  all (fun l => all (fun i =>
     (peval [seq meaning (row_value (c_ws C) (c_ins C) (c_fs C) (c_rows C) i) e | e <- ok_or [::] (gl_get_expressions l)] theta + beta != 0)%R &&
     (peval [seq nth 0%R (column_named (c_ts C) (oq_label q)) i | q <- ok_or [::] (gl_get_table_queries l)] theta + gamma != 0)%R) (iota 0 (c_u C))) (c_lookups C).
Lemma nonzeroP C theta beta gamma : nonzerob C theta beta gamma -> no_zero_denominator C theta beta gamma.
Proof.
case/andP => /allP H1 H2; split=> [c /cellsP /H1 //|l es tqs i Hl E1 E2 Hi].
have := all_occurs H2 Hl; rewrite E1 E2 /= => /allP /(_ i); rewrite mem_iota !pevalE -!compressed_Poly => /(_ Hi) /andP[]; by split.
Qed.
Definition distinct_rotationsb (C : circuit F97) : bool :=
  all (fun o : poracle F97 => uniq [seq rot_row (c_rows C) r 0 | r <- o_rots o])
    (c_ws C ++ c_fs C ++ c_ts C ++ c_sigmas C ++ [:: c_qb C]).
Lemma distinct_rotationsP C : distinct_rotationsb C -> distinct_rotations C.
Proof. by move=> H o Ho; exact: (all_occurs H Ho). Qed.

Definition r_theta : F97 := n97 3. Definition r_beta : F97 := n97 10. Definition r_gamma : F97 := n97 20.
Definition r_xi : F97 := n97 6. Definition r_x3c : F97 := n97 7.
Lemma r_copies : copies_hold r_C r_next. Proof. by apply: copies_holdP; vm_compute. Qed.
Lemma r_lookups_hold : lookups_hold r_C. Proof. by apply: lookups_holdP; vm_compute. Qed.
Lemma r_distinct : distinct_rotations r_C. Proof. by apply: distinct_rotationsP; vm_compute. Qed.
Lemma r_nonzero : no_zero_denominator r_C r_theta r_beta r_gamma. Proof. by apply: nonzeroP; vm_compute. Qed.
Lemma r_lookups_n : lookups_ok r_C (c_rows r_C). Proof. by apply: lookups_okP; vm_compute. Qed.
Lemma r_total : pcs_total (PC := KZG97) srs97 (c_rows r_C).
Proof.
apply (@c59_kzg_total f97_fieldType [lmodType f97 of f97^o] N lcg_rand f97_bytes f97_bytes srs97).
rewrite r_rows; by vm_compute.
Qed.
Lemma r_van : vanishes_on r_C (iota 0 (c_rows r_C)) r_N.
Proof. exact (@vanishes_everywhere F97 r_C r_N r_dok r_zhE). Qed.
Lemma r_quotient_room : quotient_room r_C (r_exprs r_C) (size (iota 0 (c_rows r_C))) (pa_max_cols (ix_perm (vk_index r_vk))) r_N.
Proof. by apply: quotient_roomP; vm_compute. Qed.
Lemma r_x3_ok i : i < c_rows r_C -> (r_x3c != r_xi * dgen (c_d r_C) ^+ i)%R.
Proof.
have H : all (fun i => r_x3c != r_xi * dgen (c_d r_C) ^+ i)%R (iota 0 (c_rows r_C)) by vm_compute.
move/allP: H => /(_ i); rewrite mem_iota add0n => H Hi; exact (H Hi).
Qed.
Example ex_c59 (alpha x1 x2 x4 : F97) (zk : pc_zk KZG97) : exists pf zk',
  tp_prove env97 (PC := KZG97) (scripted [:: r_theta; r_beta; r_gamma; alpha; r_xi; x1; x2; r_x3c; x4]) srs97 r_vk (preprocessed env97 KZG97 r_C r_vk)
    (c_ws r_C) (c_ins r_C) (c_vos r_C) (c_rows r_C) zk = Ok (pf, zk') /\
  (tp_verify env97 (PC := KZG97) (scripted [:: r_theta; r_beta; r_gamma; alpha; r_xi; x1; x2; r_x3c; x4]) srs97 r_vk r_vpre pf r_vws r_vins
     (c_vos r_C) (c_rows r_C) (c_zh r_C)).1 = Ok tt.
Proof.
have h1 : 0 < size (c_vos r_C) by vm_compute.
have h2 : pi_u (c_info r_C) < c_rows r_C by vm_compute.
have h3 : (r_xi != 0)%R by vm_compute.
exact (@c59_completeness F97 env97 KZG97 srs97 srs97 r_C r_vk (r_exprs r_C) (iota 0 (c_rows r_C)) r_next r_vws r_vins r_vpre
  r_theta r_beta r_gamma alpha r_xi x1 x2 r_x3c x4 zk env97_ok law97 r_total dom97_8 r_indexed r_laid_out r_distinct r_copy
  r_gates_ok h1 h2 r_lookups_n r_van r_quotient_room r_satisfied (fun _ => r_copies) r_lookups_hold r_nonzero h3 r_x3_ok).
Qed.
(** Its bounds: 5 values of beta, then 25 of gamma. *)
Example ex_c59_bounds : size (c_lookups r_C) * c_u r_C = 5 /\ size (copied (c_ws r_C)) * pi_u (c_info r_C) = 20.
Proof. by vm_compute. Qed.
