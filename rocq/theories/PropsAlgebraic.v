(** C68-C69: verify treats commitments as opaque group elements, and KZG10 is sound against algebraic provers. *)
From mathcomp Require Import all_ssreflect all_algebra.
From Coq Require Import String.
From Verif Require Import Base ModelPoly ModelVO ModelOracle ModelPC ModelPermutation ModelLookup ModelIndexer
  ModelMultiproof ModelProtocol Spec SpecProtocol SpecPIOP SpecMultiopen SpecTranscript SpecSound SpecAlgebraic ProofBase ProofPoly ProofProver ProofFront
  ProofMultiopen2 ProofPIOP2 ProofSound ProofSeen PropsSound.

Set Implicit Arguments.
Unset Strict Implicit.
Unset Printing Implicit Defensive.

Import GRing.Theory.
Local Open Scope ring_scope.

(** ** C68 *)
(** Replacing every commitment and the opening proof by images that the scheme cannot tell apart
    (sums, multiples, transcript and the final check agree) leaves the outcome of verify unchanged. *)
Theorem c68_commitments_are_opaque (F : fieldType) (env : fenv F) (PC1 PC2 : pcs F) (FS : fsrng F)
    (phi : pc_com PC1 -> pc_com PC2) (psi : pc_proof PC1 -> pc_proof PC2) (vk1 : pc_vk PC1) (vk2 : pc_vk PC2)
    (S : vinput PC1) (pf : tp_proof PC1) :
  pcs_seen phi psi vk1 vk2 -> same_transcript phi FS ->
  verdict env FS vk2 (see_input phi S) (see_proof phi psi pf) = verdict env FS vk1 S pf.
Proof. by move=> seen same; exact: verdict_seen. Qed.
Print Assumptions c68_commitments_are_opaque.

(** ** C69 *)
Section Algebraic.
Variables (F : fieldType) (G : lmodType F) (N : nat) (g : G).
Variables (Z : Type) (zk_rand : Z -> F * Z) (cbytes : G -> bytes) (fbytes : F -> bytes).
Hypothesis g0 : g != 0.
Add Field FfieldA : (F_field_theory F).
Notation ALG := (algebraic G N zk_rand).
Notation KZG := (kzg zk_rand cbytes fbytes).
Notation op := (committed_poly (F := F) N).

Lemma take_add (p q : lpoly F) : Poly (take N (padd p q)) = Poly (take N p) + Poly (take N q).
Proof.
have tk (r : lpoly F) i : (take N r)`_i = if (i < N)%N then (Poly r)`_i else 0.
  rewrite coef_Poly; case: ltnP => H; first by rewrite nth_take.
  by rewrite nth_default // (leq_trans _ H) // size_take; case: ltnP.
by apply/polyP => i; rewrite coefD !coef_Poly !tk Poly_add coefD; case: ltnP; rewrite ?addr0.
Qed.
Lemma take_scale (p : lpoly F) a : Poly (take N (pscale a p)) = a *: Poly (take N p).
Proof.
have tk (r : lpoly F) i : (take N r)`_i = if (i < N)%N then (Poly r)`_i else 0.
  rewrite coef_Poly; case: ltnP => H; first by rewrite nth_take.
  by rewrite nth_default // (leq_trans _ H) // size_take; case: ltnP.
by apply/polyP => i; rewrite coefZ !coef_Poly !tk Poly_scale coefZ; case: ltnP; rewrite ?mulr0.
Qed.
Lemma exact_binding : pcs_binding (PC := ALG) None op.
Proof.
split=> [|c e|c a|c x v pf] /=; rewrite /committed_poly /=; [by []|exact: take_add|exact: take_scale|].
by move=> [/eqP <-]; rewrite pevalE.
Qed.
Lemma element_seen s : pcs_seen (PC1 := ALG) (PC2 := KZG) (element_of N s) (opening_of N s) (Some s) s.
Proof.
split=> //= [|c e|c a]; rewrite /element_of /kzg_commit /= ?pevalE /=.
- by rewrite !scale0r addr0.
- by rewrite !take_add !hornerD !scalerDl addrACA.
- by rewrite !take_scale !hornerZ -!scalerA scalerDr.
Qed.

Lemma size_take_le (p : lpoly F) : (size (Poly (take N p)) <= N)%N.
Proof. by apply: leq_trans (size_Poly _) _; rewrite size_take; case: ltnP => // /ltnW. Qed.

Lemma false_opening (c : combination F) x v pf : (op c).[x] != v ->
  at_most N (fun tau => ~ at_most 1 (fun secret => let s := srs_of N g tau secret in
    kzg_check s (element_of N s c) x v (opening_of N s pf) = Ok true)).
Proof.
move=> ne; set p := Poly (take N c.1); set w := Poly (take N pf.1.1).
set r := Poly (take N c.2); set wr := Poly (take N pf.1.2).
set rv := if pf.2 is Some y then y else 0.
pose P := p - v%:P - ('X - x%:P) * w; pose Q := r - rv%:P - ('X - x%:P) * wr.
have E tau secret : kzg_check (srs_of N g tau secret) (element_of N (srs_of N g tau secret) c) x v (opening_of N (srs_of N g tau secret) pf)
    = Ok true -> P.[tau] + secret * Q.[tau] = 0.
  rewrite /kzg_check /opening_of /element_of /kzg_commit /= !pevalE -/rv -/p -/w -/r -/wr => -[/eqP H].
  have : (P.[tau] + secret * Q.[tau]) *: g == 0.
    move/eqP: H; rewrite -subr_eq0 /P /Q !hornerE; move: (p.[tau]) (w.[tau]) (r.[tau]) (wr.[tau]) => a b a' b'.
    rewrite !scalerA scalerDr !scalerA -!scaleNr -!scalerDl -!scaleNr -!scalerDl => /eqP <-; apply/eqP; congr (_ *: _); f_conv F; ring.
  by rewrite scaler_eq0 (negbTE g0) orbF => /eqP.
have P0 : P != 0.
  apply/eqP => /(congr1 (fun q => q.[x])); rewrite /P !hornerE subrr mul0r subr0 => /eqP.
  by rewrite subr_eq0; apply/negP.
have sP : (size P <= N.+1)%N.
  apply: leq_trans (size_add _ _) _; rewrite size_opp geq_max; apply/andP; split.
    apply: leq_trans (size_add _ _) _; rewrite size_opp geq_max (leq_trans (size_take_le _)) //=.
    by apply: leq_trans (size_polyC_leq1 _) _.
  by apply: leq_trans (size_mul_leq _ _) _; rewrite size_XsubC; exact: (size_take_le pf.1.1 : _ <= _)%N.
apply: (at_most_roots P0 sP) => tau nt; case E0: (P.[tau] == 0); first exact/eqP.
case: nt => s us Hs; case: s us Hs => [|a [|b s]] // /= /andP[nab _] Hs.
have Ha := E _ _ (Hs a (mem_head _ _)); have Hb := E _ _ (Hs b _).
have {}Hb := Hb (mem_behead (s := [:: a, b & s]) (mem_head _ _)).
have Q0 : Q.[tau] != 0 by apply: contraFneq E0 => q0; rewrite -Ha q0 mulr0 addr0.
move: nab; rewrite inE negb_or => /andP[/eqP nab _]; case: nab; apply: (mulIf Q0); apply: (addrI P.[tau]).
by rewrite Ha Hb.
Qed.

Section Final.
Variables (env : fenv F) (FS : fsrng F).
(** Everything but the verifying key of the scheme decides on the last check. *)
Lemma verdict_check (S : vinput ALG) pf : exists r : res (combination F * F * F),
  forall vk : pc_vk ALG, verdict env FS vk S pf =
    (t <- r ;; b <- pc_check (p := ALG) vk t.1.1 t.1.2 t.2 (mp_opening (tp_multiopen pf)) ;; if b then Ok tt else Err OpeningCheckFailed).
Proof.
pose ch := derive_challenges FS pf.
case Ef : (verify_front env (s_vk S) (s_pre S) pf (s_ws S) (s_ins S) (dsize (s_d S)) (ch_theta ch) (ch_xi ch)) => [T|e|e]; first last.
- by exists (Panic e) => vk; apply: (etrans (proj1 (verify_frontE _ _ _ _ _ _ _ _ _ _ _))); rewrite Ef.
- by exists (Err e) => vk; apply: (etrans (proj1 (verify_frontE _ _ _ _ _ _ _ _ _ _ _))); rewrite Ef.
case Ec : (vt_check (s_vk S) (s_ins S) (s_vos S) (dsize (s_d S)) (s_zh S) (ch_beta ch) (ch_gamma ch) (ch_alpha ch) (ch_xi ch) T) => [[]|e|e]; first last.
- by exists (Panic e) => vk; apply: (etrans (proj1 (verify_frontE _ _ _ _ _ _ _ _ _ _ _))); rewrite Ef; cbn [rbind]; rewrite Ec.
- by exists (Err e) => vk; apply: (etrans (proj1 (verify_frontE _ _ _ _ _ _ _ _ _ _ _))); rewrite Ef; cbn [rbind]; rewrite Ec.
suff [r Hr] : exists r : res (combination F * F * F), forall vk : pc_vk ALG,
    mo_verify env vk (tp_multiopen pf) (vt_oracles T) (ch_xi ch) (dsize (s_d S)) (ch_fs ch) =
    (t <- r ;; b <- pc_check (p := ALG) vk t.1.1 t.1.2 t.2 (mp_opening (tp_multiopen pf)) ;; if b then Ok tt else Err OpeningCheckFailed).
  exists r => vk; apply: (etrans (proj1 (verify_frontE _ _ _ _ _ _ _ _ _ _ _))); rewrite Ef; cbn [rbind]; rewrite Ec; cbn [rbind].
  exact: Hr.
rewrite /mo_verify; case: (opt_unwrap _) => [d|e|e]; cbn [rbind]; [|by exists (Err e)|by exists (Panic e)].
case: (fs_rand _) => x1 fs1; case: (fs_rand _) => x2 fs2; case: (fs_rand _) => x3 fs3; case: (fs_rand _) => x4 fs4.
case: (mo_zip _ _ _ _ _ _) => [items|e|e]; cbn [rbind]; [|by exists (Err e)|by exists (Panic e)].
by eexists (Ok (_, _, _)) => vk; cbn [rbind fst snd]; reflexivity.
Qed.
End Final.

Lemma transfer (env : fenv F) (S : vinput ALG) cs pf :
  verdict (PC := ALG) env (scripted cs) None S pf <> Ok tt ->
  at_most N (fun tau => ~ at_most 1 (fun secret => let s := srs_of N g tau secret in
    verdict (PC := KZG) env (scripted cs) s (see_input (PC1 := ALG) (PC2 := KZG) (element_of N s) S)
      (see_proof (PC1 := ALG) (PC2 := KZG) (element_of N s) (opening_of N s) pf) = Ok tt)).
Proof.
have [r Hr] := verdict_check env (scripted cs) S pf; rewrite Hr => no.
have E s : verdict (PC := KZG) env (scripted cs) s (see_input (PC1 := ALG) (PC2 := KZG) (element_of N s) S)
      (see_proof (PC1 := ALG) (PC2 := KZG) (element_of N s) (opening_of N s) pf) = verdict (PC := ALG) env (scripted cs) (Some s) S pf.
  by apply: verdict_seen; [exact: element_seen|split].
case: r Hr no => [[[c x] v]|e|e] Hr no; [|by apply: at_most_none => tau; apply; apply: at_most_none => sec; cbv zeta; rewrite E Hr..].
have /(@false_opening c x v (mp_opening (tp_multiopen pf))) : (op c).[x] != v.
  by apply: contra_notN no => /eqP <-; cbn [rbind fst snd]; rewrite /= pevalE eqxx.
apply: at_most_sub => tau n1 n2; apply: n1; apply: at_most_sub n2 => secret; cbv zeta; rewrite E Hr.
cbn [rbind fst snd]; move=> H; have {H} [b H Hb] := rbind_ok H; move: H Hb; case: b => // H _; exact: H.
Qed.
End Algebraic.

(** A claim that is false of the committed polynomial: at most [N] taus leave more than one gamma for
    which the pairing check accepts it, whatever combination of the SRS is sent as opening proof. *)
Theorem c69_false_openings_need_the_secret (F : fieldType) (G : lmodType F) (N : nat) (g : G) (c : combination F) (x v : F)
    (pf : combination F * option F) :
  g != 0 -> (committed_poly N c).[x] != v ->
  at_most N (fun tau => ~ at_most 1 (fun secret => let s := srs_of N g tau secret in
    kzg_check s (element_of N s c) x v (opening_of N s pf) = Ok true)).
Proof. by move=> g0; exact: false_opening. Qed.
Print Assumptions c69_false_openings_need_the_secret.

(** A proof that the exact check rejects: at most [N] taus leave more than one gamma for which verify
    over KZG10 accepts the group elements, whatever the challenges are. *)
Theorem c69_rejected_by_kzg (F : fieldType) (G : lmodType F) (N : nat) (g : G) (Z : Type) (zk_rand : Z -> F * Z)
    (cbytes : G -> bytes) (fbytes : F -> bytes) (env : fenv F) (S : vinput (algebraic G N zk_rand)) (cs : seq F) (pf : tp_proof (algebraic G N zk_rand)) :
  let ALG := algebraic G N zk_rand in let KZG := kzg zk_rand cbytes fbytes in
  g != 0 -> verdict (PC := ALG) env (scripted cs) None S pf <> Ok tt ->
  at_most N (fun tau => ~ at_most 1 (fun secret => let s := srs_of N g tau secret in
    verdict (PC := KZG) env (scripted cs) s (see_input (PC1 := ALG) (PC2 := KZG) (element_of N s) S)
      (see_proof (PC1 := ALG) (PC2 := KZG) (element_of N s) (opening_of N s) pf) = Ok tt)).
Proof. by move=> ALG KZG g0; exact: transfer. Qed.
Print Assumptions c69_rejected_by_kzg.

Lemma rarely_kzg (F : fieldType) (G : lmodType F) (N : nat) (g : G) (Z : Type) (zk_rand : Z -> F * Z)
    (cbytes : G -> bytes) (fbytes : F -> bytes) (env : fenv F) (S : vinput (algebraic G N zk_rand)) cm B D theta beta gamma :
  g != 0 -> rarely_accepted (PC := algebraic G N zk_rand) env None (committed_poly N) S cm B D theta beta gamma ->
  rarely_accepted_kzg cbytes fbytes env g S cm B D theta beta gamma.
Proof.
move=> g0; rewrite /rarely_accepted /rarely_accepted_kzg; apply: at_most_sub => alpha [Q HQ nx]; exists Q => //.
move=> nx'; apply: nx; apply: at_most_sub nx' => xi [base car n1]; exists base => //.
move=> n1'; apply: n1; apply: at_most_sub n1' => x1 n2 n2'; apply: n2.
apply: at_most_sub n2' => x2 [fc Hf n3]; exists fc => //.
move=> n3'; apply: n3; apply: at_most_sub n3' => x3 [qe Hq n4]; exists qe => //.
move=> n4'; apply: n4; apply: at_most_sub n4' => x4 [pi nt]; exists pi.
set pf := with_opening base (MoProof (PC := algebraic G N zk_rand) qe fc pi) in nt *.
case E: (verdict _ _ _ _ _) => [[]|e|e] //; case: nt; apply: transfer => //; by rewrite E.
Qed.

(** A committed witness that breaks a gate on a row of z_h: verify over KZG10 rarely accepts. *)
Theorem c69_kzg_gate_soundness (F : fieldType) (G : lmodType F) (N : nat) (g : G) (Z : Type) (zk_rand : Z -> F * Z)
    (cbytes : G -> bytes) (fbytes : F -> bytes) (env : fenv F)
    (S : vinput (algebraic G N zk_rand)) (es : seq (expr F oquery)) (B : nat) (cm : commitments (algebraic G N zk_rand))
    (theta beta gamma : F) (i : nat) (e : expr F oquery) :
  let n := dsize (s_d S) in let op : pc_com (algebraic G N zk_rand) -> {poly F} := committed_poly N in
  g != 0 -> fenv_ok env -> std_domain env (s_d S) -> verifiable S es ->
  (forall o, occurs o (s_ins S) -> (size (o_data o) <= B)%N) ->
  (i < n)%N -> (Poly (s_zh S)).[dgen (s_d S) ^+ i] = 0 ->
  occurs e es -> meaning (row_value (bound_ws op S (cm_w cm)) (bound_ins S) (bound_fs op S) n i) e != 0 ->
  well_counted S cm -> small op S cm B ->
  rarely_accepted_kzg cbytes fbytes env g S cm B (constraint_degree S es B) theta beta gamma.
Proof.
move=> n op g0 eok sd rdy smi Hi zi He ne cnt sml; apply: rarely_kzg => //.
exact (@c57_gate_soundness F env (algebraic G N zk_rand) None op S es B cm theta beta gamma i e eok (@exact_binding F G N Z zk_rand) sd rdy smi Hi zi He ne cnt sml).
Qed.
Print Assumptions c69_kzg_gate_soundness.

(** The witness [W] breaks the copy constraint of cell [bad] (compare [c57_copy_soundness]). *)
Theorem c69_kzg_copy_soundness (F : fieldType) (G : lmodType F) (N : nat) (g : G) (Z : Type) (zk_rand : Z -> F * Z)
    (cbytes : G -> bytes) (fbytes : F -> bytes) (env : fenv F)
    (S : vinput (algebraic G N zk_rand)) (es : seq (expr F oquery)) (B : nat) (W L : seq (pc_com (algebraic G N zk_rand))) (theta : F)
    (tau : nat * nat -> nat * nat) (bad : nat * nat) :
  let d := s_d S in let n := dsize d in let u := pa_usable_rows (s_perm S) in let op : pc_com (algebraic G N zk_rand) -> {poly F} := committed_poly N in
  let deltas := pa_deltas (s_perm S) in
  let cols := copied (bound_ws op S W) in let K := size cols in
  let sigma := cell_value (map (committed op d) (vp_perm (s_pre S))) in
  g != 0 -> fenv_ok env -> std_domain env d -> verifiable S es ->
  (forall o, occurs o (s_ins S) -> (size (o_data o) <= B)%N) ->
  (forall i, (i < n)%N -> (Poly (s_zh S)).[dgen d ^+ i] = 0) ->
  (forall i, (i < n)%N -> (po_evals (committed op d (vp_q_blind (s_pre S))))`_i = (u < i)%N%:R) ->
  (forall j j', (j < K)%N -> (j' < K)%N -> deltas`_j' != 0 /\ ((deltas`_j / deltas`_j') ^+ n = 1 -> j = j')) ->
  (forall c, is_cell K u c -> is_cell K u (tau c)) ->
  (forall c, is_cell K u c -> sigma c.1 c.2 = deltas`_(tau c).1 * dgen d ^+ (tau c).2) ->
  is_cell K u bad -> cell_value cols bad.1 bad.2 <> cell_value cols (tau bad).1 (tau bad).2 ->
  at_most (K * u) (fun beta => ~ at_most (2 * (K * u)) (fun gamma => exists Zs LZ, let cm := Commitments W L Zs LZ in
    [/\ well_counted S cm, small op S cm B & ~ rarely_accepted_kzg cbytes fbytes env g S cm B (constraint_degree S es B) theta beta gamma])).
Proof.
move=> d n u op deltas cols K sigma g0 eok sd rdy smi zh bl dd tc ts bc viol.
have := @c57_copy_soundness F env (algebraic G N zk_rand) None op S es B W L theta tau bad eok (@exact_binding F G N Z zk_rand) sd rdy smi zh bl dd tc ts bc viol.
apply: at_most_sub => beta nb ng; apply: nb; apply: at_most_sub ng => gamma [Zs [LZ [cnt sml nr]]]; exists Zs, LZ; split=> //.
by move=> r; apply: nr; apply: rarely_kzg.
Qed.
Print Assumptions c69_kzg_copy_soundness.

(** The tuple on usable row [bad] is in no usable row of the table (compare [c57_lookup_soundness]). *)
Theorem c69_kzg_lookup_soundness (F : fieldType) (G : lmodType F) (N : nat) (g : G) (Z : Type) (zk_rand : Z -> F * Z)
    (cbytes : G -> bytes) (fbytes : F -> bytes) (env : fenv F)
    (S : vinput (algebraic G N zk_rand)) (es : seq (expr F oquery)) (B : nat) (W : seq (pc_com (algebraic G N zk_rand))) (l : generic_lookup_vo F)
    (xs : seq (expr F oquery)) (tqs : seq oquery) (bad : nat) :
  let d := s_d S in let n := dsize d in let u := pa_usable_rows (s_perm S) in let op : pc_com (algebraic G N zk_rand) -> {poly F} := committed_poly N in
  g != 0 -> fenv_ok env -> std_domain env d -> verifiable S es ->
  (forall o, occurs o (s_ins S) -> (size (o_data o) <= B)%N) ->
  (forall i, (i < n)%N -> (Poly (s_zh S)).[dgen d ^+ i] = 0) ->
  (forall i, (i < n)%N -> (po_evals (committed op d (vp_q_blind (s_pre S))))`_i = (u < i)%N%:R) ->
  occurs l (s_lookups S) -> gl_get_expressions l = Ok xs -> gl_get_table_queries l = Ok tqs ->
  (bad < u)%N ->
  (forall j, (j < u)%N -> [seq meaning (row_value (bound_ws op S W) (bound_ins S) (bound_fs op S) n bad) e | e <- xs]
     <> [seq (column_named (bound_ts op S) (oq_label q))`_j | q <- tqs]) ->
  at_most (u * (size xs).-1) (fun theta => exists L, ~ at_most (2 * u) (fun beta => ~ at_most (2 * u) (fun gamma =>
    exists Zs LZ, let cm := Commitments W L Zs LZ in
    [/\ well_counted S cm, small op S cm B & ~ rarely_accepted_kzg cbytes fbytes env g S cm B (constraint_degree S es B) theta beta gamma]))).
Proof.
move=> d n u op g0 eok sd rdy smi zh bl Hl Ex Eq Hb bt.
have := @c57_lookup_soundness F env (algebraic G N zk_rand) None op S es B W l xs tqs bad eok (@exact_binding F G N Z zk_rand) sd rdy smi zh bl Hl Ex Eq Hb bt.
apply: at_most_sub => theta [L nL]; exists L => nL'; apply: nL; apply: at_most_sub nL' => beta nb ng; apply: nb.
apply: at_most_sub ng => gamma [Zs [LZ [cnt sml nr]]]; exists Zs, LZ; split=> //.
by move=> r; apply: nr; apply: rarely_kzg.
Qed.
Print Assumptions c69_kzg_lookup_soundness.

(** ** Concrete cases *)
From Coq Require Import NArith.
From Verif Require Import ModelGates Field97 Concrete ProofPC ProofConcrete ProofTools ProofCheck ProofCheck2 Run97 PropsEndToEnd PropsMultiopen.
Local Close Scope ring_scope.

(** The false statement of PropsSound.v, committed to by an algebraic prover with an SRS of 8 powers. *)
Definition G97 := [lmodType f97 of f97^o].
Definition ALG97 : pcs F97 := algebraic (F := F97) G97 8 lcg_rand.
Definition g97 : G97 := mk 3.
Definition al (p : lpoly F97) : pc_com ALG97 := (p, [::]).
Definition al_S : vinput ALG97 := see_input (PC1 := PLAIN97) al p_S.
Definition al_cm : commitments ALG97 := Commitments (map al p_W) [:: al p_any; al p_any] [:: al p_any; al p_any] [:: al p_any].
Lemma al_verifiable : verifiable al_S p_es.
Proof. by apply: verifiableP; [vm_compute|vm_compute|apply: (getsP (C := r_C)); vm_compute|vm_compute]. Qed.
Lemma al_counted : well_counted al_S al_cm.
Proof. by split; apply/eqP; vm_compute. Qed.
Lemma al_small : small (PC := ALG97) (committed_poly (F := F97) 8) al_S al_cm 8.
Proof. by split=> *; exact: size_take_le. Qed.
Lemma al_committed (vs : seq (voracle F97 (pc_com PLAIN97))) :
  all (fun v : voracle F97 (pc_com PLAIN97) => if vd_com (o_data v) is Some p then size (p : lpoly F97) <= 8 else true) vs ->
  map (committed (PC := ALG97) (committed_poly (F := F97) 8) (s_d p_S)) (map (see_oracle (PC1 := PLAIN97) (PC2 := ALG97) al) vs) =
  map (committed p_op (s_d p_S)) vs.
Proof.
elim: vs => [|[l r [k e c p]] vs IH] // H; rewrite [all _ _]/= in H; case/andP: H => H1 H2.
rewrite !map_cons (IH H2); congr cons; case: c H1 => [c|] H1 //.
by rewrite /committed /committed_poly; cbn [o_label o_rots o_data see_oracle get_commitment vd_com omap obind oapp ok_or opt_or fst al]; rewrite take_oversize.
Qed.
Lemma al_gate_bad : (meaning (row_value (bound_ws (PC := ALG97) (committed_poly (F := F97) 8) al_S (cm_w al_cm)) (bound_ins al_S)
  (bound_fs (PC := ALG97) (committed_poly (F := F97) 8) al_S) (dsize (s_d al_S)) 0) p_gate != 0)%R.
Proof.
have E1 : bound_ws (PC := ALG97) (committed_poly (F := F97) 8) al_S (cm_w al_cm) = bound_ws p_op p_S p_W.
  rewrite /bound_ws; cbn [s_ws s_d al_S see_input cm_w al_cm]; rewrite (register_commitments_seen (PC1 := PLAIN97) (PC2 := ALG97) al).
  by apply: al_committed; vm_compute.
have E2 : bound_fs (PC := ALG97) (committed_poly (F := F97) 8) al_S = bound_fs p_op p_S.
  by apply: al_committed; vm_compute.
rewrite E1 E2; exact p_gate_bad.
Qed.
Example ex_c69_gate (theta beta gamma : F97) :
  rarely_accepted_kzg (F := F97) (G := G97) f97_bytes f97_bytes env97 g97 al_S al_cm 8 (constraint_degree al_S p_es 8) theta beta gamma.
Proof.
apply (@c69_kzg_gate_soundness F97 G97 8 g97 N lcg_rand f97_bytes f97_bytes env97 al_S p_es 8 al_cm theta beta gamma 0 p_gate (isT <: is_true (g97 != 0%R)) env97_ok dom97_8 al_verifiable p_public); last first.
- exact al_small.
- exact al_counted.
- exact al_gate_bad.
- by left.
- by apply p_zh.
- by vm_compute.
Qed.
(** C68 for the image of that statement over KZG10, any proof and any challenges. *)
Example ex_c68 (s : kzg_srs G97) (cs : seq F97) (pf : tp_proof ALG97) :
  verdict (PC := KZG97) env97 (scripted cs) s
    (see_input (PC1 := ALG97) (PC2 := KZG97) (element_of 8 s) al_S)
    (see_proof (PC1 := ALG97) (PC2 := KZG97) (element_of 8 s) (opening_of 8 s) pf) =
  verdict (PC := ALG97) env97 (scripted cs) (Some s) al_S pf.
Proof. apply: c68_commitments_are_opaque; [exact: element_seen|by split]. Qed.
(** 1 + 2X + 3X^2 is 86 at 5, not 0. *)
Example ex_c69_false (pf : combination F97 * option F97) :
  at_most 8 (fun tau => ~ at_most 1 (fun secret => let s := srs_of 8 g97 tau secret in
    kzg_check (F := F97) s (element_of 8 s (al p_any)) (mk 5) (mk 0) (opening_of 8 s pf) = Ok true)).
Proof.
apply: (@c69_false_openings_need_the_secret F97 G97 8 g97 (al p_any) (mk 5) (mk 0) pf (isT <: is_true (g97 != 0%R))).
rewrite /committed_poly -pevalE. by vm_compute.
Qed.
(** The bound on tau is needed: for tau = 11 the constant opening proof (p(11) - 0) / (11 - 5) works for every gamma;
    and a true claim is accepted for every secret tried. *)
Example ex_c69_lucky (k : N) : let s := srs_of 8 g97 (mk 11) (mk k) in
  kzg_check (F := F97) s (element_of 8 s (al p_any)) (mk 5) (mk 0) (opening_of 8 s (([:: (peval p_any (mk 11) / (mk 11 - mk 5))%R], [::]), None)) = Ok true.
Proof.
rewrite /kzg_check /element_of /opening_of /kzg_commit; cbn [fst snd take k_g k_gamma_g k_tau srs_of al peval].
congr Ok; apply/eqP; rewrite !scale0r !addr0 !subr0 -[mk 0]/(0%R : F97) scale0r subr0 scalerA; congr (_ *: _)%R; apply/eqP; by vm_compute.
Qed.
Example ex_c69_true : all (fun tau => all (fun secret => let s := srs_of 8 g97 (mk tau) (mk secret) in
    ok_is (kzg_check (F := F97) s (element_of 8 s (al p_any)) (mk 5) (mk 86) (opening_of 8 s ((kzg_witness p_any (mk 5), [::]), None))) true)
  [:: 1; 2; 50; 96]%num) [:: 1; 5; 11; 96]%num.
Proof. by vm_compute. Qed.
