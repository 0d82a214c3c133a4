(** One changed evaluation in a proof changes one claim of the multi-opening. *)
From mathcomp Require Import all_ssreflect all_algebra zify.
From Coq Require Import String.
From Verif Require Import Base ModelPoly ModelVO ModelOracle ModelPC ModelPermutation ModelLookup ModelIndexer ModelMultiproof ModelProtocol
  Spec SpecProtocol SpecPIOP SpecMultiopen SpecCircuit SpecSound SpecShape SpecShift SpecSingle
  ProofBase ProofPoly ProofDomain ProofEach ProofOracle ProofLookup ProofPermutation ProofVO ProofProver ProofFront ProofCounts ProofMultiopen ProofMultiopen2 ProofMultiopen3
  ProofClaims ProofHistory ProofComplete ProofSound ProofShape ProofTotal ProofTotal3 ProofShift ProofSingle.

Set Implicit Arguments.
Unset Strict Implicit.
Unset Printing Implicit Defensive.

Import GRing.Theory.
Local Open Scope ring_scope.
Local Arguments mo_verifier_item : simpl never.
Local Arguments mo_f_eval : simpl never.

Section Registered.
Variables (F : fieldType) (C : Type).
Notation vorc := (voracle F C).

(** [b] has another claim for [x] than [a] and the same ones for all other points. *)
Definition differs (x : F) (a b : vorc) : Prop :=
  [/\ same_but_evals a b, vo_query b x <> vo_query a x & forall y, y != x -> vo_query b y = vo_query a y].

Lemma upd_cat (A : Type) (A1 A2 : seq A) a i f :
  upd (A1 ++ a :: A2) i f = if (i < size A1)%N then upd A1 i f ++ a :: A2
    else if i == size A1 then A1 ++ f a :: A2 else A1 ++ a :: upd A2 (i - size A1).-1 f.
Proof.
elim: A1 i => [|b A1 IH] [|i] //=.
by rewrite IH ltnS eqSS subSS; case: ifP => // _; case: ifP.
Qed.

Lemma reg_tail x missing es (A1 A2 B B' : seq vorc) a a' : differs x a a' ->
  (forall e, e \in es -> e.1.1 = o_label a -> e.1.2.2 != x) ->
  register_evals (A1 ++ a :: A2) missing es = Ok B -> register_evals (A1 ++ a' :: A2) missing es = Ok B' ->
  exists B1 B2 b b', [/\ B = B1 ++ b :: B2, B' = B1 ++ b' :: B2, differs x b b' & o_label b = o_label a].
Proof.
elim: es A1 A2 a a' => [|e es IH] A1 A2 a a' D Hx.
  by case=> <- [<-]; exists A1, A2, a, a'.
have [sb nq sq] := D; have El : o_label a' = o_label a by case: sb.
rewrite /register_evals /= -!/(register_evals _ _ _).
have -> : map (@o_label _) (A1 ++ a' :: A2) = map (@o_label _) (A1 ++ a :: A2) by rewrite !map_cat /= El.
case E: (label_index _ _) => [i|] //=; rewrite !upd_cat.
have Hx' e' : e' \in es -> e'.1.1 = o_label a -> e'.1.2.2 != x by move=> He; apply: Hx; rewrite inE He orbT.
case: ifP => // lt; first exact: IH.
case: eqP => // Ei; last exact: IH.
have ne : e.1.2.2 != x.
  apply: Hx; rewrite ?mem_head //; have [_ /(_ EmptyString)] := label_index_some E.
  by rewrite map_cat nth_cat size_map lt Ei subnn /= => ->.
have D' : differs x (register_eval_at_challenge e.1.2.2 e.2 a) (register_eval_at_challenge e.1.2.2 e.2 a').
  split; rewrite ?vo_query_register ?(negbTE ne) //.
  by move=> y ny; rewrite !vo_query_register; case: eqP => // _; exact: sq.
by move=> H H'; have [B1 [B2 [b [b' [-> -> Db Eb]]]]] := IH A1 A2 _ _ D' Hx' H H'; exists B1, B2, b, b'.
Qed.

Lemma upd_split (A : Type) (s : seq A) i : (i < size s)%N -> exists s1 s2 a, s = s1 ++ a :: s2 /\ size s1 = i.
Proof.
elim: s i => [|a s IH] [|i] //= Hi; first by exists [::], s, a.
by have [s1 [s2 [b [-> Es]]]] := IH i Hi; exists (a :: s1), s2, b; rewrite /= Es.
Qed.

Lemma rfoldM_cat (A B : Type) (f : A -> B -> res A) a s t : rfoldM f a (s ++ t) = (b <- rfoldM f a s ;; rfoldM f b t).
Proof. by elim: s a => //= b s IH a; case: (f a b) => //=. Qed.

Lemma reg_pair missing q v v' es1 es2 (os A A' : seq vorc) :
  v != v' -> (forall e, e \in es2 -> e.1.1 = q.1 -> e.1.2.2 != q.2.2) ->
  register_evals os missing (es1 ++ (q, v) :: es2) = Ok A -> register_evals os missing (es1 ++ (q, v') :: es2) = Ok A' ->
  exists A1 A2 a a', [/\ A = A1 ++ a :: A2, A' = A1 ++ a' :: A2, differs q.2.2 a a' & o_label a = q.1].
Proof.
move=> nv Hx; rewrite /register_evals !rfoldM_cat.
case: (rfoldM _ os es1) => //= B; case E: (label_index _ _) => [i|] //=; rewrite -!/(register_evals _ _ _).
have [] := label_index_some E; rewrite size_map => Hi Hn.
have [B1 [B2 [b [EB Eb]]]] := upd_split Hi; move/(_ EmptyString): Hn.
rewrite EB map_cat nth_cat size_map Eb ltnn subnn /= => Ebl; rewrite !upd_cat Eb ltnn eqxx.
have D : differs q.2.2 (register_eval_at_challenge q.2.2 v b) (register_eval_at_challenge q.2.2 v' b).
  split=> //; first by rewrite !vo_query_register eqxx => -[E']; move: nv; rewrite E' eqxx.
  by move=> y ny; rewrite !vo_query_register eq_sym (negbTE ny).
move=> H H'; have [|A1 [A2 [a [a' [-> -> Da Er]]]]] := reg_tail D _ H H'; first by rewrite /= Ebl.
by exists A1, A2, a, a'; split=> //; rewrite Er.
Qed.
End Registered.

Section Group.
Variables (F : fieldType) (PC : pcs F) (d : domain F) (xi : F).
Hypothesis dok : domain_ok d.
Notation vorc := (voracle F (pc_com PC)).
Notation w := (dgen d).

Lemma query_set_uniq P (os : seq (oracle P)) qs : rots_below os (dsize d) ->
  get_query_set os xi_label xi (elements d) = Ok qs -> uniq qs.
Proof.
move=> rb; rewrite get_query_setE // => -[<-]; apply: (@map_uniq _ _ (@qkey F)); rewrite fold_keys; last exact: entries_keyed.
by have [] := inserted_all key_lt_total (map (@qkey F) (query_entries os xi_label xi d)) (isT : sorted key_lt [::]) => H _; exact: sorted_uniq key_lt_trans key_lt_irr _ H.
Qed.

Lemma group_pair missing (os A A' : seq vorc) qs evs j v :
  uniq (map (@o_label _) os) -> rots_below os (dsize d) -> get_query_set os xi_label xi (elements d) = Ok qs ->
  size qs = size evs -> (j < size evs)%N -> v != evs`_j ->
  (forall o, occurs o os -> uniq [seq rot_point w r xi | r <- o_rots o]) ->
  register_evals os missing (zip qs evs) = Ok A -> register_evals os missing (zip qs (set_nth 0 evs j v)) = Ok A' ->
  exists A1 A2 a a' r, [/\ A = A1 ++ a :: A2, A' = A1 ++ a' :: A2, same_but_evals a a' & one_claim_changed w xi r a a'].
Proof.
move=> ul rb Hq sz Hj nv up H H'.
have uq := query_set_uniq rb Hq.
have [qs' Hq' Hm] := get_query_set_ok xi_label xi dok rb; have {Hq'}Eq : qs' = qs by move: Hq'; rewrite Hq => -[].
subst qs'; have Hjq : (j < size qs)%N by rewrite sz.
set q := nth (EmptyString, (EmptyString, 0)) qs j.
have Ez : zip qs evs = zip (take j qs) (take j evs) ++ (q, evs`_j) :: zip (drop j.+1 qs) (drop j.+1 evs).
  rewrite -[in LHS](cat_take_drop j qs) -[in LHS](cat_take_drop j evs) zip_cat ?size_takel //; try exact: ltnW.
  by rewrite (drop_nth (EmptyString, (EmptyString, 0)) Hjq) (drop_nth 0 Hj).
have Ez' : zip qs (set_nth 0 evs j v) = zip (take j qs) (take j evs) ++ (q, v) :: zip (drop j.+1 qs) (drop j.+1 evs).
  have -> : set_nth 0 evs j v = take j evs ++ v :: drop j.+1 evs by rewrite set_nthE Hj.
  rewrite -[in LHS](cat_take_drop j qs) zip_cat ?size_takel //; try exact: ltnW.
  by rewrite (drop_nth (EmptyString, (EmptyString, 0)) Hjq).
have Hqm : q \in query_entries os xi_label xi d by rewrite -Hm mem_nth.
have [k [o [r [Ho Hr Eqq]]]] := query_entries_inv Hqm.
have same_or a b : idx os a = Ok b -> o_label b = o_label o -> b = o.
  move=> Ha El; have [Ha' Hna] := idx_ok Ha; have [Hk' Hnk] := idx_ok Ho.
  suff Eak : a = k by move: Ha; rewrite Eak Ho => -[].
  apply/eqP; rewrite -(nth_uniq EmptyString _ _ ul) ?size_map // !(nth_map o) //; by rewrite Hna Hnk El.
have up_o := up o (occurs_idx Ho).
have pinj r1 r2 : r1 \in o_rots o -> r2 \in o_rots o -> rot_point w r1 xi = rot_point w r2 xi -> r1 = r2.
  move=> h1 h2 E; have := nth_uniq 0 _ _ up_o; move=> /(_ (seq.index r1 (o_rots o)) (seq.index r2 (o_rots o))).
  rewrite !size_map !index_mem => /(_ h1 h2); rewrite !(nth_map curr) ?index_mem // !nth_index // E eqxx => /esym/eqP Ei.
  by rewrite -(nth_index curr h1) Ei nth_index.
have later e : e \in zip (drop j.+1 qs) (drop j.+1 evs) -> e.1.1 = q.1 -> e.1.2.2 != q.2.2.
  move=> He El; have He1 : e.1 \in drop j.+1 qs.
    have /(map_f fst) := He; rewrite -/unzip1 unzip1_zip // !size_drop sz; exact: leqnn.
  have He2 : e.1 \in query_entries os xi_label xi d by rewrite -Hm; exact: mem_drop He1.
  have [k' [o' [r' [Ho' Hr' Ee]]]] := query_entries_inv He2.
  have Eo : o' = o by apply: same_or Ho' _; move: El; rewrite Ee Eqq.
  rewrite Ee Eqq /=; apply/eqP => Ep; have Err : r' = r by apply: pinj => //; rewrite -Eo.
  move: uq; rewrite -[qs](cat_take_drop j) (drop_nth (EmptyString, (EmptyString, 0)) Hjq) -/q cat_uniq => /and3P[_ _ /=].
  by rewrite -{1}(_ : e.1 = q) ?He1 // Ee Eqq Eo Err.
rewrite Ez in H; rewrite Ez' in H'.
have [A1 [A2 [a [a' [EA EA' [sb nq same] El]]]]] : exists A1 A2 a a', [/\ A = A1 ++ a :: A2, A' = A1 ++ a' :: A2, differs q.2.2 a a' & o_label a = q.1].
  by apply: reg_pair later H H'; rewrite eq_sym.
exists A1, A2, a, a', r; split=> //.
have Era : o_rots a = o_rots o.
  have S := register_evals_sbe H; rewrite EA in S.
  have : exists2 b, occurs b os & same_but_evals b a.
    elim: (os) (A1) S => [|b s IH] [|a1 B1] //= []; first by exists b => //; left.
    by move=> _ /IH [c Hc Hs]; exists c => //; right.
  by case=> b Hb [E1 E2 _ _ _]; have [i Hi] := occurs_ex_idx Hb; rewrite E2 (same_or _ _ Hi) // -E1 El Eqq.
have Ept : q.2.2 = rot_point w r xi by rewrite Eqq.
rewrite /one_claim_changed -Ept; split=> //; rewrite ?Era //.
- by rewrite -Era; case: sb.
- by case: sb => E1 _ E2 E3 _; rewrite /get_commitment E1 E2 E3.
move=> s Hs ns; apply: same; rewrite Ept; apply: contraNneq ns => /pinj -> //; exact: eqxx.
Qed.
End Group.

Section Points.
Variables (F : fieldType) (env : fenv F) (PC : pcs F) (FS : fsrng F).
Notation vorc := (voracle F (pc_com PC)).
(** In an accepted opening all points of a set are distinct. *)
Lemma accepted_points (pvk : pc_vk PC) pf (os : seq vorc) xi ds d (fs : fs_state FS) : fenv_ok env -> domain_new env ds = Some d ->
  (size (undup (map (@o_rots _) os)) <= size (mp_q_evals pf))%N -> mo_verify env pvk pf os xi ds fs = Ok tt ->
  forall o, occurs o os -> uniq [seq rot_point (dgen d) r xi | r <- o_rots o].
Proof.
move=> eok Ed sq; have [_ _ dok _] := domain_new_spec eok Ed.
rewrite /mo_verify Ed rbind_Ok; case: (fs_rand fs) => [x1 fs1]; case: (fs_rand fs1) => [x2 fs2].
case: (fs_rand (fs_absorb fs2 _)) => [x3 fs3]; case: (fs_rand (fs_absorb fs3 _)) => [x4 fs4] H o Ho.
have {H}[I HI _] := rbind_ok H.
have : o_rots o \in map fst (opening_sets (fun o : vorc => o_rots o) os).
  have [_ ->] := opening_sets_keys (fun o : vorc => o_rots o) os; exact: occurs_in_map.
move: sq; rewrite -size_opening_sets; move: (opening_sets _ os) (mp_q_evals pf) I HI => T.
elim: T => [|[k l] T IH] [|qe qs] I //= H; rewrite ltnS => sz.
have [[c evs] V {}H] := rbind_ok H; have [f _ {}H] := rbind_ok H; have [R HR _] := rbind_ok H.
rewrite inE => /orP[/eqP ->|]; last exact: IH HR sz.
by have [<-] := item_points dok V.
Qed.
End Points.

Section Fronts.
Variables (F : fieldType) (env : fenv F) (PC : pcs F).
Notation vorc := (voracle F (pc_com PC)).

Lemma primes_any ws ws' ins p p' th x om oms (l : seq (nat * (generic_lookup_vo F * seq (pc_com PC) * seq F))) los los' :
  rmapM (lookup_oracles_v ws ins p th x om oms) l = Ok los -> rmapM (lookup_oracles_v ws' ins p' th x om oms) l = Ok los' ->
  lookup_primes los = lookup_primes los'.
Proof.
elim: l los los' => [|[k [[g c] e]] l IH] los los' /=; first by case=> <- [<-].
case: (gl_get_expressions g) => [xs|?|?] //=; case: (gl_get_table_queries g) => [ts|?|?] //=.
case: (construct_a_and_s_verifier ws _ _ _ _ _ _ _ _) => [[a s]|?|?] //=; case: (construct_a_and_s_verifier ws' _ _ _ _ _ _ _ _) => [[a' s']|?|?] //=;
case: (idx e 0) => [e0|?|?] //=; case: (idx e 1) => [e1|?|?] //=; case: (idx c 0) => [c0|?|?] //=; case: (idx e 2) => [e2|?|?] //=; case: (idx c 1) => [c1|?|?] //=;
case E: (rmapM _ l) => [t|?|?] //=; case E': (rmapM _ l) => [t'|?|?] //= -[<-] [<-].
by rewrite /lookup_primes /= -!/(lookup_primes _) (IH _ _ E E').
Qed.

Variables (vk : verifier_key F) (pre : verifier_pre PC) (ws0 : seq vorc) (ins : seq (ioracle F)) (ds : nat) (theta xi : F).
Notation ix := (vk_index vk).
Notation lookups := (ix_lookups ix).
Notation zos cs := [seq z_oracle_v (pa_usable_rows (ix_perm ix)) (size cs) kc | kc <- enumerate cs].
(** One of the vectors of evaluations of a proof, and the oracles it belongs to before and after. *)
Definition registered (d : domain F) (os : seq vorc) (evs : seq F) (os' : seq vorc) missing : Prop :=
  exists qs, [/\ get_query_set os xi_label xi (elements d) = Ok qs, size qs = size evs & register_evals os missing (zip qs evs) = Ok os'].
Record front_of (pf : tp_proof PC) (d : domain F) (T : vtrace PC) : Prop := FrontOf {
  fo_d : domain_new env ds = Some d;
  fo_chunks : rmapM (quotient_oracle_v xi (tp_quotient_evals pf)) (enumerate (tp_quotient_commitments pf)) = Ok (vt_chunks T);
  fo_ws : registered d (register_commitments ws0 (tp_witness_commitments pf)) (tp_witness_evals pf) (vt_ws T) MissingWitnessOracle;
  fo_fixed : registered d (vp_fixed pre) (tp_fixed_evals pf) (vt_fixed T) MissingFixedOracle;
  fo_table : registered d (vp_table pre) (tp_table_evals pf) (vt_table T) MissingLookupTableOracle;
  fo_perm : size (vp_perm pre) = size (tp_perm_evals pf) /\
    vt_perm T = [seq register_eval_at_challenge xi se.2 se.1 | se <- zip (vp_perm pre) (tp_perm_evals pf)];
  fo_qb : vt_qb T = register_eval_at_challenge xi (tp_q_blind_eval pf) (vp_q_blind pre);
  fo_los : exists om, finv (element d 1) = Ok om /\ 
    rmapM (lookup_oracles_v (vt_ws T) ins (VerifierPre (vt_fixed T) (vt_table T) (vt_perm T) (vp_q_blind pre)) theta xi om (elements d))
      (enumerate (zip (zip lookups (chunks 2 (tp_lookup_commitments pf))) (chunks 3 (tp_lookup_evals pf)))) = Ok (vt_los T);
  fo_lzs : rmapM (lookup_z_oracle_v xi (element d 1)) (enumerate (zip (tp_lookup_z_commitments pf) (chunks 2 (tp_lookup_z_evals pf)))) = Ok (vt_lzs T);
  fo_zs : registered d (zos (tp_z_commitments pf)) (tp_z_evals pf) (vt_zs T) MissingPermutationOracle }.

Lemma front_inv pf T : verify_front env vk pre pf ws0 ins ds theta xi = Ok T -> exists d, front_of pf d T.
Proof.
rewrite /verify_front => H.
have [qc Ec {}H] := rbind_ok H; have [d Ed {}H] := rbind_ok H.
have [qw Ew {}H] := rbind_ok H; have [_ /rassert_ok /eqP sw {}H] := rbind_ok H; have [ws Rw {}H] := rbind_ok H.
have [qf Ef {}H] := rbind_ok H; have [_ /rassert_ok /eqP sf {}H] := rbind_ok H; have [fx Rf {}H] := rbind_ok H.
have [qt Et {}H] := rbind_ok H; have [_ /rassert_ok /eqP st {}H] := rbind_ok H; have [tb Rt {}H] := rbind_ok H.
have [_ /rassert_ok /eqP sp {}H] := rbind_ok H; cbv zeta in H.
have [om Eo {}H] := rbind_ok H; have [_ _ {}H] := rbind_ok H; have [_ _ {}H] := rbind_ok H.
have [los El {}H] := rbind_ok H; have [_ _ {}H] := rbind_ok H; have [_ _ {}H] := rbind_ok H.
have [lzs Elz {}H] := rbind_ok H; have [nz _ {}H] := rbind_ok H; have [_ /rassert_ok /eqP Ez {}H] := rbind_ok H; subst nz.
have [qz Eqz {}H] := rbind_ok H; have [_ /rassert_ok /eqP sz {}H] := rbind_ok H; have [zs Rz {}H] := rbind_ok H.
case: H => <-; exists d; split=> //=.
- by case: (domain_new env ds) Ed => //= ? [->].
- by exists qw. - by exists qf. - by exists qt. - by exists om. - by exists qz.
Qed.
End Fronts.
