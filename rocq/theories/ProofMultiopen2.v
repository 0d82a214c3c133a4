(** Soundness of the multi-opening against public-coin challenges. *)
From mathcomp Require Import all_ssreflect all_algebra zify.
From Verif Require Import Base ModelPoly ModelVO ModelOracle ModelPC ModelMultiproof Spec SpecProtocol SpecMultiopen
  ProofBase ProofPoly ProofDomain ProofOracle ProofPermArg ProofLookup ProofOpen ProofVO ProofMultiopen.

Set Implicit Arguments.
Unset Strict Implicit.
Unset Printing Implicit Defensive.

Import GRing.Theory.
Local Open Scope ring_scope.
Local Arguments mo_verifier_item : simpl never.
Local Arguments mo_f_eval : simpl never.

Section Members.
Variables (V : Type) (key : V -> seq rotation).
Implicit Type m : seq (seq rotation * seq V).
(** The members of the set with key [k]. *)
Fixpoint members (k : seq rotation) m : seq V :=
  match m with [::] => [::] | kl :: m' => if kl.1 == k then kl.2 else members k m' end.
Lemma members_notin k m : k \notin map fst m -> members k m = [::].
Proof. by elim: m => //= -[k1 l] m IH /=; rewrite inE negb_or eq_sym => /andP[/negbTE -> /IH]. Qed.
Lemma members_add k v m k' : sorted rots_lt (map fst m) ->
  members k' (oset_add k v m) = if k == k' then rcons (members k m) v else members k' m.
Proof.
elim: m => [|[k1 l] m IH] /=; first by case: eqP.
move=> Hp; case: (eqVneq k k1) => [<-|ne] /=; first by case: (k == k').
have H1 : (k1 == k) = false by rewrite eq_sym (negbTE ne).
case: ifP => [lt|_] /=; last first.
  rewrite IH ?(path_sorted Hp) //; case: (eqVneq k k') => [<-|]; [by rewrite H1|by case: eqP].
case: eqP => // _; rewrite members_notin //.
have /allP Ha := order_path_min rots_lt_trans Hp.
by apply/negP => /Ha lt'; move: (rots_lt_trans lt lt'); rewrite rots_lt_irr.
Qed.
Lemma sorted_sets s : sorted rots_lt (map fst (opening_sets key s)).
Proof.
rewrite /opening_sets; elim/last_ind: s => // s v IH; rewrite foldl_rcons.
by have [] := oset_add_keys (key v) v IH.
Qed.
Lemma members_sets s k : members k (opening_sets key s) = [seq v <- s | key v == k].
Proof.
elim/last_ind: s => // s v IH; rewrite {1}/opening_sets foldl_rcons -/(opening_sets key s) members_add ?sorted_sets //.
by rewrite filter_rcons; case: (eqVneq (key v) k) => [->|_]; rewrite IH.
Qed.
Lemma opening_setsE s k l : occurs (k, l) (opening_sets key s) -> l = [seq v <- s | key v == k].
Proof.
have [U _] := opening_sets_keys key s; move=> H; rewrite -members_sets; move: U H.
elim: (opening_sets key s) => //= -[k1 l1] m IH /= /andP[ni U] [[<- <-]|H]; first by rewrite eqxx.
have : k \in map fst m.
  by elim: (m) H => //= -[k2 l2] m2 IH2 [[<- _]|/IH2 H]; rewrite inE ?eqxx // H orbT.
by case: eqP => [<-|_ _]; [rewrite (negbTE ni)|exact: IH].
Qed.
End Members.

Lemma at_most_none (A : eqType) K (P : A -> Prop) : (forall x, ~ P x) -> at_most K P.
Proof. by move=> H s; case: s => // x s _ Hs; case: (H x); apply: Hs; rewrite mem_head. Qed.

Section Sound.
Variables (F : fieldType) (env : fenv F) (PC : pcs F).
Hypothesis eok : fenv_ok env.
Variables (pvk : pc_vk PC) (op : pc_com PC -> {poly F}).
Hypothesis bind : pcs_binding pvk op.
Variables (ds : nat) (d : domain F) (xi : F).
Hypothesis Ed : domain_new env ds = Some d.
Let dok : domain_ok d. Proof. by have [_ _ ? _] := domain_new_spec eok Ed. Qed.
Notation vorc := (voracle F (pc_com PC)).

Definition points (k : seq rotation) : seq F := [seq rot_point (dgen d) r xi | r <- k].
(** The aggregated polynomial and value of one opening set. *)
Definition agg_poly (pows : seq F) (os : seq vorc) : {poly F} :=
  \sum_(t <- zip os pows) t.2 *: op (com_of t.1).
Definition agg_claim (pows : seq F) (os : seq vorc) (p : F) : F :=
  \sum_(t <- zip os pows) t.2 * ok_or 0 (vo_query t.1 p).
Definition claims (pows : seq F) (s : seq rotation * seq vorc) : seq (F * F) :=
  [seq (p, agg_claim pows s.2 p) | p <- points s.1].

Lemma fst_claims pows s : map fst (claims pows s) = points s.1.
Proof. by rewrite -map_comp map_id_in. Qed.

Lemma op_fold (xs : seq (vorc * F)) z q :
  rfoldM (fun q ox => c <- get_commitment ox.1 ;; Ok (pc_add q (pc_scale c ox.2))) z xs = Ok q ->
  op q = op z + \sum_(t <- xs) t.2 *: op (com_of t.1).
Proof.
elim: xs z => [|[v x] xs IH] z /=; first by case=> ->; rewrite big_nil addr0.
move=> H; have [z' H1 H2] := rbind_ok H; have [c Ec [E]] := rbind_ok H1.
rewrite (IH _ H2) -E big_cons /= /com_of Ec /= (pb_add bind) (pb_scale bind); by rewrite addrA.
Qed.

Lemma rmapM_points k ps : rmapM (fun r => compute_evaluation_point r xi (elements d)) k = Ok ps -> ps = points k.
Proof.
elim: k ps => [|r k IH] ps /=; first by case=> <-.
move=> H; have [p Hp H1] := rbind_ok H; have [ps' Hps [<-]] := rbind_ok H1.
by have [_ ->] := compute_point_inv dok Hp; rewrite (IH _ Hps).
Qed.

Lemma item_inv pows k os q evs : (size os <= size pows)%N ->
  mo_verifier_item pows (elements d) xi (k, os) = Ok (q, evs) ->
  [/\ op q = agg_poly pows os, evs = claims pows (k, os) & uniq (points k)].
Proof.
move=> Hs; rewrite /mo_verifier_item => H; have [q' Hq H1] := rbind_ok H; have [evs' Hb [Eq Ee]] := rbind_ok H1.
rewrite Eq in Hq; rewrite Ee in Hb.
have [|pvs [Ep Hr [U _] Hv]] := batched_inv _ Hb; first by [].
rewrite {}Ep cat0s {Hb} in Hr U Hv *; have E := rmapM_points Hr; rewrite -E; split=> //.
  by rewrite (op_fold Hq) (pb_zero bind) add0r.
rewrite /claims -E -map_comp -[LHS]map_id; apply/eq_in_map => -[p v] Hpv /=.
have Hi := Hpv; rewrite -index_mem in Hi; have := Hv _ Hi; rewrite nth_index //= => /(batch_inv Hs) [_ ->].
by [].
Qed.

Lemma zip_inv pows x3 S qe items : (forall k os, occurs (k, os) S -> (size os <= size pows)%N) ->
  size qe = size S -> mo_zip pows (elements d) xi x3 S qe = Ok items ->
  size items = size S /\ forall i, (i < size S)%N ->
    let s := nth ([::], [::]) S i in let it := nth (pc_zero PC, 0, 0) items i in
    [/\ op it.1.1 = agg_poly pows s.2, it.2 = qe`_i, uniq (points s.1), x3 \notin points s.1 &
        it.1.2 = (qe`_i - (interp (claims pows s)).[x3]) / (zpoly (points s.1)).[x3]].
Proof.
elim: S qe items => [|[k os] S IH] [|e qe] items //=; first by move=> _ _ [<-].
move=> Hs [E] H; have [[q evs] Hq H1] := rbind_ok H; have [fe Hf H2] := rbind_ok H1.
have [rest Hr [<-]] := rbind_ok H2; have [|Er H3] := IH qe rest _ E Hr.
  by move=> k' os' Ho; apply: (Hs k'); right.
have Hso : (size os <= size pows)%N by apply: (Hs k); left.
have [Eq Ee U] := item_inv Hso Hq.
have Ep := fst_claims pows (k, os); rewrite Ee f_eval_ok ?Ep // in Hf; move: Hf; case: ifP => // Hx [<-].
split; first by rewrite /= Er.
by case=> [|i] Hi /=; [rewrite Eq Hx|exact: H3].
Qed.

Variable vs : seq vorc.
Let S := opening_sets (fun o : vorc => o_rots o) vs.
Let s_ i := nth ([::], [::]) S i.
Let pw (x1 : F) := powers (size vs) 1 x1.
Lemma sets_small x1 k os : occurs (k, os) S -> (size os <= size (pw x1))%N.
Proof. by move=> H; rewrite size_powers; exact: opening_set_size H. Qed.
Lemma sets_few : (size S <= size vs)%N.
Proof. by rewrite /S size_opening_sets (leq_trans (size_undup _)) // size_map. Qed.

(** What an accepting verifier has established. *)
Lemma verify_inv x1 x2 x3 x4 qe fc pi : size qe = size S ->
  mo_verify (FS := scripted [::]) env pvk (MoProof qe fc pi) vs xi ds [:: x1; x2; x3; x4] = Ok tt ->
  [/\ forall i, (i < size S)%N -> uniq (points (s_ i).1), forall i, (i < size S)%N -> x3 \notin points (s_ i).1 &
    (op fc).[x3] + \sum_(i < size S) x4 ^+ i.+1 * (agg_poly (pw x1) (s_ i).2).[x3] =
    \sum_(i < size S) x2 ^+ i * ((qe`_i - (interp (claims (pw x1) (s_ i))).[x3]) / (zpoly (points (s_ i).1)).[x3])
    + \sum_(i < size S) x4 ^+ i.+1 * qe`_i].
Proof.
move=> Esz; rewrite /mo_verify Ed rbind_Ok /= => H; have [items Hz H1] := rbind_ok H.
have [b Hb] := rbind_ok H1; case: b Hb => // Hb _.
have [Ei Hi] := zip_inv (@sets_small x1) Esz Hz; rewrite -/S in Ei Hi.
split; [by move=> i /Hi []|by move=> i /Hi []|].
move: Hb; rewrite (foldl_pair (fun c0 (ix : pc_com PC * F * F * F) => pc_add c0 (pc_scale ix.1.1.1 ix.2)) (fun e ix => e + ix.2 * ix.1.2)) /=.
move=> /(pb_check bind); rewrite !foldl_sum add0r.
have -> zs c : op (foldl (fun c0 (ix : pc_com PC * F * F * F) => pc_add c0 (pc_scale ix.1.1.1 ix.2)) c zs)
    = op c + \sum_(t <- zs) t.2 *: op t.1.1.1.
  elim: zs c => [|t zs IH] c /=; first by rewrite big_nil addr0.
  by rewrite IH big_cons (pb_add bind) (pb_scale bind) addrA.
rewrite hornerD horner_sum.
rewrite (big_zip_powers (fun (it : pc_com PC * F * F) x => (x *: op it.1.1).[x3]) _ _ (pc_zero PC, 0, 0)) ?Esz ?Ei //.
rewrite (big_zip_powers (fun (it : pc_com PC * F * F) x => x * it.1.2) _ _ (pc_zero PC, 0, 0)) ?Ei ?sets_few //.
rewrite (big_zip_powers (fun (it : pc_com PC * F * F) x => x * it.2) _ _ (pc_zero PC, 0, 0)) ?Ei //.
move=> E; have {E} : _ = _ := E.
do ![under eq_bigr => i _ do [rewrite ?mul1r -?exprS]].
set l1 := \sum_(i < _) _; set l2 := \sum_(i < _) _; set l3 := \sum_(i < _) _ => E.
rewrite -[X in X + _ = _]/((op fc).[x3]).
have -> : \sum_(i < size S) x4 ^+ i.+1 * (agg_poly (pw x1) (s_ i).2).[x3] = l1.
  by apply: eq_bigr => i _; have [-> _ _ _ _] := Hi i (ltn_ord i); rewrite hornerZ -exprS.
rewrite E; congr (_ + _); apply: eq_bigr => i _; have [_ E2 _ _ E3] := Hi i (ltn_ord i).
  by rewrite mul1r E3.
by rewrite E2 -exprS.
Qed.

Lemma zpoly_split (U ps : seq F) : uniq U -> uniq ps -> {subset ps <= U} ->
  zpoly U = zpoly ps * zpoly [seq p <- U | p \notin ps].
Proof.
move=> uU up sub; rewrite /zpoly (bigID (mem ps)) /= big_filter; congr (_ * _).
rewrite -big_filter; apply: perm_big; apply: uniq_perm => //; first exact: filter_uniq.
by move=> p; rewrite mem_filter /=; case Hp: (p \in ps) => //=; rewrite sub.
Qed.

Let U := undup [seq rot_point (dgen d) r xi | r <- flatten [seq o_rots v | v <- vs]].
Lemma occ_s i : (i < size S)%N -> occurs (s_ i) S.
Proof. move=> Hi; rewrite /s_; elim: (S) i Hi => //= a l IH [|i] Hi; [by left|right; exact: IH]. Qed.
Lemma points_sub i : (i < size S)%N -> {subset points (s_ i).1 <= U}.
Proof.
move=> /occ_s; case: (s_ i) => k l H p /mapP [r Hr ->]; rewrite mem_undup; apply: map_f.
apply/flattenP; exists k => //; have [a Ha] := occurs_mem_nonempty (opening_sets_nonempty H).
have [<- Hv] := opening_sets_mem H Ha; elim: (vs) Hv => //= v l' IH [->|/IH]; rewrite inE ?eqxx // => ->; by rewrite orbT.
Qed.

Variable B : nat.
Hypothesis small : forall v c, occurs v vs -> get_commitment v = Ok c -> (size (op c) <= B)%N.

Lemma size_sum_leq (I : Type) (r : seq I) (f : I -> {poly F}) n : (forall i, occurs i r -> (size (f i) <= n)%N) ->
  (size (\sum_(i <- r) f i)%R <= n)%N.
Proof.
elim: r => [|a r IH] H; first by rewrite big_nil size_poly0.
rewrite big_cons; apply: leq_trans (size_add _ _) _; rewrite geq_max H; last by left.
by apply: IH => i Hi; apply: H; right.
Qed.
Lemma size_agg x1 i : (i < size S)%N -> (size (agg_poly (pw x1) (s_ i).2) <= B)%N.
Proof.
move=> /occ_s; case: (s_ i) => k l H; apply: size_sum_leq => t Ht; apply: leq_trans (size_scale_leq _ _) _.
have [_ Hv] := opening_sets_mem H (occurs_zip_fst Ht); rewrite /com_of.
by case E: (get_commitment _) => [c||] /=; rewrite ?(pb_zero bind) ?size_poly0 //; apply: small E.
Qed.

Section FixX1.
Variable x1 : F.
Let q i := agg_poly (pw x1) (s_ i).2.
Let r i := interp (claims (pw x1) (s_ i)).
Let W i := zpoly [seq p <- U | p \notin points (s_ i).1].
Let K x2 fc := op fc * zpoly U - \sum_(i < size S) x2 ^+ i *: ((q i - r i) * W i).
Let accepts x2 fc x3 qe x4 := exists pi,
  mo_verify (FS := scripted [::]) env pvk (MoProof qe fc pi) vs xi ds [:: x1; x2; x3; x4] = Ok tt.

Lemma size_K x2 fc : (forall i, (i < size S)%N -> uniq (points (s_ i).1)) -> (size (op fc) <= B)%N ->
  (size (K x2 fc) <= (B + size U).-1.+1)%N.
Proof.
move=> un sf; have le n : (n <= B + size U)%N -> (n <= (B + size U).-1.+1)%N by lia.
apply: le; apply: leq_trans (size_add _ _) _; rewrite size_opp geq_max; apply/andP; split.
  by apply: leq_trans (size_mul_leq _ _) _; rewrite size_zpoly addnS leq_add2r.
apply: leq_trans (size_sum _ _ _) _; apply/bigmax_leqP => i _; apply: leq_trans (size_scale_leq _ _) _.
rewrite mulrBl; apply: leq_trans (size_add _ _) _; rewrite size_opp geq_max; apply/andP; split.
  apply: leq_trans (size_mul_leq _ _) _; rewrite size_zpoly addnS /=; apply: leq_add; first exact: size_agg.
  by rewrite size_filter; exact: count_size.
have ui : uniq (map fst (claims (pw x1) (s_ i))) by rewrite fst_claims un.
apply: leq_trans (size_mul_leq _ _) _; rewrite size_zpoly addnS /=.
apply: (@leq_trans (size (points (s_ i).1) + size [seq p <- U | p \notin points (s_ i).1])).
  by rewrite leq_add2r; apply: leq_trans (size_interp ui) _; rewrite size_map.
have := zpoly_split (undup_uniq _) (un i (ltn_ord i)) (@points_sub i (ltn_ord i)).
move=> /(congr1 (fun p : {poly F} => size p)); rewrite size_proper_mul ?size_zpoly; last first.
  by rewrite mulf_neq0 // lead_coef_eq0 -size_poly_eq0 size_zpoly.
rewrite addnS addSn /= => -[->]; exact: leq_addl.
Qed.

(** Last challenge: the openings are consistent at x3. *)
Lemma level4 x2 fc x3 qe : size qe = size S -> (K x2 fc).[x3] != 0 -> at_most (size S) (accepts x2 fc x3 qe).
Proof.
move=> Esz Kn; case good: (all (fun i => uniq (points (s_ i).1) && (x3 \notin points (s_ i).1)) (iota 0 (size S))); last first.
  apply: at_most_none => x4 [pi /(verify_inv Esz) [H1 H2 _]]; move/negP: good; case; apply/allP => i; rewrite mem_iota add0n => /andP[_ Hi].
  by rewrite H1 ?H2.
have Hg i : (i < size S)%N -> uniq (points (s_ i).1) /\ x3 \notin points (s_ i).1.
  by move=> Hi; move/allP: good => /(_ i); rewrite mem_iota add0n Hi => /(_ isT) /andP[].
pose c0 := (op fc).[x3] - \sum_(i < size S) x2 ^+ i * ((qe`_i - (r i).[x3]) / (zpoly (points (s_ i).1)).[x3]).
pose L := \poly_(j < (size S).+1) (if j is i.+1 then (q i).[x3] - qe`_i else c0).
apply: (@roots_at_most _ L); last first.
- move=> x4 [pi /(verify_inv Esz) [_ _ E]]; rewrite horner_poly big_ord_recl expr0 mulr1 /c0.
  have -> : \sum_(i < size S) ((q i).[x3] - qe`_i) * x4 ^+ i.+1 =
    \sum_(i < size S) x4 ^+ i.+1 * (q i).[x3] - \sum_(i < size S) x4 ^+ i.+1 * qe`_i.
    by rewrite -sumrB; apply: eq_bigr => i _; rewrite mulrC mulrBr.
  by rewrite addrACA -opprD E subrr.
- exact: size_poly.
- apply: contraNneq Kn => L0.
  have Lc j : (j < (size S).+1)%N -> (if j is i.+1 then (q i).[x3] - qe`_i else c0) = 0.
    by move=> Hj; have := congr1 (fun p : {poly F} => p`_j) L0; rewrite coef_poly Hj coef0.
  have /eqP := Lc 0%N isT; rewrite subr_eq0 => /eqP E0.
  have Eq i : (i < size S)%N -> qe`_i = (q i).[x3] by move=> Hi; have /eqP := Lc i.+1 Hi; rewrite subr_eq0 => /eqP.
  rewrite /K hornerD hornerN hornerM E0 horner_sum mulr_suml subr_eq0; apply/eqP; apply: eq_bigr => i _.
  have [ui ni] := Hg i (ltn_ord i); rewrite (zpoly_split (undup_uniq _) ui (@points_sub i (ltn_ord i))) -/(W i) Eq //.
  rewrite hornerZ !hornerM hornerD hornerN -mulrA; congr (_ * _); rewrite mulrA divfK //.
  by rewrite zpoly_eq0.
Qed.

Lemma level3 x2 fc : (size (op fc) <= B)%N -> K x2 fc != 0 -> at_most (B + size U).-1 (fun x3 =>
  exists2 qe, size qe = size S & ~ at_most (size S) (accepts x2 fc x3 qe)).
Proof.
move=> sf Kn; case un: (all (fun i => uniq (points (s_ i).1)) (iota 0 (size S))); last first.
  apply: at_most_none => x3 [qe Esz []]; apply: at_most_none => x4 [pi /(verify_inv Esz) [H1 _ _]].
  by move/negP: un; case; apply/allP => i; rewrite mem_iota add0n => /andP[_ Hi]; apply: H1.
apply: (roots_at_most Kn).
  by apply: size_K => // i Hi; move/allP: un; apply; rewrite mem_iota.
move=> x3 [qe Esz na]; apply/eqP; apply: contraT => nz; case: na; exact: level4.
Qed.

(** A wrong batched claim at one point of one set. *)
Lemma batched_sound i0 p0 : (i0 < size S)%N -> p0 \in points (s_ i0).1 ->
  agg_claim (pw x1) (s_ i0).2 p0 != (q i0).[p0] ->
  at_most (size S).-1 (fun x2 => exists2 fc, (size (op fc) <= B)%N & ~ at_most (B + size U).-1 (fun x3 =>
    exists2 qe, size qe = size S & ~ at_most (size S) (accepts x2 fc x3 qe))).
Proof.
move=> Hi Hp ne; case un: (all (fun i => uniq (points (s_ i).1)) (iota 0 (size S))); last first.
  apply: at_most_none => x2 [fc _ []]; apply: at_most_none => x3 [qe Esz []]; apply: at_most_none => x4 [pi /(verify_inv Esz) [H1 _ _]].
  by move/negP: un; case; apply/allP => i; rewrite mem_iota add0n => /andP[_ Hi']; apply: H1.
have ui i : (i < size S)%N -> uniq (points (s_ i).1) by move=> Hi'; move/allP: un; apply; rewrite mem_iota.
pose H := \poly_(i < size S) ((q i - r i) * W i).[p0].
have H0 : H != 0.
  apply/eqP => /(congr1 (fun p : {poly F} => p`_i0)); rewrite coef_poly Hi coef0 hornerM => /eqP.
  rewrite mulf_eq0 zpoly_eq0 mem_filter Hp orbF hornerD hornerN /r.
  rewrite (@interp_at _ (claims (pw x1) (s_ i0)) p0 (agg_claim (pw x1) (s_ i0).2 p0)) ?fst_claims ?ui //.
    by rewrite subr_eq0 eq_sym (negbTE ne).
  by apply/mapP; exists p0.
apply: (roots_at_most H0).
  by rewrite prednK; [exact: size_poly|exact: leq_ltn_trans Hi].
move=> x2 [fc sf na]; apply/eqP; apply: contraT => nz; case: na; apply: level3 => //.
apply: contraNneq nz => /(congr1 (fun p : {poly F} => p.[p0])); rewrite horner0 /K hornerD hornerN hornerM.
have /eqP -> : (zpoly U).[p0] == 0 by rewrite zpoly_eq0 (points_sub Hi).
rewrite mulr0 add0r => /eqP; rewrite oppr_eq0 horner_sum => /eqP E; rewrite horner_poly -[X in _ == X]E; apply/eqP.
by apply: eq_bigr => i _; rewrite hornerZ mulrC.
Qed.
End FixX1.

(** A wrong claim of one oracle, fixed before x1 is known. *)
Lemma multiopen_sound v c e rot : occurs v vs -> rot \in o_rots v -> get_commitment v = Ok c ->
  vo_query v (rot_point (dgen d) rot xi) = Ok e -> e != (op c).[rot_point (dgen d) rot xi] ->
  at_most (size vs).-1 (fun x1 => ~ at_most (size S).-1 (fun x2 => exists2 fc, (size (op fc) <= B)%N &
    ~ at_most (B + size U).-1 (fun x3 => exists2 qe, size qe = size S &
    ~ at_most (size S) (fun x4 => exists pi,
      mo_verify (FS := scripted [::]) env pvk (MoProof qe fc pi) vs xi ds [:: x1; x2; x3; x4] = Ok tt)))).
Proof.
move=> Hv Hrot Ec Ee ne; set p0 := rot_point _ _ _ in Ee ne.
have [l Hl Hvl] := opening_sets_cover (fun o : vorc => o_rots o) Hv; rewrite -/S in Hl.
have [i0 Hi Ei] : exists2 i0, (i0 < size S)%N & s_ i0 = (o_rots v, l).
  by have [i0 H1 H2] := (occurs_nth _ _).1 Hl; exists i0 => //; exact: H2.
pose P := \poly_(j < size l) (ok_or 0 (vo_query (nth v l j) p0) - (op (com_of (nth v l j))).[p0]).
have [j0 Hj Ej] := (occurs_nth _ _).1 Hvl.
have P0 : P != 0.
  apply/eqP => /(congr1 (fun p : {poly F} => p`_j0)); rewrite coef_poly Hj coef0 Ej Ee /com_of Ec /=.
  by move/eqP; rewrite subr_eq0 (negbTE ne).
have sl : (size l <= size vs)%N := opening_set_size Hl.
have sv : (0 < size vs)%N by case: (vs) Hv.
apply: (roots_at_most P0); first by rewrite prednK //; apply: leq_trans (size_poly _ _) _.
move=> x1 na; apply/eqP; apply: contraT => nz; case: na; apply: (@batched_sound x1 i0 p0) => //.
  by rewrite Ei; apply: (map_f (fun r => rot_point (dgen d) r xi)) Hrot.
apply: contraNneq nz; rewrite Ei /agg_claim /agg_poly /= horner_sum.
rewrite (big_zip_powers (fun (o : vorc) x => x * ok_or 0 (vo_query o p0)) _ _ v) //.
rewrite (big_zip_powers (fun (o : vorc) x => (x *: op (com_of o)).[p0]) _ _ v) // => E.
rewrite horner_poly; apply/eqP.
have -> : \sum_(i < size l) (ok_or 0 (vo_query (nth v l i) p0) - (op (com_of (nth v l i))).[p0]) * x1 ^+ i =
  \sum_(i < size l) 1 * x1 ^+ i * ok_or 0 (vo_query (nth v l i) p0) -
  \sum_(i < size l) ((1 * x1 ^+ i) *: op (com_of (nth v l i))).[p0].
  by rewrite -sumrB; apply: eq_bigr => i _; rewrite mul1r hornerZ -mulrBr mulrC.
by rewrite E subrr.
Qed.
End Sound.
