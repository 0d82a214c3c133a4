(** permute_for_lookup (src/lookup/permute.rs): its result and its failures. *)
From mathcomp Require Import all_ssreflect all_algebra zify.
From Verif Require Import Base ModelPoly ModelVO ModelOracle ModelLookup Spec ProofBase ProofPoly.

Set Implicit Arguments.
Unset Strict Implicit.
Unset Printing Implicit Defensive.

Import GRing.Theory.

Section SetNth.
Variable F : zmodType.
Local Open Scope ring_scope.

(** A sequence of writes. *)
Definition writes (t : seq F) (ops : seq (nat * F)) : seq F :=
  foldl (fun t o => set_nth 0 t o.1 o.2) t ops.

Lemma size_writes t ops : (forall o, o \in ops -> (o.1 < size t)%N) -> size (writes t ops) = size t.
Proof.
elim: ops t => [|o ops IH] t H //=.
have lt : (o.1 < size t)%N by apply: H; rewrite inE eqxx.
have E : size (set_nth 0 t o.1 o.2) = size t by rewrite size_set_nth; apply/maxn_idPr.
by rewrite /writes /= -/(writes _ _) IH E // => o' Ho'; apply: H; rewrite inE Ho' orbT.
Qed.

Lemma nth_writes_notin t ops i : i \notin map fst ops -> (writes t ops)`_i = t`_i.
Proof.
elim: ops t => [|o ops IH] t //=; rewrite inE negb_or => /andP[ne Hi].
by rewrite /writes /= -/(writes _ _) IH // nth_set_nth /= (negPf ne).
Qed.

Lemma nth_writes t ops o : uniq (map fst ops) -> o \in ops -> (writes t ops)`_(o.1) = o.2.
Proof.
elim: ops t => [|o' ops IH] t //= /andP[ni u]; rewrite inE => /orP[/eqP->|Ho]; last exact: IH.
by rewrite /writes /= -/(writes _ _) nth_writes_notin // nth_set_nth /= eqxx.
Qed.

(** Writing every position once permutes the written values. *)
Lemma perm_writes t ops : perm_eq (map fst ops) (iota 0 (size t)) -> perm_eq (writes t ops) (map snd ops).
Proof.
move=> H; have u : uniq (map fst ops) by rewrite (perm_uniq H) iota_uniq.
have Hlt o : o \in ops -> (o.1 < size t)%N.
  by move=> Ho; have := perm_mem H o.1; rewrite map_f // mem_iota.
have -> : map snd ops = map (nth 0 (writes t ops)) (map fst ops).
  by rewrite -map_comp; apply/eq_in_map => o Ho; rewrite /= nth_writes.
apply: (@perm_trans _ (map (nth 0 (writes t ops)) (iota 0 (size t)))).
  by rewrite -(size_writes Hlt) -/(mkseq _ _) mkseq_nth.
by rewrite perm_sym; apply: perm_map.
Qed.

Lemma writes_cat t o1 o2 : writes t (o1 ++ o2) = writes (writes t o1) o2.
Proof. by rewrite /writes foldl_cat. Qed.
End SetNth.

Section Counts.
Variable F : fieldType.
Variable env : fenv F.
Hypothesis eok : fenv_ok env.

(** The multiset a count map stands for. *)
Definition expand (m : seq (F * nat)) : seq F := flatten [seq nseq e.2 e.1 | e <- m].

Lemma expand_cons e m : expand (e :: m) = nseq e.2 e.1 ++ expand m. Proof. by []. Qed.

Lemma expand_add x m : perm_eq (expand (count_add env x m)) (x :: expand m).
Proof.
elim: m => [|[y c] m IH] //=; case: eqP => [->|_] //.
case: ifP => // _; rewrite !expand_cons /=.
rewrite -cat1s catA -[[:: x] ++ _]/(cat [:: x] (nseq c y)) perm_sym.
rewrite (perm_catl _ (t2 := expand m)) // perm_sym.
by rewrite (perm_trans (_ : perm_eq _ (nseq c y ++ (x :: expand m)))) ?perm_cat2l // -cat1s perm_catCA catA.
Qed.

Definition all_pos (m : seq (F * nat)) : bool := all (fun e => 0 < e.2) m.
Lemma pos_add x m : all_pos m -> all_pos (count_add env x m).
Proof.
elim: m => [|[y c] m IH] //= /andP[H1 H2].
by case: eqP => [_|_] /=; [rewrite H2|case: ifP => _ /=; rewrite H1 ?H2 ?IH].
Qed.

Lemma keys_add x m y : (y \in map fst (count_add env x m)) = (y == x) || (y \in map fst m).
Proof.
elim: m => [|[z c] m IH] //=; case: eqP => [->|_]; first by rewrite /= inE orbA orbb.
by case: ifP => _ /=; rewrite !inE // IH orbCA.
Qed.

Lemma table_countsP s : [/\ perm_eq (expand (table_counts env s)) s, all_pos (table_counts env s) &
  forall x, (x \in map fst (table_counts env s)) = (x \in s)].
Proof.
have gen l : let m := foldr (fun x m => count_add env x m) [::] l in
  [/\ perm_eq (expand m) l, all_pos m & forall x, (x \in map fst m) = (x \in l)].
  elim: l => [|a l [IH1 IH2 IH3]] //=; split.
  - by apply: perm_trans (expand_add _ _) _; rewrite perm_cons.
  - exact: pos_add.
  - by move=> x; rewrite keys_add inE IH3.
have [H1 H2 H3] := gen (rev s).
have -> : table_counts env s = foldr (fun x m => count_add env x m) [::] (rev s) by rewrite /table_counts -[s in LHS]revK foldl_rev.
split=> //; first by rewrite (perm_trans H1) // perm_rev.
by move=> x; rewrite H3 mem_rev.
Qed.

(** First count of a key. *)
Lemma dec_ok x m c : assoc m x = Some c.+1 -> exists m',
  [/\ count_dec x m = Ok m', perm_eq (x :: expand m') (expand m), map fst m' = map fst m &
      forall y, y != x -> assoc m' y = assoc m y].
Proof.
elim: m => [|[y k] m IH] //=; rewrite [y == x]eq_sym; case: eqP => [<-|ne].
  case=> ->; exists ((x, c) :: m); rewrite /usub /= subn1; split=> //.
  by move=> z nz /=; rewrite [x == z]eq_sym (negPf nz).
move/IH => [m' [E P K A]]; exists ((y, k) :: m'); rewrite E; split=> //=.
- by rewrite !expand_cons /= -cat1s perm_catCA perm_cat2l.
- by rewrite K.
- by move=> z nz; rewrite A.
Qed.

Lemma dec_missing (x : F) m : x \notin map fst m -> count_dec x m = Panic PExplicit.
Proof. by elim: m => [|[y c] m IH] //=; rewrite inE negb_or => /andP[/negPf-> /IH->]. Qed.

Lemma assoc_pos x m : all_pos m -> x \in map fst m -> exists c, assoc m x = Some c.+1.
Proof.
elim: m => [|[y c] m IH] //= /andP[c0 p]; rewrite inE [y == x]eq_sym; case: eqP => [_ _|_ /= H]; last exact: IH.
by exists c.-1; rewrite prednK.
Qed.

(** Elements that differ from their predecessor, with their positions; the other positions. *)
Definition fresh (prev : option F) (a : F) : bool := if prev is Some b then a != b else true.
Fixpoint fresh_ops (prev : option F) (k : nat) (l : seq F) : seq (nat * F) :=
  if l is a :: l' then
    if fresh prev a then (k, a) :: fresh_ops (Some a) k.+1 l' else fresh_ops (Some a) k.+1 l'
  else [::].
Fixpoint stale (prev : option F) (k : nat) (l : seq F) : seq nat :=
  if l is a :: l' then
    if fresh prev a then stale (Some a) k.+1 l' else k :: stale (Some a) k.+1 l'
  else [::].

Lemma fresh_stale prev k l : perm_eq (map fst (fresh_ops prev k l) ++ stale prev k l) (iota k (size l)).
Proof.
elim: l prev k => [|a l IH] prev k //=; case: ifP => _ /=; first by rewrite perm_cons.
by rewrite -cat1s perm_catCA /= perm_cons.
Qed.

Lemma fresh_sub prev k l x : x \in map snd (fresh_ops prev k l) -> x \in l.
Proof.
elim: l prev k => [|a l IH] prev k //=; case: ifP => _ /=; rewrite inE; last by move/IH->; rewrite orbT.
by rewrite inE => /orP[->//|/IH->]; rewrite orbT.
Qed.

Lemma fresh_mem prev k l x : x \in l -> Some x != prev -> x \in map snd (fresh_ops prev k l).
Proof.
elim: l prev k => [|a l IH] prev k //=; rewrite inE => /orP[/eqP<-|Hx] ne.
  have -> : fresh prev x by case: prev ne => [b|] //=.
  by rewrite /= inE eqxx.
case: (eqVneq x a) => [E|nx].
  have -> : fresh prev a by case: prev ne => [b|] //=; rewrite E.
  by rewrite /= inE E eqxx.
by case: ifP => _ /=; rewrite ?inE IH ?orbT.
Qed.

Lemma fresh_notin b k l : path (fle env) b l -> b \notin map snd (fresh_ops (Some b) k l).
Proof.
elim: l k => [|a l IH] k //= /andP[ba p].
case: (eqVneq a b) => [E|ne] /=; first by rewrite E; apply: IH; rewrite -{1}E.
rewrite inE negb_or eq_sym ne /=; apply: contra ne => /fresh_sub Hb.
have := order_path_min (fe_trans eok) p => /allP/(_ _ Hb) ab.
by apply/eqP; apply: (fe_anti eok); rewrite ab ba.
Qed.

Lemma fresh_uniq prev k l : (if prev is Some b then path (fle env) b l else sorted (fle env) l) ->
  uniq (map snd (fresh_ops prev k l)).
Proof.
elim: l prev k => [|a l IH] prev k //= H.
have p : path (fle env) a l by case: prev H => [b /andP[]|].
by case: ifP => _ /=; rewrite ?(fresh_notin _ p) /=; apply: IH.
Qed.

(** The loop over the sorted column. *)
Lemma loop_ok l prev k t fr m :
  uniq (map snd (fresh_ops prev k l)) ->
  (forall x, x \in map snd (fresh_ops prev k l) -> exists c, assoc m x = Some c.+1) ->
  exists m' prev', [/\ rfoldM (@permute_step F) (PermState prev t fr m) (zip (iota k (size l)) l) =
      Ok (PermState prev' (writes t (fresh_ops prev k l)) (rev (stale prev k l) ++ fr) m') &
    perm_eq (map snd (fresh_ops prev k l) ++ expand m') (expand m)].
Proof.
elim: l prev k t fr m => [|a l IH] prev k t fr m /=; first by move=> *; exists m, prev.
rewrite -/(fresh prev a); case: ifP => fr_a /=.
  case/andP=> na u H; have [c Hc] : exists c, assoc m a = Some c.+1 by apply: H; rewrite inE eqxx.
  have [m1 [-> P K A]] := dec_ok Hc.
  have [|m' [prev' [E Q]]] := IH (Some a) k.+1 (set_nth 0%R t k a) fr m1 u.
    move=> x Hx; have nx : x != a by apply/eqP => Ex; rewrite Ex (negPf na) in Hx.
    by rewrite (A _ nx); apply: H; rewrite inE Hx orbT.
  exists m', prev'; rewrite /= E; split=> //.
  by apply: perm_trans P; rewrite perm_cons.
move=> u H; have [m' [prev' [E Q]]] := IH (Some a) k.+1 t (k :: fr) m u H.
by exists m', prev'; rewrite E; split=> //; rewrite rev_cons cat_rcons.
Qed.

Lemma loop_missing l prev k t fr m :
  uniq (map snd (fresh_ops prev k l)) ->
  (forall x, x \in map snd (fresh_ops prev k l) -> x \in map fst m -> exists c, assoc m x = Some c.+1) ->
  has (fun x => x \notin map fst m) (map snd (fresh_ops prev k l)) ->
  rfoldM (@permute_step F) (PermState prev t fr m) (zip (iota k (size l)) l) = Panic PExplicit.
Proof.
elim: l prev k t fr m => [|a l IH] prev k t fr m //=.
rewrite -/(fresh prev a); case: ifP => fr_a /=; last exact: IH.
case/andP=> na u H.
case Ha: (a \in map fst m) => /=; last by rewrite dec_missing ?Ha.
have [c Hc] : exists c, assoc m a = Some c.+1 by apply: H; rewrite ?inE ?eqxx.
have [m1 [-> P K A]] := dec_ok Hc; rewrite -K => Hm /=; apply: IH => // x Hx; rewrite K => Hk.
have nx : x != a by apply/eqP => Ex; rewrite Ex (negPf na) in Hx.
by rewrite (A _ nx); apply: H; rewrite // inE Hx orbT.
Qed.

(** Filling the free positions. *)
Lemma assign_n_ok n (el : F) t fr : n <= size fr ->
  assign_n n el (t, fr) = Ok (writes t (zip (take n fr) (nseq n el)), drop n fr).
Proof.
elim: n t fr => [|n IH] t [|i fr] //=; rewrite ?drop0 // ltnS => le.
by rewrite IH.
Qed.

Lemma assign_rest_ok m (t : seq F) fr : size (expand m) = size fr ->
  assign_rest m (t, fr) = Ok (writes t (zip fr (expand m)), [::]).
Proof.
rewrite /assign_rest; elim: m t fr => [|[y c] m IH] t fr.
  by move/esym/size0nil ->.
rewrite expand_cons size_cat size_nseq => E /=.
have le : c <= size fr by rewrite -E leq_addr.
rewrite assign_n_ok //= IH; last by rewrite size_drop -E addKn.
congr (Ok (_, _)); rewrite -[in RHS](cat_take_drop c fr) zip_cat ?writes_cat //.
by rewrite size_nseq size_takel.
Qed.

Lemma sort_sorted a : sorted (fle env) (sort (fle env) a).
Proof. exact: (sort_sorted (fe_total eok)). Qed.

Lemma permute_ok (a s : seq F) : size a = size s -> {subset a <= s} ->
  exists s', [/\ permute_for_lookup env a s = Ok (sort (fle env) a, s'), perm_eq s' s &
    forall i, i < size a -> nth 0%R (sort (fle env) a) i = nth 0%R s' i \/
      (0 < i /\ nth 0%R (sort (fle env) a) i = nth 0%R (sort (fle env) a) i.-1)].
Proof.
move=> E sub; set a' := sort (fle env) a.
have [P pos K] := table_countsP s; have u := @fresh_uniq None 0 _ (sort_sorted a); rewrite -/a' in u.
have Ha x : x \in map snd (fresh_ops None 0 a') -> exists c, assoc (table_counts env s) x = Some c.+1.
  by move/fresh_sub; rewrite mem_sort => /sub Hx; apply: assoc_pos => //; rewrite K.
have [m' [prev' [EL Q]]] := loop_ok (nseq (size a) 0%R) [::] u Ha.
have sa : size a' = size a by rewrite size_sort.
have IP := fresh_stale None 0 a'; rewrite sa in IP.
set ops := fresh_ops None 0 a' in u EL Q IP *; set fr := stale None 0 a' in EL IP.
have se : size (expand m') = size (rev fr).
  have := perm_size Q; have := perm_size IP; rewrite (perm_size P) !size_cat !size_map size_iota size_rev -E => <- /eqP; by rewrite eqn_add2l => /eqP.
exists (writes (nseq (size a) 0%R) (ops ++ zip (rev fr) (expand m'))).
have fst2 : map fst (zip (rev fr) (expand m')) = rev fr by rewrite -/(unzip1 _) unzip1_zip ?se.
have snd2 : map snd (zip (rev fr) (expand m')) = expand m' by rewrite -/(unzip2 _) unzip2_zip ?se.
have IP2 : perm_eq (map fst (ops ++ zip (rev fr) (expand m'))) (iota 0 (size (nseq (size a) (0%R : F)))).
  by rewrite map_cat fst2 size_nseq (perm_trans _ IP) // perm_cat2l perm_rev.
split.
- rewrite /permute_for_lookup E eqxx /= -/a' /enumerate -E EL /= cats0 assign_rest_ok //=.
  by rewrite writes_cat.
- by apply: perm_trans (perm_writes IP2) _; rewrite map_cat snd2; apply: perm_trans P.
- move=> i Hi.
  have u2 : uniq (map fst (ops ++ zip (rev fr) (expand m'))) by rewrite (perm_uniq IP2) iota_uniq.
  have gen prev k l : (forall j, j < size l -> nth 0%R l j = nth 0%R a' (k + j)) ->
     (if prev is Some b then 0 < k /\ b = nth 0%R a' k.-1 else k = 0) ->
     forall j, j < size l -> (k + j, nth 0%R l j) \in fresh_ops prev k l \/
       (0 < k + j /\ nth 0%R a' (k + j) = nth 0%R a' (k + j).-1).
    elim: l prev k => [|b l IH] prev k Hl Hp [|j] //= Hj.
      rewrite addn0; case: ifP => [_|]; first by left; rewrite inE eqxx.
      move/negbT; rewrite /fresh; case: prev Hp => [c [k0 ->]|//]; rewrite negbK => /eqP Eb.
      by right; split=> //; rewrite -Eb -[in LHS](addn0 k) -(Hl 0).
    have [||H|H] := IH (Some b) k.+1 _ _ j Hj.
    + by move=> j' Hj'; rewrite addSnnS -(Hl j'.+1).
    + by split=> //=; have := Hl 0 isT; rewrite addn0.
    + by left; rewrite -addSnnS; case: ifP => _ //; rewrite inE H orbT.
    + by right; rewrite -addSnnS.
  have Hi' : i < size a' by rewrite sa.
  have [//|//|H|[i0 H]] := gen None 0 a' _ _ i Hi'.
    by left; rewrite add0n -/ops in H; have := @nth_writes _ (nseq (size a) 0%R) _ (i, nth 0%R a' i) u2; rewrite mem_cat H => /(_ isT) /= ->.
  by right.
Qed.

Lemma permute_panicE (a s : seq F) : ~~ ((size a == size s) && all (mem s) a) ->
  permute_for_lookup env a s = Panic (if size a == size s then PExplicit else PAssert).
Proof.
rewrite /permute_for_lookup; case: eqP => [E|_ _] //=.
case/allPn=> x xa xs; set a' := sort (fle env) a.
have [P pos K] := table_countsP s; have u := @fresh_uniq None 0 _ (sort_sorted a); rewrite -/a' in u.
rewrite /enumerate (loop_missing _ _ u) //.
  by move=> y _; apply: assoc_pos.
apply/hasP; exists x; last by rewrite K.
by apply: fresh_mem; rewrite ?mem_sort.
Qed.
Lemma permute_panic (a s : seq F) : ~~ ((size a == size s) && all (mem s) a) ->
  exists p, permute_for_lookup env a s = Panic p.
Proof. by move=> H; eexists; apply: permute_panicE H. Qed.
End Counts.
