(** Proofs about expressions and virtual oracles (C01-C05). *)
From mathcomp Require Import all_ssreflect all_algebra zify.
From Coq Require Import String.
From Verif Require Import Base ModelPoly ModelVO ModelGates ModelOracle Spec ProofBase ProofPoly.

Set Implicit Arguments.
Unset Strict Implicit.
Unset Printing Implicit Defensive.

Import GRing.Theory.
Local Open Scope ring_scope.

Lemma occurs_cat A (x : A) s t : occurs x (s ++ t) <-> occurs x s \/ occurs x t.
Proof. elim: s => [|y s IH] /=; first by tauto. by rewrite IH; tauto. Qed.

Lemma occurs_nth A (x : A) s : occurs x s <-> exists2 i, (i < size s)%N & forall x0, nth x0 s i = x.
Proof.
elim: s => [|y s IH] /=; first by split => // -[].
rewrite IH; split.
  case=> [->|[i Hi H]]; first by exists 0%N.
  by exists i.+1.
case=> [[|i]] /= Hi H; first by left; rewrite (H x).
by right; exists i.
Qed.

Lemma occurs_mem (A : eqType) (x : A) s : occurs x s <-> x \in s.
Proof.
elim: s => [|y s IH] /=; first by [].
by rewrite inE IH; split=> [[->|->]|/orP[/eqP->|->]]; rewrite ?eqxx ?orbT; auto.
Qed.

Lemma occurs_map A B (f : A -> B) (y : B) s :
  occurs y (map f s) <-> exists2 x, occurs x s & y = f x.
Proof.
elim: s => [|x s IH] /=; first by split=> // -[].
rewrite IH; split.
  by case=> [->|[z zs ->]]; [exists x; auto|exists z; auto].
by case=> z [->|zs] ->; [left|right; exists z].
Qed.

Section Expr.
Variables (F : fieldType) (Q : Type).
Implicit Types (e : expr F Q).

Definition field_evaluate (leaf : Q -> F) e : F :=
  evaluate e id leaf -%R +%R *%R (fun x c => x * c).

Lemma field_evaluateE leaf e : field_evaluate leaf e = meaning leaf e.
Proof.
rewrite /field_evaluate; elim: e => //= [a ->|a -> b ->|a -> b ->|a -> c] //.
by rewrite mulrC.
Qed.

Definition poly_evaluate (leaf : Q -> lpoly F) e : lpoly F :=
  evaluate e (fun c => ptrim [:: c]) leaf (@pneg F) (@padd F) (@pmul F) (fun p c => pscale c p).

Lemma poly_evaluate_at leaf e x :
  peval (poly_evaluate leaf e) x = meaning (fun q => peval (leaf q) x) e.
Proof.
rewrite /poly_evaluate; elim: e => [c|q|a IH|a IHa b IHb|a IHa b IHb|a IH c] //=.
- by rewrite peval_trim /= mul0r add0r.
- by rewrite peval_neg IH.
- by rewrite peval_add IHa IHb.
- by rewrite peval_mul IHa IHb.
- by rewrite peval_scale IH.
Qed.

(** A polynomial-valued version of [meaning], used to transfer identities. *)
Fixpoint pmeaning (leaf : Q -> {poly F}) e : {poly F} :=
  match e with
  | Const c => c%:P
  | Orc q => leaf q
  | Neg a => - pmeaning leaf a
  | Sum a b => pmeaning leaf a + pmeaning leaf b
  | Prod a b => pmeaning leaf a * pmeaning leaf b
  | Scaled a c => c *: pmeaning leaf a
  end.

Lemma pmeaning_at leaf e x : (pmeaning leaf e).[x] = meaning (fun q => (leaf q).[x]) e.
Proof. by elim: e => [c|q|a IH|a IHa b IHb|a IHa b IHb|a IH c] /=; rewrite ?hornerE ?IH ?IHa ?IHb. Qed.

Lemma Poly_poly_evaluate leaf e :
  Poly (poly_evaluate leaf e) = pmeaning (fun q => Poly (leaf q)) e.
Proof.
rewrite /poly_evaluate; elim: e => [c|q|a IH|a IHa b IHb|a IHa b IHb|a IH c] //=.
- by rewrite Poly_trim Poly_seq1.
- by rewrite Poly_neg IH.
- by rewrite Poly_add IHa IHb.
- by rewrite Poly_mul IHa IHb.
- by rewrite Poly_scale IH.
Qed.

Lemma eq_meaning (f g : Q -> F) e : (forall q, occurs q (leaves e) -> f q = g q) ->
  meaning f e = meaning g e.
Proof.
elim: e => [c|q|a IH|a IHa b IHb|a IHa b IHb|a IH c] //= H.
- by apply: H; left.
- by rewrite IH.
- by rewrite IHa ?IHb // => q Hq; apply: H; apply/occurs_cat; auto.
- by rewrite IHa ?IHb // => q Hq; apply: H; apply/occurs_cat; auto.
- by rewrite IH.
Qed.

(** Evaluation with fallible leaves. *)
Lemma eval_res_ok (leaf : Q -> res F) (v : Q -> F) e :
  (forall q, occurs q (leaves e) -> leaf q = Ok (v q)) -> eval_res e leaf = Ok (meaning v e).
Proof.
rewrite /eval_res; elim: e => [c|q|a IH|a IHa b IHb|a IHa b IHb|a IH c] //= H.
- by apply: H; left.
- by rewrite IH.
- by rewrite IHa ?IHb // => q Hq; apply: H; apply/occurs_cat; auto.
- by rewrite IHa ?IHb // => q Hq; apply: H; apply/occurs_cat; auto.
- by rewrite IH //= mulrC.
Qed.

Lemma eval_res_inv (leaf : Q -> res F) e r :
  eval_res e leaf = Ok r -> forall q, occurs q (leaves e) -> exists v, leaf q = Ok v.
Proof.
rewrite /eval_res; elim: e r => [c|q|a IH|a IHa b IHb|a IHa b IHb|a IH c] //= r.
- by move=> H q' [->|[]]; exists r.
- by move=> H; have [x Hx _] := rmap_ok H; apply: IH Hx.
- move=> H q /occurs_cat; move: IHa IHb H.
  case: (evaluate a _ _ _ _ _ _) => [x||] //; case: (evaluate b _ _ _ _ _ _) => [y||] // IHa IHb H.
  by case=> Hq; [apply: IHa Hq|apply: IHb Hq].
- move=> H q /occurs_cat; move: IHa IHb H.
  case: (evaluate a _ _ _ _ _ _) => [x||] //; case: (evaluate b _ _ _ _ _ _) => [y||] // IHa IHb H.
  by case=> Hq; [apply: IHa Hq|apply: IHb Hq].
- by move=> H; have [x Hx _] := rmap_ok H; apply: IH Hx.
Qed.

Lemma eval_res_okE (leaf : Q -> res F) e r :
  eval_res e leaf = Ok r -> r = meaning (fun q => ok_or 0 (leaf q)) e.
Proof.
move=> H; have := eval_res_inv H => Hl.
have : eval_res e leaf = Ok (meaning (fun q => ok_or 0 (leaf q)) e).
  by apply: eval_res_ok => q /Hl[v ->].
by rewrite H => -[].
Qed.

Lemma eq_eval_res (f g : Q -> res F) e : (forall q, occurs q (leaves e) -> f q = g q) ->
  eval_res e f = eval_res e g.
Proof.
rewrite /eval_res; elim: e => [c|q|a IH|a IHa b IHb|a IHa b IHb|a IH c] //= H.
- by apply: H; left.
- by rewrite IH.
- by rewrite IHa ?IHb // => q Hq; apply: H; apply/occurs_cat; auto.
- by rewrite IHa ?IHb // => q Hq; apply: H; apply/occurs_cat; auto.
- by rewrite IH.
Qed.

(** Errors: a panicking leaf panics the evaluation; otherwise the first failing leaf decides. *)
Lemma eval_res_err (leaf : Q -> res F) e :
  (forall q, occurs q (leaves e) -> ~~ is_panic (leaf q)) ->
  (exists v, eval_res e leaf = Ok v) \/
  (exists l1 q l2 err, [/\ leaves e = l1 ++ q :: l2,
     (forall q', occurs q' l1 -> is_ok (leaf q')), leaf q = Err err & eval_res e leaf = Err err]).
Proof.
rewrite /eval_res.
have bin a b op :
  ((forall q, occurs q (leaves a) -> ~~ is_panic (leaf q)) ->
   (exists v, eval_res a leaf = Ok v) \/
   (exists l1 q l2 err, [/\ leaves a = l1 ++ q :: l2,
     (forall q', occurs q' l1 -> is_ok (leaf q')), leaf q = Err err & eval_res a leaf = Err err])) ->
  ((forall q, occurs q (leaves b) -> ~~ is_panic (leaf q)) ->
   (exists v, eval_res b leaf = Ok v) \/
   (exists l1 q l2 err, [/\ leaves b = l1 ++ q :: l2,
     (forall q', occurs q' l1 -> is_ok (leaf q')), leaf q = Err err & eval_res b leaf = Err err])) ->
  (forall q, occurs q (leaves a ++ leaves b) -> ~~ is_panic (leaf q)) ->
  (exists v, rlift2 op (eval_res a leaf) (eval_res b leaf) = Ok v) \/
  (exists l1 q l2 err, [/\ leaves a ++ leaves b = l1 ++ q :: l2,
     (forall q', occurs q' l1 -> is_ok (leaf q')), leaf q = Err err
     & rlift2 op (eval_res a leaf) (eval_res b leaf) = (Err err : res F)]).
  move=> IHa IHb H.
  have Ha q : occurs q (leaves a) -> ~~ is_panic (leaf q).
    by move=> Hq; apply: H; apply/occurs_cat; left.
  have Hb q : occurs q (leaves b) -> ~~ is_panic (leaf q).
    by move=> Hq; apply: H; apply/occurs_cat; right.
  case: (IHa Ha) => [[v Ev]|[l1 [q [l2 [err [E1 E2 E3 E4]]]]]].
    case: (IHb Hb) => [[w Ew]|[l1 [q [l2 [err [E1 E2 E3 E4]]]]]].
      by left; rewrite Ev Ew; exists (op v w).
    right; exists (leaves a ++ l1), q, l2, err; split=> //.
    - by rewrite E1 catA.
    - move=> q' /occurs_cat[Hq'|]; last exact: E2.
      by have [w ->] := eval_res_inv Ev Hq'.
    - by rewrite Ev E4.
  right; exists l1, q, (l2 ++ leaves b), err; split=> //.
    by rewrite E1 -catA.
  rewrite E4; case: (IHb Hb) => [[w Ew]|[? [? [? [? [_ _ _ E4']]]]]]; last by rewrite E4'.
  by rewrite Ew.
elim: e => [c|q|a IH|a IHa b IHb|a IHa b IHb|a IH c] //= H.
- by left; exists c.
- case E: (leaf q) => [v|err|p]; first by left; exists v.
    by right; exists [::], q, [::], err.
  by move: (H q); rewrite E => /(_ (or_introl erefl)).
- case: (IH H) => [[v ->]|[l1 [q [l2 [err [E1 E2 E3 ->]]]]]]; first by left; exists (- v).
  by right; exists l1, q, l2, err.
- exact: bin.
- exact: bin.
- case: (IH H) => [[v ->]|[l1 [q [l2 [err [E1 E2 E3 ->]]]]]]; first by left; exists (v * c).
  by right; exists l1, q, l2, err.
Qed.

Lemma eval_res_panic (leaf : Q -> res F) e q :
  occurs q (leaves e) -> is_panic (leaf q) -> is_panic (eval_res e leaf).
Proof.
rewrite /eval_res; elim: e => [c|q'|a IH|a IHa b IHb|a IHa b IHb|a IH c] //=.
- by case=> // ->.
- by move=> /IH H /H; case: (evaluate a _ _ _ _ _ _).
- move=> /occurs_cat[/IHa|/IHb] H /H; case: (evaluate a _ _ _ _ _ _) => //;
  by case: (evaluate b _ _ _ _ _ _).
- move=> /occurs_cat[/IHa|/IHb] H /H; case: (evaluate a _ _ _ _ _ _) => //;
  by case: (evaluate b _ _ _ _ _ _).
- by move=> /IH H /H; case: (evaluate a _ _ _ _ _ _).
Qed.

(** Degrees. *)
Lemma size_pmeaning (leaf : Q -> {poly F}) (dg : Q -> res nat) e d :
  (forall q k, occurs q (leaves e) -> dg q = Ok k -> (size (leaf q) <= k.+1)%N) ->
  edegree e dg = Ok d -> (size (pmeaning leaf e) <= d.+1)%N.
Proof.
elim: e d => [c|q|a IH|a IHa b IHb|a IHa b IHb|a IH c] //= d H.
- by case=> <-; rewrite size_polyC; case: (c == 0).
- by apply: H; left.
- by move/IH; rewrite size_opp; apply.
- case Ea: (edegree a dg) => [da||] //=; case Eb: (edegree b dg) => [db||] //= [<-].
  rewrite (leq_trans (size_add _ _)) // -maxnSS geq_max !leq_max.
  rewrite (IHa _ _ Ea) ?(IHb _ _ Eb) ?orbT // => q k Hq; apply: H; apply/occurs_cat; auto.
- case Ea: (edegree a dg) => [da||] //=; case Eb: (edegree b dg) => [db||] //= [<-].
  have sa : (size (pmeaning leaf a) <= da.+1)%N.
    by apply: IHa Ea => q k Hq; apply: H; apply/occurs_cat; left.
  have sb : (size (pmeaning leaf b) <= db.+1)%N.
    by apply: IHb Eb => q k Hq; apply: H; apply/occurs_cat; right.
  apply: leq_trans (size_mul_leq _ _) _; move: sa sb.
  by move: (size _) (size _) => x y; lia.
- by move/IH => /(_ H); apply: leq_trans; rewrite size_scale_leq.
Qed.

Lemma edegree_total (dg : Q -> res nat) e :
  (exists d, edegree e dg = Ok d) \/
  (exists l1 q l2, [/\ leaves e = l1 ++ q :: l2, (forall q', occurs q' l1 -> is_ok (dg q'))
    & same_failure (edegree e dg) (dg q)]).
Proof.
have okl (a : expr F Q) d : edegree a dg = Ok d -> forall q, occurs q (leaves a) -> is_ok (dg q).
  elim: a d => [c|q|a IH|a IHa b IHb|a IHa b IHb|a IH c] //= d.
  - by move=> H q' [->|[]]; rewrite H.
  - case Ea: (edegree a dg) => [da||] //=; case Eb: (edegree b dg) => [db||] //= _ q.
    by move/occurs_cat=> [/(IHa _ Ea)|/(IHb _ Eb)].
  - case Ea: (edegree a dg) => [da||] //=; case Eb: (edegree b dg) => [db||] //= _ q.
    by move/occurs_cat=> [/(IHa _ Ea)|/(IHb _ Eb)].
have bin (a b : expr F Q) op :
  ((exists d, edegree a dg = Ok d) \/
   (exists l1 q l2, [/\ leaves a = l1 ++ q :: l2, (forall q', occurs q' l1 -> is_ok (dg q'))
    & same_failure (edegree a dg) (dg q)])) ->
  ((exists d, edegree b dg = Ok d) \/
   (exists l1 q l2, [/\ leaves b = l1 ++ q :: l2, (forall q', occurs q' l1 -> is_ok (dg q'))
    & same_failure (edegree b dg) (dg q)])) ->
  (exists d : nat, rbind (edegree a dg) (fun da => rbind (edegree b dg) (fun db => Ok (op da db))) = Ok d) \/
   (exists l1 q l2, [/\ leaves a ++ leaves b = l1 ++ q :: l2, (forall q', occurs q' l1 -> is_ok (dg q'))
    & same_failure (rbind (edegree a dg) (fun da => rbind (edegree b dg) (fun db => Ok (op da db)))) (dg q)]).
  move=> IHa IHb.
  case: IHa => [[da Ea]|[l1 [q [l2 [E1 E2 E3]]]]].
    case: IHb => [[db Eb]|[l1 [q [l2 [E1 E2 E3]]]]]; first by left; rewrite Ea Eb; exists (op da db).
    right; exists (leaves a ++ l1), q, l2; split.
    - by rewrite E1 catA.
    - by move=> q' /occurs_cat[/(okl _ _ Ea)|/E2].
    - rewrite Ea /=; case: E3 => [[err [-> ->]]|[p [-> ->]]] /=; first by left; exists err.
      by right; exists p.
  right; exists l1, q, (l2 ++ leaves b); split=> //; first by rewrite E1 -catA.
  case: E3 => [[err [-> ->]]|[p [-> ->]]] /=; first by left; exists err.
  by right; exists p.
elim: e => [c|q|a IH|a IHa b IHb|a IHa b IHb|a IH c] //=.
- by left; exists 0%N.
- case E: (dg q) => [v|err|p]; first by left; exists v.
    by right; exists [::], q, [::]; split=> //; rewrite E; left; exists err.
  by right; exists [::], q, [::]; split=> //; rewrite E; right; exists p.
- exact: bin.
- exact: bin.
Qed.
End Expr.

(** ** Label resolution *)
Lemma label_index_uniq (ls : seq label) i d :
  uniq ls -> (i < size ls)%N -> label_index ls (nth d ls i) = Some i.
Proof.
rewrite /label_index.
suff gen b : uniq ls -> (i < size ls)%N ->
  assoc_last (zip ls (iota b (size ls))) (nth d ls i) = Some (b + i)%N by apply: gen.
elim: ls b i => // l ls IH b i /=.
case/andP=> nl ul; case: i => [|i] Hi /=.
  have : assoc_last (zip ls (iota b.+1 (size ls))) l = None.
    have := assoc_last_none (zip ls (iota b.+1 (size ls))) l.
    rewrite (_ : map fst _ = ls); last by rewrite -/(unzip1 _) unzip1_zip // size_iota.
    by rewrite nl; case: (assoc_last _ _).
  by move=> ->; rewrite eqxx addn0.
by rewrite (IH b.+1 i) // addSnnS.
Qed.

Lemma label_index_some (ls : seq label) l i :
  label_index ls l = Some i -> (i < size ls)%N /\ forall d, nth d ls i = l.
Proof.
rewrite /label_index.
have gen b : assoc_last (zip ls (iota b (size ls))) l = Some i ->
   [/\ (b <= i)%N, (i - b < size ls)%N & forall d, nth d ls (i - b) = l].
  elim: ls b => // l' ls IH b /=.
  case E: (assoc_last _ l) => [w|].
    case=> ew; subst w; have [H1 H2 H3] := IH _ E.
    have -> : (i - b = (i - b.+1).+1)%N by lia.
    by split=> //; lia.
  by case: eqP => // -> [<-]; split; rewrite ?subnn.
by move/gen => [_]; rewrite subn0.
Qed.

Lemma label_index_none (ls : seq label) l : l \notin ls -> label_index ls l = None.
Proof.
move=> nl; rewrite /label_index.
have := assoc_last_none (zip ls (iota 0 (size ls))) l.
rewrite (_ : map fst _ = ls); last by rewrite -/(unzip1 _) unzip1_zip // size_iota.
by rewrite nl; case: (assoc_last _ _).
Qed.

Lemma label_index_mem (ls : seq label) l : l \in ls -> exists i, label_index ls l = Some i.
Proof.
move=> nl; rewrite /label_index.
have := assoc_last_none (zip ls (iota 0 (size ls))) l.
rewrite (_ : map fst _ = ls); last by rewrite -/(unzip1 _) unzip1_zip // size_iota.
by rewrite nl; case: (assoc_last _ _) => // i _; exists i.
Qed.

Lemma resolve_label P (os : seq (oracle P)) i o e :
  uniq (map (@o_label P) os) -> idx os i = Ok o -> resolve os (o_label o) e = Ok o.
Proof.
move=> u Ho; have [Hi Hn] := idx_ok Ho; rewrite /resolve.
rewrite -(Hn o) -(nth_map o EmptyString (@o_label P)) // label_index_uniq ?size_map //.
by rewrite Hn.
Qed.

Lemma resolve_ok P (os : seq (oracle P)) l e o :
  resolve os l e = Ok o -> exists2 i, idx os i = Ok o & o_label o = l.
Proof.
rewrite /resolve; case E: label_index => [i|] // Ho; exists i => //.
have [Hi Hn] := label_index_some E; move: Hi; rewrite size_map => Hi.
have := Hn EmptyString; rewrite (nth_map o) //.
by have [_ ->] := idx_ok Ho.
Qed.

Lemma resolve_missing P (os : seq (oracle P)) l e :
  l \notin map (@o_label P) os -> resolve os l e = Err e.
Proof. by move=> nl; rewrite /resolve label_index_none. Qed.

Section Configure.
Variable F : fieldType.

Fixpoint emap {Q Q' : Type} (g : Q -> Q') (e : expr F Q) : expr F Q' :=
  match e with
  | Const c => Const c
  | Orc q => Orc (g q)
  | Neg a => Neg (emap g a)
  | Sum a b => Sum (emap g a) (emap g b)
  | Prod a b => Prod (emap g a) (emap g b)
  | Scaled a c => Scaled (emap g a) c
  end.

Lemma leaves_emap Q Q' (g : Q -> Q') e : leaves (emap g e) = map g (leaves e).
Proof. by elim: e => //= a -> b ->; rewrite map_cat. Qed.

Lemma eval_res_emap Q Q' (g : Q -> Q') e (leaf : Q' -> res F) :
  eval_res (emap g e) leaf = eval_res e (fun q => leaf (g q)).
Proof.
rewrite /eval_res; elim: e => [c|q|a IH|a IHa b IHb|a IHa b IHb|a IH c] //=;
by rewrite ?IH ?IHa ?IHb.
Qed.

Variables (PW PI PF PT : Type).
Implicit Types (w : seq (oracle PW)) (i : seq (oracle PI)) (f : seq (oracle PF)).

Definition lab {P} (os : seq (oracle P)) (j : nat) : label :=
  nth EmptyString (map (@o_label P) os) j.

Definition resolveq w i f (q : vquery) : oquery :=
  OQuery (match vq_type q with
          | Witness => lab w (vq_index q)
          | Instance => lab i (vq_index q)
          | Fixed => lab f (vq_index q) end) (vq_rot q) (vq_type q).

Lemma rmap_label P (os : seq (oracle P)) j : (j < size os)%N ->
  rmap (@o_label P) (idx os j) = Ok (lab os j).
Proof. by move=> H; rewrite -idx_map (idx_nth EmptyString) // size_map. Qed.

Lemma to_expression_ok (e : expr F vquery) w i f :
  (forall q, occurs q (leaves e) -> in_range w i f q) ->
  to_expression e w i f = Ok (emap (resolveq w i f) e).
Proof.
elim: e => [c|q|a IH|a IHa b IHb|a IHa b IHb|a IH c] //= H.
- have := H q (or_introl erefl); rewrite /in_range /resolveq.
  by case: (vq_type q) => Hq; rewrite rmap_label.
- by rewrite IH.
- by rewrite IHa ?IHb // => q Hq; apply: H; apply/occurs_cat; auto.
- by rewrite IHa ?IHb // => q Hq; apply: H; apply/occurs_cat; auto.
- by rewrite IH.
Qed.

Lemma to_expression_fail (e : expr F vquery) w i f q :
  occurs q (leaves e) -> ~~ in_range w i f q -> to_expression e w i f = Panic PIndex.
Proof.
move=> Hq Hr.
have tot (e' : expr F vquery) : to_expression e' w i f = Panic PIndex \/ exists x, to_expression e' w i f = Ok x.
  elim: e' => [c|q'|a IH|a IHa b IHb|a IHa b IHb|a IH c] /=.
  - by right; eexists.
  - case: (vq_type q').
    + by case: (ltnP (vq_index q') (size w)) => H; [rewrite rmap_label //; right; eexists
        |rewrite idx_oob //; left].
    + by case: (ltnP (vq_index q') (size i)) => H; [rewrite rmap_label //; right; eexists
        |rewrite idx_oob //; left].
    + by case: (ltnP (vq_index q') (size f)) => H; [rewrite rmap_label //; right; eexists
        |rewrite idx_oob //; left].
  - by case: IH => [->|[x ->]]; [left|right; eexists].
  - by case: IHa => [->|[x ->]]; [left|case: IHb => [->|[y ->]]; [left|right; eexists]].
  - by case: IHa => [->|[x ->]]; [left|case: IHb => [->|[y ->]]; [left|right; eexists]].
  - by case: IH => [->|[x ->]]; [left|right; eexists].
elim: e Hq => [c|q'|a IH|a IHa b IHb|a IHa b IHb|a IH c] //=.
- case=> // eq; subst q'; move: Hr; rewrite /in_range.
  by case: (vq_type q); rewrite -leqNgt => H; rewrite idx_oob.
- by move/IH ->.
- move/occurs_cat => [/IHa ->|/IHb ->] //.
  by case: (tot a) => [->|[x ->]].
- move/occurs_cat => [/IHa ->|/IHb ->] //.
  by case: (tot a) => [->|[x ->]].
- by move/IH ->.
Qed.

(** Registering the queries of kind [t] on one list of columns. *)
Definition regs {P} (t : oracle_type) (qs : seq vquery) (os : seq (oracle P)) : seq (oracle P) :=
  foldl (fun os q => if vq_type q == t then upd os (vq_index q) (register_rotation (vq_rot q)) else os)
    os qs.

Lemma size_regs P t qs (os : seq (oracle P)) : size (regs t qs os) = size os.
Proof. by elim: qs os => //= q qs IH os; rewrite IH; case: ifP => // _; rewrite size_upd. Qed.

Lemma map_label_upd P (os : seq (oracle P)) j r :
  map (@o_label P) (upd os j (register_rotation r)) = map (@o_label P) os.
Proof. by apply: map_upd. Qed.

Lemma label_regs P t qs (os : seq (oracle P)) :
  map (@o_label P) (regs t qs os) = map (@o_label P) os.
Proof. by elim: qs os => //= q qs IH os; rewrite IH; case: ifP => // _; rewrite map_label_upd. Qed.

Lemma idx_upd A (s : seq A) (i : nat) g j a : idx s j = Ok a ->
  idx (upd s i g) j = Ok (if i == j then g a else a).
Proof.
move=> H; have [Hj Hn] := idx_ok H.
rewrite (idx_nth a) ?size_upd // nth_upd Hj andbT Hn eq_sym.
by [].
Qed.

Lemma regs_spec P t qs (os : seq (oracle P)) j o : idx os j = Ok o ->
  exists o', [/\ idx (regs t qs os) j = Ok o', o_label o' = o_label o, o_data o' = o_data o
    & forall r, r \in o_rots o' <-> r \in o_rots o \/ occurs (VQuery j r t) qs].
Proof.
elim: qs os o => [|q qs IH] os o Ho /=.
  by exists o; split=> // r; split=> [|[]]; auto.
case: eqP => [et|nt].
  have [o' [E1 E2 E3 E4]] := IH _ _ (idx_upd (vq_index q) (register_rotation (vq_rot q)) Ho).
  exists o'; split=> //.
  - by rewrite E2; case: ifP.
  - by rewrite E3; case: ifP.
  - move=> r; rewrite E4; case: eqP => [ej|nj]; last first.
      split=> [[]|[|[]]]; auto.
      by move=> eq; case: nj; rewrite -eq.
    rewrite mem_sinsert; split.
      case=> [/orP[/eqP ->|]|]; auto.
      by right; left; rewrite -ej -et; case: (q).
    case=> [->|[eq|]]; rewrite ?orbT; auto.
    by left; rewrite -eq eqxx.
have [o' [E1 E2 E3 E4]] := IH _ _ Ho; exists o'; split=> // r.
rewrite E4; split=> [[]|[|[]]]; auto.
by move=> eq; case: nt; rewrite -eq.
Qed.

Definition st_in_range (st : oracles3 PW PI PF) := in_range st.1.1 st.1.2 st.2.

Lemma reg_at_ok P (os : seq (oracle P)) j r : (j < size os)%N ->
  reg_at os j r = Ok (lab os j, upd os j (register_rotation r)).
Proof.
move=> Hj; rewrite /reg_at; have := rmap_label Hj; case E: (idx os j) => [o'||] //=.
by case=> ->.
Qed.

Lemma configure_queries_ok qs w i f :
  (forall q, occurs q qs -> in_range w i f q) ->
  configure_queries qs (w, i, f)
  = Ok (map (resolveq w i f) qs, (regs Witness qs w, regs Instance qs i, regs Fixed qs f)).
Proof.
elim: qs w i f => [|q qs IH] w i f H //=.
have Hq := H q (or_introl erefl).
have H' : forall q', occurs q' qs -> in_range w i f q' by move=> q' Hq'; apply: H; right.
rewrite /configure_query; move: Hq; rewrite /in_range; case Et: (vq_type q) => Hq.
- rewrite reg_at_ok //= IH; last first.
    move=> q' /H'; rewrite /in_range; case: (vq_type q') => //; by rewrite size_upd.
  rewrite /= {2}/resolveq Et; congr (Ok (_ :: _, _)).
  by apply: eq_map => q'; rewrite /resolveq /lab map_label_upd.
- rewrite reg_at_ok //= IH; last first.
    move=> q' /H'; rewrite /in_range; case: (vq_type q') => //; by rewrite size_upd.
  rewrite /= {2}/resolveq Et; congr (Ok (_ :: _, _)).
  by apply: eq_map => q'; rewrite /resolveq /lab map_label_upd.
- rewrite reg_at_ok //= IH; last first.
    move=> q' /H'; rewrite /in_range; case: (vq_type q') => //; by rewrite size_upd.
  rewrite /= {2}/resolveq Et; congr (Ok (_ :: _, _)).
  by apply: eq_map => q'; rewrite /resolveq /lab map_label_upd.
Qed.

Lemma configure_queries_fail qs w i f q :
  occurs q qs -> ~~ in_range w i f q -> configure_queries qs (w, i, f) = Panic PIndex.
Proof.
elim: qs w i f => [|q' qs IH] w i f //= Hq Hr.
case Hq' : (in_range w i f q'); last first.
  move: Hq'; rewrite /in_range /configure_query; case: (vq_type q');
  by move/negbT; rewrite -leqNgt => H; rewrite /reg_at idx_oob.
case: Hq => [e|Hq]; first by move: Hr; rewrite e Hq'.
move: Hq' Hr; rewrite /in_range /configure_query; case: (vq_type q') => Hq' Hr.
- by rewrite reg_at_ok //= IH // /in_range size_upd.
- by rewrite reg_at_ok //= IH // /in_range size_upd.
- by rewrite reg_at_ok //= IH // /in_range size_upd.
Qed.

Lemma in_range_regs w i f q a b c :
  in_range (regs Witness a w) (regs Instance b i) (regs Fixed c f) q = in_range w i f q.
Proof. by rewrite /in_range !size_regs. Qed.

Lemma resolveq_regs w i f a b c :
  resolveq (regs Witness a w) (regs Instance b i) (regs Fixed c f) =1 resolveq w i f.
Proof. by move=> q; rewrite /resolveq /lab !label_regs. Qed.

Lemma eq_emap Q Q' (g h : Q -> Q') e : g =1 h -> emap g e = emap h e.
Proof. by move=> H; elim: e => //= [q|a ->|a -> b ->|a -> b ->|a -> c] //; rewrite H. Qed.

Lemma gv_configure_ok vo w i f : all_in_range w i f vo ->
  let qs := gv_virtual_queries vo in
  gv_configure vo (w, i, f) =
    Ok (GenericVO (gv_virtual_exp vo) qs (Some (map (resolveq w i f) qs))
          (Some (emap (resolveq w i f) (gv_virtual_exp vo))),
        (regs Witness qs w, regs Instance qs i, regs Fixed qs f)).
Proof.
move=> H /=; rewrite /gv_configure configure_queries_ok; last by move=> q Hq; apply: H; left.
rewrite /= to_expression_ok; last by move=> q Hq; rewrite in_range_regs; apply: H; right.
by rewrite /= (eq_emap _ (resolveq_regs _ _ _ _ _ _)).
Qed.

Lemma gv_configure_fail (vo : generic_vo F) w i f : ~ all_in_range w i f vo ->
  gv_configure vo (w, i, f) = Panic PIndex.
Proof.
move=> H; rewrite /gv_configure.
have dec qs : (forall q, occurs q qs -> in_range w i f q) \/ (exists2 q, occurs q qs & ~~ in_range w i f q).
  elim: qs => [|q qs [IH|[q' Hq' Hr]]] /=; first by left.
    case E: (in_range w i f q); last by right; exists q; auto; rewrite E.
    by left=> q' [->|/IH].
  by right; exists q'; auto.
case: (dec (gv_virtual_queries vo)) => [H1|[q Hq Hr]]; last by rewrite (configure_queries_fail Hq).
rewrite configure_queries_ok //=.
case: (dec (leaves (gv_virtual_exp vo))) => [H2|[q Hq Hr]].
  by case: H => q [/H1|/H2].
by rewrite (to_expression_fail Hq) // in_range_regs.
Qed.

Lemma resolve_lab P (os : seq (oracle P)) j e : uniq (map (@o_label P) os) -> (j < size os)%N ->
  resolve os (lab os j) e = idx os j.
Proof.
move=> u Hj; case E: (idx os j) => [o'|err|p]; last 2 first.
- by move: E; case: os u Hj => // o0 os u Hj; rewrite (idx_nth o0).
- by move: E; case: os u Hj => // o0 os u Hj; rewrite (idx_nth o0).
have [_ Hn] := idx_ok E.
by rewrite /lab (nth_map o') // Hn (resolve_label _ _ E).
Qed.

Lemma query_leaf_resolveq A w i f (qw : oracle PW -> rotation -> res A) qi qf q :
  uniq (map (@o_label PW) w) -> uniq (map (@o_label PI) i) -> uniq (map (@o_label PF) f) ->
  in_range w i f q ->
  query_leaf w i f qw qi qf (resolveq w i f q) = index_leaf w i f qw qi qf q.
Proof.
move=> uw ui uf; rewrite /in_range /query_leaf /index_leaf /resolveq /=.
by case: (vq_type q) => Hq; rewrite resolve_lab.
Qed.

(** Lookup configuration. *)
Lemma configure_table_ok qs (t : seq (oracle PT)) :
  (forall q, occurs q qs -> vq_type q = Fixed /\ (vq_index q < size t)%N) ->
  configure_table qs t = Ok ([seq OQuery (lab t (vq_index q)) (vq_rot q) Fixed | q <- qs], regs Fixed qs t).
Proof.
elim: qs t => [|q qs IH] t H //=.
have [-> Hq] := H q (or_introl erefl).
rewrite reg_at_ok //= IH; last by move=> q' Hq'; rewrite size_upd; apply: H; right.
rewrite /=; congr (Ok (_ :: _, _)).
by apply: eq_map => q'; rewrite /lab map_label_upd.
Qed.
End Configure.

Section ConfigureLookup.
Variables (F : fieldType) (PW PI PF PT : Type).
Implicit Types (w : seq (oracle PW)) (i : seq (oracle PI)) (f : seq (oracle PF)) (t : seq (oracle PT)).

Lemma configure_table_reject l1 q l2 t :
  (forall q', occurs q' l1 -> table_ok t q') -> vq_type q <> Fixed ->
  configure_table (l1 ++ q :: l2) t =
    Err (let s := ("VirtualQuery index: " ++ show_nat (vq_index q))%string in
         if vq_type q is Witness then WitnessTableNotAllowed s else InstanceTableNotAllowed s).
Proof.
elim: l1 t => [|q' l1 IH] t /= H nf; first by case: (vq_type q) nf.
have [-> Hq'] := H q' (or_introl erefl).
rewrite reg_at_ok //= IH // => q'' Hq''; rewrite /table_ok size_upd; apply: H; by right.
Qed.

Lemma configure_table_oob l1 q l2 t :
  (forall q', occurs q' l1 -> table_ok t q') -> vq_type q = Fixed -> (size t <= vq_index q)%N ->
  configure_table (l1 ++ q :: l2) t = Panic PIndex.
Proof.
elim: l1 t => [|q' l1 IH] t /= H nf oob; first by rewrite nf /reg_at idx_oob.
have [-> Hq'] := H q' (or_introl erefl).
rewrite reg_at_ok //= IH // ?size_upd // => q'' Hq''; rewrite /table_ok size_upd; apply: H; by right.
Qed.

Lemma table_split (qs : seq vquery) t :
  (forall q, occurs q qs -> table_ok t q) \/
  (exists l1 q l2, [/\ qs = l1 ++ q :: l2, (forall q', occurs q' l1 -> table_ok t q') & ~ table_ok t q]).
Proof.
elim: qs => [|q qs IH]; first by left.
have dec : table_ok t q \/ ~ table_ok t q.
  rewrite /table_ok; case: (vq_type q); case: (ltnP (vq_index q) (size t)) => H; try (by left); right; by case.
case: dec => [Hq|Hq]; last by right; exists [::], q, qs.
case: IH => [H|[l1 [q' [l2 [-> H1 H2]]]]]; first by left=> q' [->|/H].
by right; exists (q :: l1), q', l2; split=> // q'' [->|/H1].
Qed.

Lemma gl_configure_ok (vo : generic_lookup_vo F) w i f t :
  lookup_in_range w i f vo -> (forall q, occurs q (gl_virtual_table_queries vo) -> table_ok t q) ->
  let qs := gl_virtual_queries vo in
  let tqs := gl_virtual_table_queries vo in
  gl_configure vo (w, i, f) t =
   Ok (GenericLookupVO (gl_virtual_expressions vo) qs tqs
        (Some [seq OQuery (lab t (vq_index q)) (vq_rot q) Fixed | q <- tqs])
        (Some (map (emap (resolveq w i f)) (gl_virtual_expressions vo))),
       (regs Witness qs w, regs Instance qs i, regs Fixed qs f), regs Fixed tqs t).
Proof.
case=> H1 H2 H3 /=; rewrite /gl_configure configure_queries_ok //= configure_table_ok //=.
rewrite (@rmapM_map _ _ _ (emap (resolveq w i f))) // => k e0 Hk.
rewrite to_expression_ok; first by rewrite (eq_emap _ (resolveq_regs _ _ _ _ _ _)).
move=> q Hq; rewrite in_range_regs; apply: H2 Hq; apply/occurs_nth; exists k => // x0.
exact: set_nth_default.
Qed.

Lemma gl_configure_ok_inv (vo vo' : generic_lookup_vo F) (st st' : seq (oracle PW) * seq (oracle PI) * seq (oracle PF)) t t' :
  gl_configure vo st t = Ok (vo', st', t') ->
  forall q, occurs q (gl_virtual_table_queries vo) -> table_ok t q.
Proof.
rewrite /gl_configure; case: (configure_queries _ st) => [[oqs st1]||] //=.
case: (table_split (gl_virtual_table_queries vo) t) => [H _ //|[l1 [q [l2 [-> H1 H2]]]]].
case Et: (vq_type q) => /=.
- by rewrite configure_table_reject // Et.
- by rewrite configure_table_reject // Et.
- rewrite configure_table_oob // leqNgt; apply/negP => Hq; exact: H2.
Qed.
End ConfigureLookup.

(** ** The properties C03 and C04, assembled *)
Section ConfigureProps.
Variables (F : fieldType) (PW PI PF PT : Type).
Implicit Types (w : seq (oracle PW)) (i : seq (oracle PI)) (f : seq (oracle PF)) (t : seq (oracle PT)).

Lemma regs_added P (t : oracle_type) qs (os : seq (oracle P)) : rotations_added t qs os (regs t qs os).
Proof. by split; [exact: size_regs|move=> j o; exact: regs_spec]. Qed.

Lemma dec_in_range w i f (qs : seq vquery) :
  (forall q, occurs q qs -> in_range w i f q) \/ (exists2 q, occurs q qs & ~~ in_range w i f q).
Proof.
elim: qs => [|q qs [IH|[q' Hq' Hr]]] /=; first by left.
  case E: (in_range w i f q); last by right; exists q; auto; rewrite E.
  by left=> q' [->|/IH].
by right; exists q'; auto.
Qed.

Lemma gv_configure_iff (vo : generic_vo F) w i f :
  (exists vo' st', gv_configure vo (w, i, f) = Ok (vo', st')) <-> all_in_range w i f vo.
Proof.
split=> [[vo' [st' H]]|/gv_configure_ok -> /=]; last by eexists; eexists.
move=> q Hq; case E: (in_range w i f q) => //.
by move: H; rewrite gv_configure_fail // => /(_ _ Hq); rewrite E.
Qed.

Lemma gv_configure_spec (vo vo' : generic_vo F) w i f w' i' f' :
  gv_configure vo (w, i, f) = Ok (vo', (w', i', f')) ->
  let qs := gv_virtual_queries vo in
  [/\ rotations_added Witness qs w w', rotations_added Instance qs i i', rotations_added Fixed qs f f' &
   uniq (map (@o_label PW) w) -> uniq (map (@o_label PI) i) -> uniq (map (@o_label PF) f) ->
   exists2 e, gv_get_expression vo' = Ok e &
     forall (qw : oracle PW -> rotation -> res F) qi qf,
       eval_res e (query_leaf w' i' f' qw qi qf)
       = eval_res (gv_virtual_exp vo) (index_leaf w' i' f' qw qi qf)].
Proof.
move=> H; have Hr : all_in_range w i f vo by apply/gv_configure_iff; eexists; eexists; exact: H.
move: H; rewrite gv_configure_ok //= => -[<- <- <- <-].
split; try exact: regs_added.
move=> uw ui uf; eexists; first by [].
move=> qw qi qf; rewrite eval_res_emap; apply: eq_eval_res => q Hq.
rewrite -(@resolveq_regs PW PI PF w i f (gv_virtual_queries vo) (gv_virtual_queries vo) (gv_virtual_queries vo)).
rewrite query_leaf_resolveq ?label_regs // in_range_regs; apply: Hr; by right.
Qed.

Lemma gl_configure_iff (vo : generic_lookup_vo F) w i f t :
  (exists x, gl_configure vo (w, i, f) t = Ok x) <->
  lookup_in_range w i f vo /\ (forall q, occurs q (gl_virtual_table_queries vo) -> table_ok t q).
Proof.
split=> [[[[vo' st'] t'] H]|[H1 H2]]; last by rewrite gl_configure_ok //; eexists.
split; last exact: gl_configure_ok_inv H.
have Ht := gl_configure_ok_inv H.
move: H; rewrite /gl_configure.
case: (dec_in_range w i f (gl_virtual_queries vo)) => [H1|[q Hq Hr]]; last by rewrite (configure_queries_fail Hq).
rewrite configure_queries_ok //= configure_table_ok //=.
case E: (rmapM _ _) => [es||] //= _; split=> // e q /occurs_nth[k Hk He] Hq.
case Hr: (in_range w i f q) => //.
have := rmapM_nth e (Const (0 : F)) E Hk; rewrite (He e) (to_expression_fail Hq) //.
by rewrite in_range_regs Hr.
Qed.

Lemma gl_configure_first_error (vo : generic_lookup_vo F) w i f t l1 q l2 :
  (forall q, occurs q (gl_virtual_queries vo) -> in_range w i f q) ->
  gl_virtual_table_queries vo = l1 ++ q :: l2 ->
  (forall q', occurs q' l1 -> table_ok t q') ->
  let s := ("VirtualQuery index: " ++ show_nat (vq_index q))%string in
  (vq_type q = Witness -> gl_configure vo (w, i, f) t = Err (WitnessTableNotAllowed s)) /\
  (vq_type q = Instance -> gl_configure vo (w, i, f) t = Err (InstanceTableNotAllowed s)).
Proof.
by move=> H1 H2 H3 s; split=> Ht; rewrite /gl_configure configure_queries_ok //= H2 configure_table_reject // Ht.
Qed.

Lemma gl_configure_spec (vo vo' : generic_lookup_vo F) w i f t w' i' f' t' :
  gl_configure vo (w, i, f) t = Ok (vo', (w', i', f'), t') ->
  let qs := gl_virtual_queries vo in
  let tqs := gl_virtual_table_queries vo in
  [/\ rotations_added Witness qs w w', rotations_added Instance qs i i', rotations_added Fixed qs f f',
      rotations_added Fixed tqs t t' &
   uniq (map (@o_label PW) w) -> uniq (map (@o_label PI) i) -> uniq (map (@o_label PF) f) ->
   uniq (map (@o_label PT) t) ->
   exists es rs, [/\ gl_get_expressions vo' = Ok es, gl_get_table_queries vo' = Ok rs,
     forall (qw : oracle PW -> rotation -> res F) qi qf,
       [seq eval_res e (query_leaf w' i' f' qw qi qf) | e <- es]
       = [seq eval_res e (index_leaf w' i' f' qw qi qf) | e <- gl_virtual_expressions vo] &
     [seq (resolve t' (oq_label r) (MissingConcreteEval (oq_label r)), oq_rot r, oq_type r) | r <- rs]
     = [seq (idx t' (vq_index q), vq_rot q, Fixed) | q <- tqs]]].
Proof.
move=> H; have [[Hq He] Ht] : lookup_in_range w i f vo /\ (forall q, occurs q (gl_virtual_table_queries vo) -> table_ok t q).
  by apply/gl_configure_iff; eexists; exact: H.
move: H; rewrite gl_configure_ok //= => -[<- <- <- <- <-].
split; try exact: regs_added.
move=> uw ui uf ut; eexists; eexists; split; try by [].
- move=> qw qi qf; rewrite -map_comp; move: He; elim: (gl_virtual_expressions vo) => //= e es IH He.
  rewrite IH; last by move=> e' q He'; apply: He; right.
  congr (_ :: _); rewrite eval_res_emap; apply: eq_eval_res => q Hql.
  rewrite -(@resolveq_regs PW PI PF w i f (gl_virtual_queries vo) (gl_virtual_queries vo) (gl_virtual_queries vo)).
  rewrite query_leaf_resolveq ?label_regs // in_range_regs; apply: He Hql; by left.
- rewrite -map_comp; set tt := regs _ _ t.
  have Et q : occurs q (gl_virtual_table_queries vo) -> resolve tt (lab t (vq_index q)) (MissingConcreteEval (lab t (vq_index q))) = idx tt (vq_index q).
    move=> /Ht[_ Hl]; rewrite -(resolve_lab (os:=tt) (MissingConcreteEval (lab t (vq_index q)))) ?size_regs ?label_regs //.
    by rewrite /lab label_regs.
  move: Et; elim: (gl_virtual_table_queries vo) => //= q qs IH Et.
  by rewrite IH ?Et //; [left|move=> q' Hq'; apply: Et; right].
Qed.
End ConfigureProps.

Section Assembled.
Variables (F : fieldType) (Q : Type).
Lemma evaluate_ops (leaf : Q -> F) :
  let value e := evaluate e id leaf -%R +%R *%R (fun x c => x * c) in
  [/\ (forall c, value (Const c) = c) /\ (forall q, value (Orc q) = leaf q),
      (forall a, value (eneg a) = - value a) /\ (forall a c, value (escale a c) = c * value a),
      forall a b, value (eadd a b) = value a + value b,
      forall a b, value (esub a b) = value a - value b &
      forall a b, value (emul a b) = value a * value b].
Proof. by split=> //; split=> // a c /=; rewrite mulrC. Qed.

Lemma poly_evaluate_field (leaf : Q -> lpoly F) (e : expr F Q) (x : F) :
  peval (evaluate e (fun c => ptrim [:: c]) leaf (@pneg F) (@padd F) (@pmul F) (fun p c => pscale c p)) x
  = evaluate e id (fun q => peval (leaf q) x) -%R +%R *%R (fun v c => v * c).
Proof.
have := poly_evaluate_at leaf e x; rewrite /poly_evaluate => ->.
by rewrite -field_evaluateE.
Qed.

Lemma poly_evaluate_degree (leaf : Q -> lpoly F) (dg : Q -> res nat) (e : expr F Q) d :
  (forall q k, occurs q (leaves e) -> dg q = Ok k -> (size (Poly (leaf q)) <= k.+1)%N) ->
  edegree e dg = Ok d ->
  (size (Poly (evaluate e (fun c => ptrim [:: c]) leaf (@pneg F) (@padd F) (@pmul F) (fun p c => pscale c p))) <= d.+1)%N.
Proof.
by move=> H Hd; have := Poly_poly_evaluate leaf e; rewrite /poly_evaluate => ->; apply: size_pmeaning Hd.
Qed.

Lemma gv_unconfigured (cfg : expr F vquery * seq vquery) :
  gv_get_expression (gv_init cfg) = Err UninitializedExpr.
Proof. by []. Qed.
Lemma gl_unconfigured (cfg : seq (expr F vquery) * seq vquery * seq vquery) :
  gl_get_expressions (gl_init cfg) = Err UninitializedLookupExpr /\
  gl_get_table_queries (gl_init cfg) = Err UninitializedLookupTableQuery.
Proof. by []. Qed.
End Assembled.
