(** Lemmas about the outcome type and the list helpers of Base.v; ring/field set-up. *)
From mathcomp Require Import all_ssreflect all_algebra.
From Coq Require Export Ring Field.
From Verif Require Import Base.

Set Implicit Arguments.
Unset Strict Implicit.
Unset Printing Implicit Defensive.

Import GRing.Theory.

(** [ring]/[field] for mathcomp fields and commutative rings. mathcomp's operations carry
    canonical-structure paths that the tactics do not see through, so goals are first
    converted to the plain functions below. *)
Section FOps.
Variable F : fieldType.
Local Open Scope ring_scope.
Definition f_zero : F := 0.
Definition f_one : F := 1.
Definition f_add (a b : F) : F := a + b.
Definition f_mul (a b : F) : F := a * b.
Definition f_opp (a : F) : F := - a.
Definition f_sub (a b : F) : F := a - b.
Definition f_inv (a : F) : F := a^-1.
Definition f_div (a b : F) : F := a / b.
Lemma F_field_theory :
  @field_theory F f_zero f_one f_add f_mul f_sub f_opp f_div f_inv eq.
Proof.
split=> //.
- split=> //; rewrite /f_zero /f_one /f_add /f_mul /f_opp /f_sub.
  + by move=> x; rewrite add0r.
  + by move=> x y; rewrite addrC.
  + by move=> x y z; rewrite addrA.
  + by move=> x; rewrite mul1r.
  + by move=> x y; rewrite mulrC.
  + by move=> x y z; rewrite mulrA.
  + by move=> x y z; rewrite mulrDl.
  + by move=> x; rewrite subrr.
- by move/eqP; rewrite /f_one /f_zero oner_eq0.
- by move=> x /eqP nz; rewrite /f_mul /f_inv mulVf.
Qed.
End FOps.

Section ROps.
Variable R : comRingType.
Local Open Scope ring_scope.
Definition r_zero : R := 0.
Definition r_one : R := 1.
Definition r_add (a b : R) : R := a + b.
Definition r_mul (a b : R) : R := a * b.
Definition r_opp (a : R) : R := - a.
Definition r_sub (a b : R) : R := a - b.
Lemma R_ring_theory : @ring_theory R r_zero r_one r_add r_mul r_sub r_opp eq.
Proof.
split=> //; rewrite /r_zero /r_one /r_add /r_mul /r_opp /r_sub.
- by move=> x; rewrite add0r.
- by move=> x y; rewrite addrC.
- by move=> x y z; rewrite addrA.
- by move=> x; rewrite mul1r.
- by move=> x y; rewrite mulrC.
- by move=> x y z; rewrite mulrA.
- by move=> x y z; rewrite mulrDl.
- by move=> x; rewrite subrr.
Qed.
End ROps.

Ltac f_conv F :=
  rewrite ?exprS ?expr0 ?mulr1n ?mulr0n ?mulr2n;
  match goal with |- @eq _ ?a ?b => change (@eq (GRing.Field.sort F) a b) end;
  repeat match goal with
  | |- context [@GRing.add _ ?a (@GRing.opp _ ?b)] => progress change (@GRing.add _ a (@GRing.opp _ b)) with (@f_sub F a b)
  | |- context [@GRing.add _ ?a ?b] => progress change (@GRing.add _ a b) with (@f_add F a b)
  | |- context [@GRing.mul _ ?a (@GRing.inv _ ?b)] => progress change (@GRing.mul _ a (@GRing.inv _ b)) with (@f_div F a b)
  | |- context [@GRing.mul _ ?a ?b] => progress change (@GRing.mul _ a b) with (@f_mul F a b)
  | |- context [@GRing.opp _ ?a] => progress change (@GRing.opp _ a) with (@f_opp F a)
  | |- context [@GRing.inv _ ?a] => progress change (@GRing.inv _ a) with (@f_inv F a)
  | |- context [GRing.zero ?Z] => progress change (GRing.zero Z) with (f_zero F)
  | |- context [GRing.one ?Z] => progress change (GRing.one Z) with (f_one F)
  end.
Ltac r_conv R :=
  rewrite ?exprS ?expr0 ?mulr1n ?mulr0n ?mulr2n;
  match goal with |- @eq _ ?a ?b => change (@eq (GRing.ComRing.sort R) a b) end;
  repeat match goal with
  | |- context [@GRing.add _ ?a (@GRing.opp _ ?b)] => progress change (@GRing.add _ a (@GRing.opp _ b)) with (@r_sub R a b)
  | |- context [@GRing.add _ ?a ?b] => progress change (@GRing.add _ a b) with (@r_add R a b)
  | |- context [@GRing.mul _ ?a ?b] => progress change (@GRing.mul _ a b) with (@r_mul R a b)
  | |- context [@GRing.opp _ ?a] => progress change (@GRing.opp _ a) with (@r_opp R a)
  | |- context [GRing.zero ?Z] => progress change (GRing.zero Z) with (r_zero R)
  | |- context [GRing.one ?Z] => progress change (GRing.one Z) with (r_one R)
  end.

(** ** Outcomes *)
Section Res.
Variables A B S : Type.

Lemma rbind_ok (x : res A) (f : A -> res B) b :
  rbind x f = Ok b -> exists2 a, x = Ok a & f a = Ok b.
Proof. by case: x => //= a; exists a. Qed.

Lemma rmap_ok (f : A -> B) (x : res A) b :
  rmap f x = Ok b -> exists2 a, x = Ok a & b = f a.
Proof. by case: x => //= a [<-]; exists a. Qed.

Lemma opt_unwrap_ok (o : option A) a : opt_unwrap o = Ok a -> o = Some a.
Proof. by case: o => //= x [->]. Qed.

Lemma opt_or_ok (o : option A) e a : opt_or o e = Ok a -> o = Some a.
Proof. by case: o => //= x [->]. Qed.

Lemma rassert_ok b u : rassert b = Ok u -> b.
Proof. by case: b. Qed.

Lemma usub_ok a b c : usub a b = Ok c -> b <= a /\ c = a - b.
Proof. by rewrite /usub; case: leqP => // _ [<-]. Qed.

Lemma rmapM_ok (f : A -> res B) s t :
  rmapM f s = Ok t -> size t = size s.
Proof.
elim: s t => [|a s IH] t /=; first by case=> <-.
by case: (f a) => //= b; case E: (rmapM f s) => [bs||] //= [<-] /=; rewrite (IH _ E).
Qed.

Lemma rmapM_nth (f : A -> res B) s t i a0 b0 :
  rmapM f s = Ok t -> i < size s -> f (nth a0 s i) = Ok (nth b0 t i).
Proof.
elim: s t i => [|a s IH] t i //=.
case E1: (f a) => [b||] //=; case E: (rmapM f s) => [bs||] //= [<-] /=.
by case: i => [|i] //=; rewrite ltnS => /(IH _ _ E).
Qed.

Lemma rmapM_map (f : A -> res B) (g : A -> B) s :
  (forall i a0, i < size s -> f (nth a0 s i) = Ok (g (nth a0 s i))) -> rmapM f s = Ok (map g s).
Proof.
elim: s => [|a s IH] H //=.
rewrite (H 0 a) //= IH //= => i a0 Hi.
exact: (H i.+1 a0).
Qed.

Lemma rmapM_intro (f : A -> res B) s t a0 b0 :
  size t = size s -> (forall i, i < size s -> f (nth a0 s i) = Ok (nth b0 t i)) ->
  rmapM f s = Ok t.
Proof.
elim: s t => [|a s IH] [|b t] //= [st] H.
by rewrite (H 0) //= (IH t) // => i Hi; apply: (H i.+1).
Qed.

Lemma rfoldM_foldl (f : S -> A -> res S) (g : S -> A -> S) st s :
  (forall st i a0, i < size s -> f st (nth a0 s i) = Ok (g st (nth a0 s i))) ->
  rfoldM f st s = Ok (foldl g st s).
Proof.
elim: s st => [|a s IH] st H //=.
rewrite (H st 0 a) //= IH // => st' i a0 Hi.
exact: (H st' i.+1 a0).
Qed.

Lemma rfoldM_cat (f : S -> A -> res S) st s t :
  rfoldM f st (s ++ t) = rbind (rfoldM f st s) (fun st' => rfoldM f st' t).
Proof. by elim: s st => [|a s IH] st //=; case: (f st a). Qed.

Lemma rfoldM_rcons (f : S -> A -> res S) st s a :
  rfoldM f st (rcons s a) = rbind (rfoldM f st s) (fun st' => f st' a).
Proof.
rewrite -cats1 rfoldM_cat /=; case: (rfoldM f st s) => //= st'.
by case: (f st' a).
Qed.

Lemma idx_nth (s : seq A) i a0 : i < size s -> idx s i = Ok (nth a0 s i).
Proof. by elim: s i => [|a s IH] [|i] //= /IH. Qed.

Lemma idx_oob (s : seq A) i : size s <= i -> idx s i = Panic PIndex.
Proof. by elim: s i => [|a s IH] [|i] //= /IH. Qed.

Lemma idx_ok (s : seq A) i a : idx s i = Ok a -> i < size s /\ forall a0, nth a0 s i = a.
Proof.
elim: s i => [|b s IH] [|i] //= ; first by case=> ->.
by move/IH.
Qed.

Lemma idx_ok_nth (s : seq A) i a a0 : idx s i = Ok a -> a = nth a0 s i.
Proof. by case/idx_ok=> _ ->. Qed.

Lemma size_upd (s : seq A) i f : size (upd s i f) = size s.
Proof. by elim: s i => [|a s IH] [|i] //=; rewrite IH. Qed.

Lemma nth_upd (s : seq A) i f j a0 :
  nth a0 (upd s i f) j = if (j == i) && (j < size s) then f (nth a0 s j) else nth a0 s j.
Proof.
elim: s i j => [|a s IH] [|i] [|j] //=; rewrite ?nth_nil ?andbF //=.
by rewrite IH eqSS ltnS.
Qed.
End Res.

Lemma idx_map A B (f : A -> B) s i : idx (map f s) i = rmap f (idx s i).
Proof. by elim: s i => [|a s IH] [|i] //=. Qed.

Lemma map_upd A B (f : A -> B) s i g :
  (forall a, f (g a) = f a) -> map f (upd s i g) = map f s.
Proof. by move=> H; elim: s i => [|a s IH] [|i] //=; rewrite ?H ?IH. Qed.

Lemma eq_rmapM A B (f g : A -> res B) s : f =1 g -> rmapM f s = rmapM g s.
Proof. by move=> H; elim: s => //= a s ->; rewrite H. Qed.

Lemma eq_rfoldM A S (f g : S -> A -> res S) st s :
  (forall st a, f st a = g st a) -> rfoldM f st s = rfoldM g st s.
Proof. by move=> H; elim: s st => //= a s IH st; rewrite H; case: (g st a). Qed.

Lemma eq_in_rmapM (A : eqType) B (f g : A -> res B) s :
  {in s, f =1 g} -> rmapM f s = rmapM g s.
Proof.
elim: s => //= a s IH H; rewrite H ?mem_head // IH // => x xs; apply: H.
by rewrite inE xs orbT.
Qed.

Lemma eq_in_rfoldM (A : eqType) S (f g : S -> A -> res S) st s :
  (forall st a, a \in s -> f st a = g st a) -> rfoldM f st s = rfoldM g st s.
Proof.
elim: s st => //= a s IH st H; rewrite H ?mem_head //; case: (g st a) => //= st'.
by apply: IH => st'' x xs; apply: H; rewrite inE xs orbT.
Qed.

Lemma rmapM_cat A B (f : A -> res B) s t :
  rmapM f (s ++ t) = rbind (rmapM f s) (fun x => rbind (rmapM f t) (fun y => Ok (x ++ y))).
Proof.
elim: s => [|a s IH] /=; first by case: (rmapM f t).
by case: (f a) => //= b; rewrite IH; case: (rmapM f s) => //= x; case: (rmapM f t).
Qed.

Lemma rmapM_comp A B C (f : B -> res C) (g : A -> B) s :
  rmapM f (map g s) = rmapM (fun a => f (g a)) s.
Proof. by elim: s => //= a s ->. Qed.

Lemma rfoldM_map A B S (f : S -> B -> res S) (g : A -> B) st s :
  rfoldM f st (map g s) = rfoldM (fun st a => f st (g a)) st s.
Proof. by elim: s st => //= a s IH st; case: (f st (g a)) => //= st'; rewrite IH. Qed.

(** Destructs a hypothesis [rbind a f = Ok b]. *)
Ltac rinv H x Hx := move/rbind_ok: H => [x Hx H].

(** ** Successive powers *)
Section Powers.
Variable R : comRingType.
Implicit Types a b : R.
Local Open Scope ring_scope.

Lemma size_powers n b a : size (powers n b a) = n.
Proof. by elim: n b => //= n IH b; rewrite IH. Qed.

Lemma nth_powers n b a i : (i < n)%N -> (powers n b a)`_i = b * a ^+ i.
Proof.
elim: n b i => // n IH b [|i] //=; first by rewrite expr0 mulr1.
by rewrite ltnS => /IH ->; rewrite exprS mulrA.
Qed.

Lemma powersE n b a : powers n b a = [seq b * a ^+ i | i <- iota 0 n].
Proof.
apply: (@eq_from_nth _ 0); first by rewrite size_powers size_map size_iota.
move=> i; rewrite size_powers => ltin.
by rewrite nth_powers // (nth_map 0%N) ?size_iota // nth_iota.
Qed.

Lemma powers_cat n m b a : powers (n + m) b a = powers n b a ++ powers m (b * a ^+ n) a.
Proof.
elim: n b => [|n IH] b /=; first by rewrite expr0 mulr1.
by rewrite IH -mulrA exprS.
Qed.
End Powers.

(** ** chunks *)
Section Chunks.
Variables (A : Type).
Implicit Type s : seq A.

Lemma chunks_fuelE f k s : 0 < k -> size s <= f -> chunks_fuel f k s = chunks k s.
Proof.
rewrite /chunks => k0; move: {2}(size s) (leqnn (size s)) => m.
elim: m f s => [|m IH] f s.
  by case: s => // _ _; case: f.
case: f => [|f]; first by case: s.
case: s => [|x s] //= lesm lesf.
congr (_ :: _).
have Hd : size (drop k (x :: s)) <= size s.
  by rewrite size_drop /=; clear -k0; case: k k0 => // k _; rewrite subSS leq_subr.
rewrite IH //; last by apply: leq_trans Hd _.
  by apply/esym; rewrite IH //; apply: leq_trans Hd _.
by apply: leq_trans Hd _.
Qed.

Lemma chunks_cons k s : 0 < k -> 0 < size s -> chunks k s = take k s :: chunks k (drop k s).
Proof.
case: s => // x s k0 _; rewrite {1}/chunks /=; congr (_ :: _).
apply: chunks_fuelE => //; rewrite size_drop /=.
by case: k k0 => // k _; rewrite subSS leq_subr.
Qed.

Lemma chunks_nil k : chunks k (Nil A) = [::].
Proof. by []. Qed.

Lemma chunks_ind (k : nat) (k0 : 0 < k) (P : seq A -> Prop) :
  P [::] -> (forall s, 0 < size s -> P (drop k s) -> P s) -> forall s, P s.
Proof.
move=> P0 PS s; move: {2}(size s) (leqnn (size s)) => m.
elim: m s => [|m IH] [|x s] // les; apply: PS => //; apply: IH.
rewrite size_drop /=; clear -k0 les; case: k k0 => // k _; rewrite subSS.
by apply: leq_trans (leq_subr _ _) _.
Qed.

Arguments chunks_ind [k] k0 P.

Lemma flatten_chunks k s : 0 < k -> flatten (chunks k s) = s.
Proof.
move=> k0; elim/(chunks_ind k0): s => // s s0 IH.
by rewrite chunks_cons //= IH cat_take_drop.
Qed.

(** Number of chunks: ceil(size / k). *)
Definition cdiv (a b : nat) := (a %/ b) + (a %% b != 0).

Lemma cdiv_step a k : 0 < k -> 0 < a -> cdiv a k = (cdiv (a - k) k).+1.
Proof.
move=> k0 a0; rewrite /cdiv; case: (leqP k a) => leka.
  by rewrite -{1 2}(subnK leka) divnDr // divnn k0 modnDr addn1 addSn.
have -> : a - k = 0 by apply/eqP; rewrite subn_eq0 ltnW.
by rewrite divn_small // modn_small // div0n mod0n eqxx -lt0n a0.
Qed.

Lemma size_chunks k s : 0 < k -> size (chunks k s) = cdiv (size s) k.
Proof.
move=> k0; elim/(chunks_ind k0): s => [|s s0 IH].
  by rewrite /cdiv div0n mod0n.
by rewrite chunks_cons //= IH size_drop -cdiv_step.
Qed.

Lemma nth_chunks k s i : 0 < k -> i < size (chunks k s) ->
  nth [::] (chunks k s) i = take k (drop (i * k) s).
Proof.
move=> k0; elim/(chunks_ind k0): s i => [|s s0 IH] i //.
rewrite chunks_cons //; case: i => [|i] /=; first by rewrite drop0.
by rewrite ltnS => /IH ->; rewrite drop_drop mulSn addnC.
Qed.

Lemma size_chunk_le k s c : 0 < k -> (exists2 i, i < size (chunks k s) & c = nth [::] (chunks k s) i) ->
  size c <= k.
Proof.
move=> k0 [i Hi ->]; rewrite nth_chunks //.
by rewrite size_take; case: ltnP => // /leq_trans ->.
Qed.

Lemma chunks_take_exact k s m : 0 < k -> size s = m * k -> size (chunks k s) = m.
Proof.
move=> k0 ss; rewrite size_chunks // /cdiv ss mulnK // modnMl eqxx addn0.
by [].
Qed.
End Chunks.

Lemma map_chunks A B (f : A -> B) k s : 0 < k -> chunks k (map f s) = map (map f) (chunks k s).
Proof.
move=> k0; elim/(@chunks_ind A _ k0): s => // s s0 IH.
rewrite (chunks_cons k0) ?size_map // -map_take -map_drop IH.
by rewrite [in RHS](chunks_cons k0 s0).
Qed.

(** ** enumerate *)
Lemma size_enumerate A (s : seq A) : size (enumerate s) = size s.
Proof. by rewrite /enumerate size_zip size_iota minnn. Qed.

Lemma nth_enumerate A (s : seq A) i a0 : i < size s -> nth (0, a0) (enumerate s) i = (i, nth a0 s i).
Proof. by move=> Hi; rewrite /enumerate nth_zip ?size_iota // nth_iota. Qed.

Lemma unzip2_enumerate A (s : seq A) : unzip2 (enumerate s) = s.
Proof. by rewrite unzip2_zip // size_iota. Qed.

Lemma unzip1_enumerate A (s : seq A) : unzip1 (enumerate s) = iota 0 (size s).
Proof. by rewrite unzip1_zip // size_iota. Qed.

(** ** Association lists *)
Section Assoc.
Variables (K : eqType) (V : Type).
Implicit Types (m : seq (K * V)) (k : K) (v : V).

Lemma assoc_ains m k v k' : assoc (ains m k v) k' = if k == k' then Some v else assoc m k'.
Proof.
rewrite /ains /=; case: eqP => // /eqP ne.
elim: m => //= -[k1 v1] m IH /=.
case: eqP => /= [->|/eqP ne1]; first by rewrite IH (negPf ne).
by rewrite IH.
Qed.

Lemma assoc_last_cat m1 m2 k :
  assoc_last (m1 ++ m2) k = if assoc_last m2 k is Some v then Some v else assoc_last m1 k.
Proof.
elim: m1 => [|[k1 v1] m1 IH] /=; first by case: (assoc_last m2 k).
by rewrite IH; case: (assoc_last m2 k).
Qed.

Lemma assoc_last_none m k :
  (if assoc_last m k is None then true else false) = (k \notin map fst m).
Proof.
elim: m => [|[k1 v1] m IH] //=; rewrite inE negb_or -{}IH.
case: (assoc_last m k) => [w|] /=; first by rewrite andbF.
by rewrite andbT eq_sym; case: eqP.
Qed.
End Assoc.

(** ** sinsert *)
Lemma mem_sinsert (A : eqType) (lt : rel A) x s y : (y \in sinsert lt x s) = (y == x) || (y \in s).
Proof.
elim: s => [|z s IH] //=.
case: eqP => [->|_]; first by rewrite !inE orbA orbb.
by case: ifP => _; rewrite !inE ?IH // orbCA.
Qed.

Lemma sinsert_neq0 (A : eqType) (lt : rel A) x s : sinsert lt x s <> [::].
Proof. by case: s => //= y s; case: eqP => // _; case: ifP. Qed.

Lemma idx_some A (s : seq A) i : (i < size s)%N -> exists a, idx s i = Ok a.
Proof. by case: s => // a0 s H; exists (nth a0 (a0 :: s) i); apply: idx_nth. Qed.

Lemma idx_upd A (s : seq A) i f j a : idx s j = Ok a ->
  idx (upd s i f) j = Ok (if i == j then f a else a).
Proof.
elim: s i j => [|b s IH] [|i] [|j] //=; first by case=> ->.
by move=> H; rewrite (IH _ _ H) eqSS.
Qed.

(** ** Label lookup *)
Lemma assoc_last_mem (K : eqType) V (s : seq (K * V)) k : k \in map fst s -> exists v, assoc_last s k = Some v.
Proof.
by move=> H; have := assoc_last_none s k; rewrite H; case: (assoc_last s k) => // v _; exists v.
Qed.

Lemma assoc_last_index (K : eqType) V (s : seq (K * V)) k v : assoc_last s k = Some v ->
  exists2 i, i < size s & forall p, nth p s i = (k, v).
Proof.
elim: s => [|[a b] s IH] //=; case E: (assoc_last s k) => [w|].
  by case=> vw; rewrite vw in E; have [i Hi H] := IH E; exists i.+1.
by case: eqP => // <- [<-]; exists 0.
Qed.
