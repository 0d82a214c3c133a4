(** Lists related element by element, and facts about indexing and labels. *)
From mathcomp Require Import all_ssreflect all_algebra.
From mathcomp Require Import zify.
From Coq Require Import String Ascii DecimalString DecimalNat Decimal.
From Verif Require Import Base Spec ProofBase.

Set Implicit Arguments.
Unset Strict Implicit.
Unset Printing Implicit Defensive.

Section Each.
Variables (A B D : Type).
Fixpoint each2 (P : A -> B -> Prop) (a : seq A) (b : seq B) : Prop :=
  match a, b with
  | [::], [::] => True
  | x :: a', y :: b' => P x y /\ each2 P a' b'
  | _, _ => False
  end.
Fixpoint each3 (P : A -> B -> D -> Prop) (a : seq A) (b : seq B) (c : seq D) : Prop :=
  match a, b, c with
  | [::], [::], [::] => True
  | x :: a', y :: b', z :: c' => P x y z /\ each3 P a' b' c'
  | _, _, _ => False
  end.
Lemma each2_size P a b : each2 P a b -> size a = size b.
Proof. by elim: a b => [|x a IH] [|y b] //= [_ /IH ->]. Qed.
Lemma each2_idx P a b : each2 P a b -> forall j x y, idx a j = Ok x -> idx b j = Ok y -> P x y.
Proof. by elim: a b => [|x a IH] [|y b] //= [H /IH K] [|j] x' y' /=; [move=> [<-] [<-]|apply: K]. Qed.
Lemma each2_intro (P : A -> B -> Prop) a b : size a = size b ->
  (forall j x y, idx a j = Ok x -> idx b j = Ok y -> P x y) -> each2 P a b.
Proof.
elim: a b => [|x a IH] [|y b] //= [/IH K] H; split; first exact: (H 0%N).
by apply: K => j; exact: (H j.+1).
Qed.
Lemma each2_cat P a b a' b' : each2 P a b -> each2 P a' b' -> each2 P (a ++ a') (b ++ b').
Proof. by elim: a b => [|x a IH] [|y b] //= [H /IH K] /K; split. Qed.
Lemma each2_imp (P Q : A -> B -> Prop) a b : (forall x y, P x y -> Q x y) -> each2 P a b -> each2 Q a b.
Proof. by move=> H; elim: a b => [|x a IH] [|y b] //= [/H ? /IH]. Qed.
Lemma each2_and (P Q : A -> B -> Prop) a b : each2 P a b -> each2 Q a b -> each2 (fun x y => P x y /\ Q x y) a b.
Proof. by elim: a b => [|x a IH] [|y b] //= [p /IH K] [q /K]. Qed.
Lemma each2_filter (P : A -> B -> Prop) (f : pred A) (g : pred B) a b :
  each2 (fun x y => P x y /\ f x = g y) a b -> each2 P (filter f a) (filter g b).
Proof. by elim: a b => [|x a IH] [|y b] //= [[p <-] /IH]; case: (f x). Qed.
Lemma each3_size P a b c : each3 P a b c -> size b = size a /\ size c = size a.
Proof. by elim: a b c => [|x a IH] [|y b] [|z c] //= [_ /IH [-> ->]]. Qed.
Lemma each3_idx P a b c : each3 P a b c -> forall j x y z, idx a j = Ok x -> idx b j = Ok y -> idx c j = Ok z -> P x y z.
Proof.
by elim: a b c => [|x a IH] [|y b] [|z c] //= [H /IH K] [|j] x' y' z' /=; [move=> [<-] [<-] [<-]|apply: K].
Qed.
Lemma each3_intro (P : A -> B -> D -> Prop) a b c : size b = size a -> size c = size a ->
  (forall j x y z, idx a j = Ok x -> idx b j = Ok y -> idx c j = Ok z -> P x y z) -> each3 P a b c.
Proof.
elim: a b c => [|x a IH] [|y b] [|z c] //= [/IH K] [/K {}K] H; split; first exact: (H 0%N).
by apply: K => j; exact: (H j.+1).
Qed.
Lemma each3_cat P a b c a' b' c' : each3 P a b c -> each3 P a' b' c' -> each3 P (a ++ a') (b ++ b') (c ++ c').
Proof. by elim: a b c => [|x a IH] [|y b] [|z c] //= [H /IH K] /K; split. Qed.
Lemma each3_imp (P Q : A -> B -> D -> Prop) a b c : (forall x y z, P x y z -> Q x y z) -> each3 P a b c -> each3 Q a b c.
Proof. by move=> H; elim: a b c => [|x a IH] [|y b] [|z c] //= [/H ? /IH]. Qed.
Lemma each3_occurs P a b c t : each3 P a b c -> occurs t (zip (zip a b) c) -> P t.1.1 t.1.2 t.2.
Proof. by elim: a b c => [|x a IH] [|y b] [|z c] //= [H /IH K] [->|/K]. Qed.
Lemma each3_unzip P a b c : each3 P a b c ->
  [/\ [seq t.1.1 | t <- zip (zip a b) c] = a, [seq t.1.2 | t <- zip (zip a b) c] = b &
      [seq t.2 | t <- zip (zip a b) c] = c].
Proof. by elim: a b c => [|x a IH] [|y b] [|z c] //= [_ /IH [-> -> ->]]. Qed.
End Each.

Lemma map_eq_idx A B T (f : A -> T) (g : B -> T) (a : seq A) (b : seq B) : size a = size b ->
  (forall j x y, idx a j = Ok x -> idx b j = Ok y -> f x = g y) -> map f a = map g b.
Proof.
elim: a b => [|x a IH] [|y b] //= [/IH K] H; rewrite (H 0%N x y) // K // => j; exact: (H j.+1).
Qed.
Lemma eq_idx A (a b : seq A) : size a = size b -> (forall j x y, idx a j = Ok x -> idx b j = Ok y -> x = y) -> a = b.
Proof. by move=> s H; rewrite -[a]map_id -[b]map_id; apply: map_eq_idx. Qed.
Lemma idx_map_inv A B (f : A -> B) s j b : idx (map f s) j = Ok b -> exists2 a, idx s j = Ok a & b = f a.
Proof. by rewrite idx_map; case: (idx s j) => //= a [<-]; exists a. Qed.
Lemma idx_lt A (s : seq A) j a : idx s j = Ok a -> j < size s.
Proof. by move=> H; have [] := idx_ok H. Qed.
Lemma idx_size2 A B (s : seq A) (t : seq B) j a : size s = size t -> idx s j = Ok a -> exists b, idx t j = Ok b.
Proof. by move=> E H; have := idx_lt H; rewrite E => K; exact: idx_some K. Qed.
Lemma idx_enumerate A (s : seq A) j : idx (enumerate s) j = rmap (pair j) (idx s j).
Proof.
suff H k : idx (zip (iota k (size s)) s) j = rmap (pair (k + j)) (idx s j) by rewrite H.
elim: s k j => [|a s IH] k [|j] //=; first by rewrite addn0.
by rewrite IH addSnnS.
Qed.
Lemma occurs_ex_idx A (a : A) s : occurs a s -> exists j, idx s j = Ok a.
Proof. by elim: s => //= b s IH [->|/IH [j E]]; [exists 0%N|exists j.+1]. Qed.
Lemma occurs_cat A (x : A) s t : occurs x (s ++ t) <-> occurs x s \/ occurs x t.
Proof.
elim: s => [|a s IH] /=; first by split; [right|case].
split; first by case=> [->|/IH [H|H]]; [left; left|left; right|right].
by case=> [[->|H]|H]; [left|right; apply/IH; left|right; apply/IH; right].
Qed.
Lemma occurs_map A B (f : A -> B) y s : occurs y (map f s) -> exists2 x, occurs x s & y = f x.
Proof. by elim: s => //= a s IH [->|/IH [x Hx ->]]; [exists a => //; left|exists x => //; right]. Qed.
Lemma occurs_map_in A B (f : A -> B) x s : occurs x s -> occurs (f x) (map f s).
Proof. by elim: s => //= a s IH [->|/IH]; [left|right]. Qed.

Lemma rmapM_total A B (f : A -> res B) s : (forall x, occurs x s -> exists y, f x = Ok y) -> exists ys, rmapM f s = Ok ys.
Proof.
elim: s => [|a s IH] H; first by exists [::].
have [y Ey] := H a (or_introl erefl); have [ys Eys] := IH (fun x Hx => H x (or_intror Hx)).
by exists (y :: ys) => /=; rewrite Ey /= Eys.
Qed.
Lemma rmapM_each A B (f : A -> res B) s ys : rmapM f s = Ok ys -> each2 (fun x y => f x = Ok y) s ys.
Proof.
elim: s ys => [|a s IH] ys /=; first by case=> <-.
by case E: (f a) => [y|//|//] /=; case E2: (rmapM f s) => [t|//|//] /= [<-] /=; split=> //; apply: IH.
Qed.

Lemma chunks_flatten A k (ss : seq (seq A)) : 0 < k -> (forall c, occurs c ss -> size c = k) -> chunks k (flatten ss) = ss.
Proof.
move=> k0; elim: ss => [|c ss IH] H /=; first exact: chunks_nil.
have sc := H c (or_introl erefl).
rewrite chunks_cons ?size_cat ?sc ?(ltn_addr _ k0) // take_cat drop_cat sc ltnn subnn take0 drop0 cats0 IH // => c' Hc; exact: H (or_intror Hc).
Qed.
(** A list of even length is a list of pairs. *)
Lemma pairs_of A (s : seq A) m : size s = (2 * m)%N -> exists2 l : seq (A * A), s = flatten [seq [:: x.1; x.2] | x <- l] & size l = m.
Proof.
elim: m s => [|m IH] s; first by move/size0nil ->; exists [::].
case: s => [|a [|b s]] //=; rewrite ?mulnS // => -[/IH [l -> <-]]; by exists ((a, b) :: l).
Qed.

(** ** Labels *)
Lemma show_nat_inj : injective show_nat.
Proof.
move=> m n; rewrite /show_nat => E.
have nz k : Nat.to_uint k <> Nil.
  by move=> E0; have := f_equal Nat.of_uint E0; rewrite Unsigned.of_to /= => k0; move: E0; rewrite k0.
have := f_equal NilZero.uint_of_string E; rewrite !NilZero.usu // => -[H]; exact: (Unsigned.to_uint_inj _ _ H).
Qed.
Lemma append_inj (s : string) : injective (append s).
Proof. by elim: s => [|c s IH] a b //= [/IH]. Qed.
Lemma uniq_numbered (s : string) (k m : nat) : uniq [seq append s (show_nat i) | i <- iota k m].
Proof. by rewrite map_inj_uniq ?iota_uniq // => a b /append_inj /show_nat_inj. Qed.
