(** Proofs about the precompiled virtual oracles (C05-C11). *)
From mathcomp Require Import all_ssreflect all_algebra zify.
From Verif Require Import Base ModelPoly ModelVO ModelGates Spec ProofBase ProofPoly ProofVO.

Set Implicit Arguments.
Unset Strict Implicit.
Unset Printing Implicit Defensive.

Import GRing.Theory.
Local Open Scope ring_scope.

Section Gates.
Variable F : fieldType.
Add Field Ffield : (F_field_theory F).
Implicit Type v : row_values F.

Lemma gate_mulE v : vmeaning v (gate_mul F).1 = 0 <->
  v Witness 0%N curr * v Witness 1%N curr = v Instance 0%N curr.
Proof. by rewrite /vmeaning /=; split=> [/eqP|->]; rewrite ?subrr // subr_eq0 => /eqP. Qed.

Lemma gate_plonk_arithE v :
  vmeaning v (gate_plonk_arith F).1 =
    v Fixed 1%N curr * v Witness 0%N curr + v Fixed 2%N curr * v Witness 1%N curr
    + v Fixed 0%N curr * (v Witness 0%N curr * v Witness 1%N curr)
    + v Fixed 3%N curr * v Witness 2%N curr + v Fixed 4%N curr + v Instance 0%N curr.
Proof. by rewrite /vmeaning /=; f_conv F; ring. Qed.

Lemma gate_plonk_arith4E v :
  vmeaning v (gate_plonk_arith4 F).1 =
    v Fixed 1%N curr * v Witness 0%N curr + v Fixed 2%N curr * v Witness 1%N curr
    + v Fixed 0%N curr * (v Witness 0%N curr * v Witness 1%N curr)
    + (v Fixed 3%N curr + v Fixed 4%N curr) * v Witness 2%N curr
    + v Fixed 5%N curr + v Instance 0%N curr.
Proof. by rewrite /vmeaning /=; f_conv F; ring. Qed.

Lemma gate_rescueE v :
  vmeaning v (gate_rescue F).1 =
    \sum_(i < 4) v Fixed i curr * v Witness i curr ^+ 5 - v Witness 4%N curr.
Proof.
rewrite !big_ord_recl big_ord0 /= -![bump 0 0]/1%N -![bump 0 1]/2%N -![bump 0 2]/3%N /vmeaning /=.
by f_conv F; ring.
Qed.

Lemma gate_deltaE v :
  vmeaning v (gate_delta F).1 =
    (1 - v Fixed 0%N curr) * \prod_(k < 4) (v Witness 0%N next - 4%N%:R * v Witness 0%N curr - k%:R).
Proof.
rewrite !big_ord_recl big_ord0 /= -![bump 0 0]/1%N -![bump 0 1]/2%N -![bump 0 2]/3%N /vmeaning /=.
set d := _ - 4%N%:R * _; rewrite subr0 mulr1.
by f_conv F; ring.
Qed.

Lemma delta_digit v : v Fixed 0%N curr = 0 ->
  vmeaning v (gate_delta F).1 = 0 <->
  exists2 k, (k < 4)%N & v Witness 0%N next = 4%N%:R * v Witness 0%N curr + k%:R.
Proof.
rewrite gate_deltaE => ->; rewrite subr0 mul1r; split.
  move/eqP; rewrite prodf_seq_eq0 => /hasP[k _ /=].
  rewrite subr_eq0 subr_eq addrC => /eqP e; exists (nat_of_ord k) => //.
case=> k Hk ->; rewrite (bigD1 (Ordinal Hk)) //=.
by rewrite [X in X * _](_ : _ = 0) ?mul0r //; f_conv F; ring.
Qed.

(** Accumulation over rows. *)
Lemma delta_accumulates n (cols : columns F) :
  (forall i, (i < n)%N -> vmeaning (at_row n cols i) (gate_delta F).1 = 0) ->
  forall s m, (s + m < n)%N ->
  (forall i, (s <= i < s + m)%N -> cols Fixed 0%N i = 0) ->
  exists2 k, (k < 4 ^ m)%N &
    cols Witness 0%N (s + m)%N = (4 ^ m)%N%:R * cols Witness 0%N s + k%:R.
Proof.
move=> H s; elim=> [|m IH] Hsm Hq.
  by exists 0%N => //; rewrite expn0 mul1r addr0 addn0.
have [||k Hk Ek] := IH.
- by lia.
- by move=> i Hi; apply: Hq; lia.
have Hm : (s + m < n)%N by lia.
have q0 : at_row n cols (s + m)%N Fixed 0%N curr = 0.
  by rewrite /at_row /rot_row /= addn0 modn_small //; apply: Hq; lia.
have := proj1 (delta_digit q0) (H _ Hm).
rewrite /at_row /rot_row /= addn0 addn1 -addnS !modn_small //.
case=> d Hd ->; exists (4 * k + d)%N; first by rewrite expnS; lia.
by rewrite Ek expnS natrD !natrM mulrDr mulrA addrA.
Qed.

(** The polynomial f(a, b, ab) of the logic gate equals 6 (a AND b) on 2-bit values. *)
Definition logic_f (R : comRingType) (a b c : R) : R :=
  c * (c * (4%N%:R * c - 18%N%:R * (a + b) + 81%N%:R)
       + 18%N%:R * (a * a + b * b) - 81%N%:R * (a + b) + 83%N%:R).

Lemma logic_f_morph (a b : nat) :
  logic_f a%:R b%:R (a * b)%N%:R = (logic_f a%:R b%:R (a * b)%N%:R : int)%:~R :> F.
Proof.
by rewrite /logic_f !(rmorphD, rmorphM, rmorphB, rmorphN) /= !rmorph_nat.
Qed.

Lemma logic_f_and (a b : nat) : (a < 4)%N -> (b < 4)%N ->
  logic_f a%:R b%:R (a * b)%N%:R = (6 * Nat.land a b)%N%:R :> F.
Proof.
move=> Ha Hb; rewrite logic_f_morph.
have -> : logic_f a%:R b%:R (a * b)%N%:R = (6 * Nat.land a b)%N%:R :> int.
  by case: a Ha => [|[|[|[|a]]]] //; case: b Hb => [|[|[|[|b]]]].
by rewrite rmorph_nat.
Qed.

Lemma gate_logicE v :
  vmeaning v (gate_delta_xor_and F).1 =
    v Fixed 0%N curr * (9%N%:R * v Witness 3%N curr - 3%N%:R * (v Witness 0%N curr + v Witness 1%N curr))
    + (3%N%:R * (v Witness 0%N curr + v Witness 1%N curr + v Witness 3%N curr)
       - 2%N%:R * logic_f (v Witness 0%N curr) (v Witness 1%N curr) (v Witness 2%N curr)).
Proof. by []. Qed.

Lemma natE (n m : nat) : (n + m)%N%:R = n%:R + m%:R :> F. Proof. exact: natrD. Qed.

Lemma gate_and v a b : 12%N%:R != 0 :> F -> (a < 4)%N -> (b < 4)%N ->
  v Witness 0%N curr = a%:R -> v Witness 1%N curr = b%:R -> v Witness 2%N curr = (a * b)%N%:R ->
  v Fixed 0%N curr = 1 ->
  vmeaning v (gate_delta_xor_and F).1 = 0 <-> v Witness 3%N curr = (Nat.land a b)%:R.
Proof.
move=> c12 Ha Hb Ea Eb Ec Eq; rewrite gate_logicE Ea Eb Ec Eq logic_f_and //.
set d := v Witness 3%N curr.
have -> : 1 * (9%N%:R * d - 3%N%:R * (a%:R + b%:R)) + (3%N%:R * (a%:R + b%:R + d) - 2%N%:R * (6 * Nat.land a b)%N%:R)
  = 12%N%:R * (d - (Nat.land a b)%:R).
  rewrite natrM; have E6 : 6%N%:R = 3%N%:R + 3%N%:R :> F by rewrite -natrD.
  have E9 : 9%N%:R = 6%N%:R + 3%N%:R :> F by rewrite -natrD.
  have E12 : 12%N%:R = 9%N%:R + 3%N%:R :> F by rewrite -natrD.
  by rewrite E12 E9 E6; f_conv F; ring.
split=> [/eqP|->]; last by rewrite subrr mulr0.
by rewrite mulf_eq0 (negPf c12) /= subr_eq0 => /eqP.
Qed.

Lemma gate_xor v a b : 12%N%:R != 0 :> F -> (a < 4)%N -> (b < 4)%N ->
  v Witness 0%N curr = a%:R -> v Witness 1%N curr = b%:R -> v Witness 2%N curr = (a * b)%N%:R ->
  v Fixed 0%N curr = -1 ->
  vmeaning v (gate_delta_xor_and F).1 = 0 <-> v Witness 3%N curr = (Nat.lxor a b)%:R.
Proof.
move=> c12 Ha Hb Ea Eb Ec Eq; rewrite gate_logicE Ea Eb Ec Eq logic_f_and //.
set d := v Witness 3%N curr.
have c6 : 6%N%:R != 0 :> F.
  by apply: contra c12 => /eqP e; rewrite -[12%N]/(6 * 2)%N natrM e mul0r.
have Hx : (a + b)%N%:R = (Nat.lxor a b)%:R + (2 * Nat.land a b)%N%:R :> F.
  rewrite -natrD; congr (_%:R).
  by case: a Ha {Ea Ec} => [|[|[|[|a]]]] //; case: b Hb {Eb} => [|[|[|[|b]]]].
have -> : -1 * (9%N%:R * d - 3%N%:R * (a%:R + b%:R)) + (3%N%:R * (a%:R + b%:R + d) - 2%N%:R * (6 * Nat.land a b)%N%:R)
  = 6%N%:R * ((a%:R + b%:R - (2 * Nat.land a b)%N%:R) - d).
  rewrite !natrM; have E6 : 6%N%:R = 3%N%:R + 3%N%:R :> F by rewrite -natrD.
  have E9 : 9%N%:R = 6%N%:R + 3%N%:R :> F by rewrite -natrD.
  by rewrite E9 E6; f_conv F; ring.
rewrite -natrD Hx addrK; split=> [/eqP|->]; last by rewrite subrr mulr0.
by rewrite mulf_eq0 (negPf c6) /= subr_eq0 => /eqP.
Qed.

(** Every precompiled gate declares the queries its expression uses. *)
Definition declares (e : expr F vquery) (qs : seq vquery) : Prop :=
  forall q, occurs q (leaves e) -> occurs q qs.


Lemma mul_declares : declares (gate_mul F).1 (gate_mul F).2. Proof. by move=> q /=; tauto. Qed.
Lemma plonk_declares : declares (gate_plonk_arith F).1 (gate_plonk_arith F).2.
Proof. by move=> q /=; tauto. Qed.
Lemma plonk4_declares : declares (gate_plonk_arith4 F).1 (gate_plonk_arith4 F).2.
Proof. by move=> q /=; tauto. Qed.
Lemma rescue_declares : declares (gate_rescue F).1 (gate_rescue F).2.
Proof. by move=> q /=; tauto. Qed.
Lemma delta_declares : declares (gate_delta F).1 (gate_delta F).2.
Proof. by move=> q /=; tauto. Qed.
Lemma logic_declares : declares (gate_delta_xor_and F).1 (gate_delta_xor_and F).2.
Proof. by move=> q /=; tauto. Qed.
End Gates.

Lemma declared_registered (F : fieldType) (PW PI PF : Type) (cfg : expr F vquery * seq vquery)
   (w w' : seq (oracle PW)) (i i' : seq (oracle PI)) (f f' : seq (oracle PF)) vo' :
  declares cfg.1 cfg.2 -> gv_configure (gv_init cfg) (w, i, f) = Ok (vo', (w', i', f')) ->
  forall q, occurs q (leaves cfg.1) ->
  match vq_type q with
  | Witness => exists2 o, idx w' (vq_index q) = Ok o & vq_rot q \in o_rots o
  | Instance => exists2 o, idx i' (vq_index q) = Ok o & vq_rot q \in o_rots o
  | Fixed => exists2 o, idx f' (vq_index q) = Ok o & vq_rot q \in o_rots o
  end.
Proof.
move=> D H q Hq; have [[sw Hw] [si Hi] [sf Hf] _] := gv_configure_spec H.
have Hr : all_in_range w i f (gv_init cfg) by apply/gv_configure_iff; eexists; eexists; exact: H.
have := Hr q (or_intror Hq); have := D _ Hq; rewrite /in_range.
case: q {Hq} => j r [] /= Dq lt.
- have [o Ho] := idx_some lt.
  by have [o' [H1 _ _ H2]] := Hw _ _ Ho; exists o' => //; apply/H2; right.
- have [o Ho] := idx_some lt.
  by have [o' [H1 _ _ H2]] := Hi _ _ Ho; exists o' => //; apply/H2; right.
- have [o Ho] := idx_some lt.
  by have [o' [H1 _ _ H2]] := Hf _ _ Ho; exists o' => //; apply/H2; right.
Qed.

Section Assembled.
Variable F : fieldType.
Add Field Ffield2 : (F_field_theory F).
Implicit Type v : row_values F.

Lemma all_gates_declare (cfg : expr F vquery * seq vquery) :
  occurs cfg [:: gate_mul F; gate_plonk_arith F; gate_plonk_arith4 F; gate_rescue F; gate_delta F; gate_delta_xor_and F] ->
  declares cfg.1 cfg.2.
Proof.
case=> [->|[->|[->|[->|[->|[->|[]]]]]]].
- exact: mul_declares. - exact: plonk_declares. - exact: plonk4_declares.
- exact: rescue_declares. - exact: delta_declares. - exact: logic_declares.
Qed.

Lemma lookups_declare (cfg : seq (expr F vquery) * seq vquery * seq vquery) :
  occurs cfg [:: lookup_simple1 F; lookup_simple3 F] ->
  (forall e q, occurs e cfg.1.1 -> occurs q (leaves e) -> occurs q cfg.1.2) /\
  (forall q, occurs q cfg.2 -> vq_type q = Fixed) /\ size cfg.1.1 = size cfg.2.
Proof.
case=> [->|[->|[]]] /=; (split; [|split=> // q; tauto || (by repeat (case=> [->|])) ]).
- by move=> e q [->|[]] /=.
- by move=> e q [->|[->|[->|[]]]] /=; tauto.
Qed.

Lemma plonk_zero v :
  let: (a, b, c) := (v Witness 0%N curr, v Witness 1%N curr, v Witness 2%N curr) in
  let: (qm, ql, qr, qo, qc) :=
    (v Fixed 0%N curr, v Fixed 1%N curr, v Fixed 2%N curr, v Fixed 3%N curr, v Fixed 4%N curr) in
  vmeaning v (gate_plonk_arith F).1 = 0 <->
  ql * a + qr * b + qm * (a * b) + qo * c + qc + v Instance 0%N curr = 0.
Proof. by rewrite gate_plonk_arithE. Qed.

Lemma plonk4_value v :
  let: (a, b, c) := (v Witness 0%N curr, v Witness 1%N curr, v Witness 2%N curr) in
  let: (qm, ql, qr, q4, qo, qc) :=
    (v Fixed 0%N curr, v Fixed 1%N curr, v Fixed 2%N curr, v Fixed 3%N curr, v Fixed 4%N curr, v Fixed 5%N curr) in
  vmeaning v (gate_plonk_arith4 F).1
  = ql * a + qr * b + qm * (a * b) + qo * c + q4 * c + qc + v Instance 0%N curr.
Proof. by rewrite gate_plonk_arith4E; f_conv F; ring. Qed.

Lemma plonk4_independent v v' :
  (forall t j r, ~ (t = Witness /\ j = 3%N) -> v t j r = v' t j r) ->
  vmeaning v (gate_plonk_arith4 F).1 = vmeaning v' (gate_plonk_arith4 F).1.
Proof. by move=> H; rewrite !gate_plonk_arith4E !H //; case. Qed.

Lemma rescue_zero v :
  vmeaning v (gate_rescue F).1 = 0 <->
  v Witness 4%N curr = \sum_(i < 4) v Fixed i curr * v Witness i curr ^+ 5.
Proof.
by rewrite gate_rescueE; split=> [/eqP|<-]; rewrite ?subrr // subr_eq0 => /eqP.
Qed.

Lemma delta_row v : v Fixed 0%N curr = 0 ->
  vmeaning v (gate_delta F).1 = 0 <->
  exists2 k, (k < 4)%N & v Witness 0%N next - 4%N%:R * v Witness 0%N curr = k%:R.
Proof.
move=> q0; rewrite delta_digit //; split=> -[k Hk e]; exists k => //; first by rewrite e addrC addKr.
by rewrite -e addrC subrK.
Qed.

Lemma delta_last v : v Fixed 0%N curr = 1 -> vmeaning v (gate_delta F).1 = 0.
Proof. by rewrite gate_deltaE => ->; rewrite subrr mul0r. Qed.
End Assembled.
