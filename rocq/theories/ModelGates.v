(** Model of the precompiled virtual oracles: src/vo/precompiled/ and
    src/vo/precompiled_lookups/. Each definition is the pair returned by
    [get_expr_and_queries]. Definitions only. *)
From mathcomp Require Import all_ssreflect all_algebra.
From Verif Require Import Base ModelPoly ModelVO.

Set Implicit Arguments.
Unset Strict Implicit.
Unset Printing Implicit Defensive.

Import GRing.Theory.
Local Open Scope ring_scope.

Declare Scope vexpr_scope.
Delimit Scope vexpr_scope with ve.
Notation "a + b" := (eadd a b) : vexpr_scope.
Notation "a - b" := (esub a b) : vexpr_scope.
Notation "a * b" := (emul a b) : vexpr_scope.

Section Gates.
Variable F : fieldType.
(** src/vo/virtual_expression.rs:10-17 *)
Notation vexpr := (expr F vquery).

(** [VirtualQuery::new(i, rotation, OracleType)] and [.into()], src/vo/query.rs:6-24, src/vo/virtual_expression.rs:10-17. *)
Definition wq (i : nat) (r : rotation) := VQuery i r Witness.
(** An instance query, src/vo/query.rs:6-24. *)
Definition iq (i : nat) (r : rotation) := VQuery i r Instance.
(** A fixed query, src/vo/query.rs:6-24. *)
Definition fq (i : nat) (r : rotation) := VQuery i r Fixed.
(** [VirtualExpression::Oracle(query)], src/vo/virtual_expression.rs:10-17. *)
Definition o (q : vquery) : vexpr := Orc q.
(** [VirtualExpression::Constant(F::from(n))], src/vo/virtual_expression.rs:10-12. *)
Definition cst (n : nat) : vexpr := Const n%:R.

(** src/vo/precompiled/mul.rs:8-26 *)
Definition gate_mul : vexpr * seq vquery :=
  let q1 := wq 0 curr in let q2 := wq 1 curr in let q3 := iq 0 curr in
  ((o q1 * o q2 - o q3)%ve, [:: q1; q2; q3]).

(** src/vo/precompiled/plonk_arith.rs:13-48 *)
Definition gate_plonk_arith : vexpr * seq vquery :=
  let qm := fq 0 curr in let ql := fq 1 curr in let qr := fq 2 curr in
  let qo := fq 3 curr in let qc := fq 4 curr in
  let pi := iq 0 curr in
  let a := wq 0 curr in let b := wq 1 curr in let c := wq 2 curr in
  ((o a * o b * o qm + o a * o ql + o b * o qr + o c * o qo + o qc + o pi)%ve,
   [:: qm; ql; qr; qo; qc; pi; a; b; c]).

(** src/vo/precompiled/plonk_arith.rs:52-99. The fourth wire [d] is witness index 2 (line 71),
    exactly as in the code. *)
Definition gate_plonk_arith4 : vexpr * seq vquery :=
  let qm := fq 0 curr in let ql := fq 1 curr in let qr := fq 2 curr in
  let q4 := fq 3 curr in let qo := fq 4 curr in let qc := fq 5 curr in
  let pi := iq 0 curr in
  let a := wq 0 curr in let b := wq 1 curr in let c := wq 2 curr in
  let d := wq 2 curr in
  ((o a * o b * o qm + o a * o ql + o b * o qr + o d * o q4 + o c * o qo + o pi + o qc)%ve,
   [:: qm; ql; qr; q4; qo; qc; pi; a; b; c]).

(** src/vo/precompiled/rescue.rs:17-50 *)
Definition gate_rescue : vexpr * seq vquery :=
  let q i := fq i curr in let w i := wq i curr in
  let pow_5 (e : vexpr) := (e * e * e * e * e)%ve in
  ((o (q 0%N) * pow_5 (o (w 0%N)) + o (q 1%N) * pow_5 (o (w 1%N)) + o (q 2%N) * pow_5 (o (w 2%N))
    + o (q 3%N) * pow_5 (o (w 3%N)) - o (w 4%N))%ve,
   [seq q i | i <- iota 0 4] ++ [seq w i | i <- iota 0 5]).

(** src/vo/precompiled/logic.rs:19-56 *)
Definition gate_delta : vexpr * seq vquery :=
  let a := wq 0 curr in let a_next := wq 0 next in let q_last := fq 0 curr in
  let q_not_last := (cst 1 - o q_last)%ve in
  let delta (e : vexpr) := ((e - cst 3) * (e - cst 2) * (e - cst 1) * e)%ve in
  ((q_not_last * delta (o a_next - cst 4 * o a))%ve, [:: q_last; a; a_next]).

(** src/vo/precompiled/logic.rs:74-131 *)
Definition gate_delta_xor_and : vexpr * seq vquery :=
  let a := wq 0 curr in let b := wq 1 curr in let c := wq 2 curr in let d := wq 3 curr in
  let qc := fq 0 curr in
  let f := (o c * (o c * (cst 4 * o c - cst 18 * (o a + o b) + cst 81)
            + cst 18 * (o a * o a + o b * o b) - cst 81 * (o a + o b) + cst 83))%ve in
  let e := (cst 3 * (o a + o b + o d) - cst 2 * f)%ve in
  let h := (o qc * (cst 9 * o d - cst 3 * (o a + o b)))%ve in
  ((h + e)%ve, [:: a; b; c; d; qc]).

(** src/vo/precompiled_lookups/simple_1_arith.rs:16-35, simple_3_arith.rs:16-41:
    (expressions, queries, table queries). *)
Definition lookup_simple1 : seq vexpr * seq vquery * seq vquery :=
  let a := wq 0 curr in ([:: o a], [:: a], [:: fq 0 curr]).
(** src/vo/precompiled_lookups/simple_3_arith.rs:16-41 *)
Definition lookup_simple3 : seq vexpr * seq vquery * seq vquery :=
  let a := wq 0 curr in let b := wq 1 curr in let c := wq 2 curr in
  ([:: o a; o b; o c], [:: a; b; c], [:: fq 0 curr; fq 1 curr; fq 2 curr]).

End Gates.
