(** Model of expressions, queries, rotations, oracles' public interface and virtual oracles:
    src/vo/, src/oracles/rotation.rs, src/oracles/query.rs. Definitions only. *)
From mathcomp Require Import all_ssreflect all_algebra.
From Coq Require Import String.
From Verif Require Import Base ModelPoly.

Set Implicit Arguments.
Unset Strict Implicit.
Unset Printing Implicit Defensive.

Import GRing.Theory.
Local Open Scope ring_scope.

(** src/oracles/rotation.rs:4-15. [Sign::Plus] is [false], [Sign::Minus] is [true]. *)
Definition rotation := (nat * bool)%type.
(** src/oracles/rotation.rs:4-8 *)
Definition Plus := false.
(** src/oracles/rotation.rs:4-8 *)
Definition Minus := true.
(** src/oracles/rotation.rs:23-28 *)
Definition curr : rotation := (0%N, Plus).
(** src/oracles/rotation.rs:30-35 *)
Definition next : rotation := (1%N, Plus).
(** src/oracles/rotation.rs:37-42 *)
Definition prev : rotation := (1%N, Minus).

(** Derived [Ord] of Rotation (rotation.rs:11): degree first, then Plus < Minus. *)
Definition rot_lt (a b : rotation) : bool :=
  (a.1 < b.1)%N || ((a.1 == b.1) && (~~ a.2 && b.2)).

(** src/oracles/query.rs:4-10. *)
Inductive oracle_type := Witness | Instance | Fixed.
(** Derived [PartialEq] of OracleType (no code; decidable equality for the model), src/oracles/query.rs:4-10. *)
Definition oracle_type_eq (a b : oracle_type) : bool :=
  match a, b with
  | Witness, Witness | Instance, Instance | Fixed, Fixed => true
  | _, _ => false
  end.
Lemma oracle_type_eqP : Equality.axiom oracle_type_eq.
Proof. by do 2!case; constructor. Qed.
Canonical oracle_type_eqMixin := EqMixin oracle_type_eqP.
Canonical oracle_type_eqType := Eval hnf in EqType oracle_type oracle_type_eqMixin.

(** src/oracles/query.rs:22-27 *)
Record oquery := OQuery { oq_label : label; oq_rot : rotation; oq_type : oracle_type }.
(** src/vo/query.rs:6-10 *)
Record vquery := VQuery { vq_index : nat; vq_rot : rotation; vq_type : oracle_type }.

(** src/vo/expression.rs:7-14 and src/vo/virtual_expression.rs:10-17. The two Rust enums
    differ only in the type of the leaf, which is the parameter [Q]. *)
Inductive expr (F Q : Type) : Type :=
| Const of F
| Orc of Q
| Neg of expr F Q
| Sum of expr F Q & expr F Q
| Prod of expr F Q & expr F Q
| Scaled of expr F Q & F.
Arguments Const {F Q}. Arguments Orc {F Q}. Arguments Neg {F Q}.
Arguments Sum {F Q}. Arguments Prod {F Q}. Arguments Scaled {F Q}.

(** Operator overloads: src/vo/expression.rs:116-155, src/vo/virtual_expression.rs:97-136. *)
Definition eneg {F Q} (a : expr F Q) := Neg a.
(** src/vo/expression.rs:123-128 *)
Definition eadd {F Q} (a b : expr F Q) := Sum a b.
(** src/vo/expression.rs:130-135 *)
Definition esub {F Q} (a b : expr F Q) := Sum a (Neg b).
(** src/vo/expression.rs:137-142 *)
Definition emul {F Q} (a b : expr F Q) := Prod a b.
(** src/vo/expression.rs:144-149 *)
Definition escale {F Q} (a : expr F Q) (c : F) := Scaled a c.

Section Expr.
Variables (F Q : Type).

(** src/vo/expression.rs:17-34. The closure returns a [Result]; [?] returns the first
    error, and the right operand is not evaluated after a left error. *)
Fixpoint edegree (e : expr F Q) (oracle_fn : Q -> res nat) : res nat :=
  match e with
  | Const _ => Ok 0%N
  | Orc q => oracle_fn q
  | Neg a => edegree a oracle_fn
  | Sum a b => da <- edegree a oracle_fn ;; db <- edegree b oracle_fn ;; Ok (maxn da db)
  | Prod a b => da <- edegree a oracle_fn ;; db <- edegree b oracle_fn ;; Ok (da + db)%N
  | Scaled a _ => edegree a oracle_fn
  end.

(** src/vo/expression.rs:40-113 *)
Fixpoint evaluate (T : Type) (e : expr F Q) (constant_fn : F -> T) (oracle_fn : Q -> T)
    (negated_fn : T -> T) (sum_fn product_fn : T -> T -> T) (scaled_fn : T -> F -> T) : T :=
  let ev a := evaluate a constant_fn oracle_fn negated_fn sum_fn product_fn scaled_fn in
  match e with
  | Const c => constant_fn c
  | Orc q => oracle_fn q
  | Neg a => negated_fn (ev a)
  | Sum a b => sum_fn (ev a) (ev b)
  | Prod a b => product_fn (ev a) (ev b)
  | Scaled a c => scaled_fn (ev a) c
  end.
End Expr.

Section VO.
Variable F : fieldType.

(** The six closures every caller of [evaluate] in the crate passes when the leaves return
    [Result<F, _>] (src/piop/prover.rs, src/lookup/mod.rs, src/turbo_plonk.rs:1140-1184). *)
Definition eval_res (Q : Type) (e : expr F Q) (leaf : Q -> res F) : res F :=
  evaluate e (fun c => Ok c) leaf (rmap (@GRing.opp F))
    (rlift2 +%R) (rlift2 *%R) (fun x c => rmap (fun v => v * c) x).

(** An oracle seen through [ConcreteOracle] (src/oracles/traits.rs:14-25): a label, the set
    of queried rotations, and data [P] specific to the kind of oracle. The BTreeSet of
    rotations is a sorted duplicate-free list. *)
Record oracle (P : Type) := Oracle {
  o_label : label;
  o_rots : seq rotation;
  o_data : P }.

(** [register_rotation], identical for all kinds of oracle
    (src/oracles/witness.rs:56-58, 161-163, fixed.rs:86-88, 203-205, instance.rs:45-47, 116-118). *)
Definition register_rotation {P} (r : rotation) (o : oracle P) : oracle P :=
  Oracle (o_label o) (sinsert rot_lt r (o_rots o)) (o_data o).

(** [oracles[i].register_rotation(r)], the label is returned for the OracleQuery: src/vo/generic_vo.rs:36-68. *)
Definition reg_at {P} (os : seq (oracle P)) (i : nat) (r : rotation)
  : res (label * seq (oracle P)) :=
  o <- idx os i ;; Ok (o_label o, upd os i (register_rotation r)).

Section Configure.
Variables (PW PI PF PT : Type).

(** src/vo/virtual_expression.rs:20-94 *)
Fixpoint to_expression (e : expr F vquery)
    (w : seq (oracle PW)) (i : seq (oracle PI)) (f : seq (oracle PF)) : res (expr F oquery) :=
  match e with
  | Const c => Ok (Const c)
  | Orc q =>
      l <- match vq_type q with
           | Witness => rmap (@o_label _) (idx w (vq_index q))
           | Instance => rmap (@o_label _) (idx i (vq_index q))
           | Fixed => rmap (@o_label _) (idx f (vq_index q))
           end ;;
      Ok (Orc (OQuery l (vq_rot q) (vq_type q)))
  | Neg a => a' <- to_expression a w i f ;; Ok (Neg a')
  | Sum a b => a' <- to_expression a w i f ;; b' <- to_expression b w i f ;; Ok (Sum a' b')
  | Prod a b => a' <- to_expression a w i f ;; b' <- to_expression b w i f ;; Ok (Prod a' b')
  | Scaled a c => a' <- to_expression a w i f ;; Ok (Scaled a' c)
  end.

(** src/vo/generic_vo.rs:11-17 *)
Record generic_vo := GenericVO {
  gv_virtual_exp : expr F vquery;
  gv_virtual_queries : seq vquery;
  gv_queries : option (seq oquery);
  gv_expression : option (expr F oquery) }.

(** src/vo/generic_vo.rs:20-27 *)
Definition gv_init (cfg : expr F vquery * seq vquery) : generic_vo :=
  GenericVO cfg.1 cfg.2 None None.

(** The three slices passed to [configure], src/vo/generic_vo.rs:29-35. *)
Definition oracles3 := (seq (oracle PW) * seq (oracle PI) * seq (oracle PF))%type.

(** One iteration of the loop at src/vo/generic_vo.rs:36-68. *)
Definition configure_query (q : vquery) (st : oracles3) : res (oquery * oracles3) :=
  let: (w, i, f) := st in
  match vq_type q with
  | Witness => '(l, w') <- reg_at w (vq_index q) (vq_rot q) ;;
               Ok (OQuery l (vq_rot q) Witness, (w', i, f))
  | Instance => '(l, i') <- reg_at i (vq_index q) (vq_rot q) ;;
                Ok (OQuery l (vq_rot q) Instance, (w, i', f))
  | Fixed => '(l, f') <- reg_at f (vq_index q) (vq_rot q) ;;
             Ok (OQuery l (vq_rot q) Fixed, (w, i, f'))
  end.

(** The loop at src/vo/generic_vo.rs:36-68 (also generic_lookup_vo.rs:45-60, which does not
    keep the resolved queries). *)
Fixpoint configure_queries (qs : seq vquery) (st : oracles3) : res (seq oquery * oracles3) :=
  match qs with
  | [::] => Ok ([::], st)
  | q :: qs' =>
      '(oq, st1) <- configure_query q st ;;
      '(oqs, st2) <- configure_queries qs' st1 ;;
      Ok (oq :: oqs, st2)
  end.

(** src/vo/generic_vo.rs:29-76. The [&mut] arguments are returned. *)
Definition gv_configure (vo : generic_vo) (st : oracles3) : res (generic_vo * oracles3) :=
  '(queries, st') <- configure_queries (gv_virtual_queries vo) st ;;
  let: (w, i, f) := st' in
  e <- to_expression (gv_virtual_exp vo) w i f ;;
  Ok (GenericVO (gv_virtual_exp vo) (gv_virtual_queries vo) (Some queries) (Some e), st').

(** src/vo/generic_lookup_vo.rs:13-19 *)
Record generic_lookup_vo := GenericLookupVO {
  gl_virtual_expressions : seq (expr F vquery);
  gl_virtual_queries : seq vquery;
  gl_virtual_table_queries : seq vquery;
  gl_table_queries : option (seq oquery);
  gl_expressions : option (seq (expr F oquery)) }.

(** src/vo/generic_lookup_vo.rs:22-36 *)
Definition gl_init (cfg : seq (expr F vquery) * seq vquery * seq vquery) : generic_lookup_vo :=
  GenericLookupVO cfg.1.1 cfg.1.2 cfg.2 None None.

(** The loop at src/vo/generic_lookup_vo.rs:64-88. *)
Fixpoint configure_table (qs : seq vquery) (t : seq (oracle PT))
  : res (seq oquery * seq (oracle PT)) :=
  match qs with
  | [::] => Ok ([::], t)
  | q :: qs' =>
      match vq_type q with
      | Witness => Err (WitnessTableNotAllowed
                          ("VirtualQuery index: " ++ show_nat (vq_index q))%string)
      | Instance => Err (InstanceTableNotAllowed
                          ("VirtualQuery index: " ++ show_nat (vq_index q))%string)
      | Fixed =>
          '(l, t1) <- reg_at t (vq_index q) (vq_rot q) ;;
          '(oqs, t2) <- configure_table qs' t1 ;;
          Ok (OQuery l (vq_rot q) Fixed :: oqs, t2)
      end
  end.

(** src/vo/generic_lookup_vo.rs:38-105. On [Err] the Rust code has already registered
    rotations on the oracles; the model drops the partially updated oracles. *)
Definition gl_configure (vo : generic_lookup_vo) (st : oracles3) (t : seq (oracle PT))
  : res (generic_lookup_vo * oracles3 * seq (oracle PT)) :=
  '(_, st') <- configure_queries (gl_virtual_queries vo) st ;;
  '(tqs, t') <- configure_table (gl_virtual_table_queries vo) t ;;
  let: (w, i, f) := st' in
  es <- rmapM (fun e => to_expression e w i f) (gl_virtual_expressions vo) ;;
  Ok (GenericLookupVO (gl_virtual_expressions vo) (gl_virtual_queries vo)
        (gl_virtual_table_queries vo) (Some tqs) (Some es), st', t').

End Configure.

(** src/vo/generic_vo.rs:80-85 *)
Definition gv_get_expression (vo : generic_vo) : res (expr F oquery) :=
  opt_or (gv_expression vo) UninitializedExpr.
(** src/vo/generic_lookup_vo.rs:109-121 *)
Definition gl_get_expressions (vo : generic_lookup_vo) : res (seq (expr F oquery)) :=
  opt_or (gl_expressions vo) UninitializedLookupExpr.
(** src/vo/generic_lookup_vo.rs:116-121 *)
Definition gl_get_table_queries (vo : generic_lookup_vo) : res (seq oquery) :=
  opt_or (gl_table_queries vo) UninitializedLookupTableQuery.

(** src/oracles/rotation.rs:44-59 *)
Definition compute_evaluation_point (r : rotation) (x : F) (omegas : seq F) : res F :=
  if r.1 == 0%N then Ok x
  else
    o <- idx omegas r.1 ;;
    o' <- (if r.2 then finv o else Ok o) ;;
    Ok (x * o').

(** src/oracles/rotation.rs:61-92 *)
Definition get_point_info (r : rotation) (l : label) (x : F) (omegas : seq F)
  : res (label * F) :=
  if r.1 == 0%N then Ok (l, x)
  else
    o <- idx omegas r.1 ;;
    '(o', pl) <- (if r.2
                  then rmap (fun v => (v, ("omega_-" ++ show_nat r.1 ++ "_" ++ l)%string)) (finv o)
                  else Ok (o, ("omega_" ++ show_nat r.1 ++ "_" ++ l)%string)) ;;
    Ok (pl, o' * x).

End VO.
