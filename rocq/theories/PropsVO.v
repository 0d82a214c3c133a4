(** Property theorems C01-C11: expressions, virtual oracles and precompiled gates.
    The vocabulary is in Spec.v; the proofs are in ProofVO.v and ProofGates.v. *)
From mathcomp Require Import all_ssreflect all_algebra.
From Coq Require Import String.
From Verif Require Import Base ModelPoly ModelVO ModelGates ModelOracle Spec ProofVO ProofGates ProofExamples Field97 Concrete.

Set Implicit Arguments.
Unset Strict Implicit.
Unset Printing Implicit Defensive.

Import GRing.Theory.
Local Open Scope ring_scope.

(** ** C01 *)
Theorem c01_operators_are_field_operations (F : fieldType) (Q : Type) (leaf : Q -> F) :
  let value e := evaluate e id leaf -%R +%R *%R (fun x c => x * c) in
  [/\ (forall c, value (Const c) = c) /\ (forall q, value (Orc q) = leaf q),
      (forall a, value (eneg a) = - value a) /\ (forall a c, value (escale a c) = c * value a),
      forall a b, value (eadd a b) = value a + value b,
      forall a b, value (esub a b) = value a - value b &
      forall a b, value (emul a b) = value a * value b].
Proof. exact: evaluate_ops. Qed.
Print Assumptions c01_operators_are_field_operations.

Theorem c01_value_is_meaning (F : fieldType) (Q : Type) (leaf : Q -> F) (e : expr F Q) :
  evaluate e id leaf -%R +%R *%R (fun x c => x * c) = meaning leaf e.
Proof. exact: field_evaluateE. Qed.
Print Assumptions c01_value_is_meaning.

Theorem c01_polynomial_evaluation (F : fieldType) (Q : Type) (leaf : Q -> lpoly F) (e : expr F Q) (x : F) :
  peval (evaluate e (fun c => ptrim [:: c]) leaf (@pneg F) (@padd F) (@pmul F) (fun p c => pscale c p)) x
  = evaluate e id (fun q => peval (leaf q) x) -%R +%R *%R (fun v c => v * c).
Proof. exact: poly_evaluate_field. Qed.
Print Assumptions c01_polynomial_evaluation.

(** Leaves that may fail: the result is the arithmetic value when all leaves succeed; an
    [Err] is the error of the left-most failing leaf; a panicking leaf panics. *)
Theorem c01_fallible_leaves (F : fieldType) (Q : Type) (leaf : Q -> res F) (e : expr F Q) :
  [/\ forall v, (forall q, occurs q (leaves e) -> leaf q = Ok (v q)) -> eval_res e leaf = Ok (meaning v e),
      (forall q, occurs q (leaves e) -> ~~ is_panic (leaf q)) ->
        (exists v, eval_res e leaf = Ok v) \/
        (exists l1 q l2 err, [/\ leaves e = l1 ++ q :: l2,
           (forall q', occurs q' l1 -> is_ok (leaf q')), leaf q = Err err & eval_res e leaf = Err err]) &
      forall q, occurs q (leaves e) -> is_panic (leaf q) -> is_panic (eval_res e leaf)].
Proof. split; [move=> v; exact: eval_res_ok|exact: eval_res_err|move=> q; exact: eval_res_panic]. Qed.
Print Assumptions c01_fallible_leaves.

Example c01_example :
  let e : expr f97_fieldType nat := esub (emul (Orc 0%N) (Orc 1%N)) (escale (Orc 2%N) (n97 2)) in
  evaluate e id (fun q => n97 (q + 3)) -%R +%R *%R (fun x c => x * c) = n97 2.
Proof. by vm_compute; apply/eqP. Qed.

(** ** C02 *)
Theorem c02_degree_bound (F : fieldType) (Q : Type) (leaf : Q -> lpoly F) (dg : Q -> res nat) (e : expr F Q) d :
  (forall q k, occurs q (leaves e) -> dg q = Ok k -> (size (Poly (leaf q)) <= k.+1)%N) ->
  edegree e dg = Ok d ->
  (size (Poly (evaluate e (fun c => ptrim [:: c]) leaf (@pneg F) (@padd F) (@pmul F) (fun p c => pscale c p))) <= d.+1)%N.
Proof. exact: poly_evaluate_degree. Qed.
Print Assumptions c02_degree_bound.

Theorem c02_degree_total (F : fieldType) (Q : Type) (dg : Q -> res nat) (e : expr F Q) :
  (exists d, edegree e dg = Ok d) \/
  (exists l1 q l2, [/\ leaves e = l1 ++ q :: l2, (forall q', occurs q' l1 -> is_ok (dg q'))
    & same_failure (edegree e dg) (dg q)]).
Proof. exact: edegree_total. Qed.
Print Assumptions c02_degree_total.

(** The bound is attained: the degree is exact when nothing cancels. *)
Example c02_example :
  let leaf (q : bool) : lpoly f97_fieldType := if q then col [:: 1; 1]%N else col [:: 0; 0; 5]%N in
  let e : expr f97_fieldType bool := esub (emul (Orc true) (Orc false)) (Orc true) in
  edegree e (fun q => Ok (if q then 1 else 2)%N) = Ok 3%N /\
  pdeg (evaluate e (fun c => ptrim [:: c]) leaf (@pneg _) (@padd _) (@pmul _) (fun p c => pscale c p)) = 3%N.
Proof. by split; vm_compute. Qed.

(** ** C03 *)
Theorem c03_unconfigured (F : fieldType) (cfg : expr F vquery * seq vquery) :
  gv_get_expression (gv_init cfg) = Err UninitializedExpr.
Proof. exact: gv_unconfigured. Qed.
Print Assumptions c03_unconfigured.

Theorem c03_configure_total (F : fieldType) (PW PI PF : Type) (vo : generic_vo F)
    (w : seq (oracle PW)) (i : seq (oracle PI)) (f : seq (oracle PF)) :
  ((exists vo' st', gv_configure vo (w, i, f) = Ok (vo', st')) <-> all_in_range w i f vo) /\
  (~ all_in_range w i f vo -> gv_configure vo (w, i, f) = Panic PIndex).
Proof. split; [exact: gv_configure_iff|exact: gv_configure_fail]. Qed.
Print Assumptions c03_configure_total.

Theorem c03_configure_resolves (F : fieldType) (PW PI PF : Type) (vo vo' : generic_vo F)
    (w w' : seq (oracle PW)) (i i' : seq (oracle PI)) (f f' : seq (oracle PF)) :
  gv_configure vo (w, i, f) = Ok (vo', (w', i', f')) ->
  let qs := gv_virtual_queries vo in
  [/\ rotations_added Witness qs w w', rotations_added Instance qs i i', rotations_added Fixed qs f f' &
   uniq (map (@o_label PW) w) -> uniq (map (@o_label PI) i) -> uniq (map (@o_label PF) f) ->
   exists2 e, gv_get_expression vo' = Ok e &
     forall (qw : oracle PW -> rotation -> res F) qi qf,
       eval_res e (query_leaf w' i' f' qw qi qf)
       = eval_res (gv_virtual_exp vo) (index_leaf w' i' f' qw qi qf)].
Proof. exact: gv_configure_spec. Qed.
Print Assumptions c03_configure_resolves.

(** Uniqueness of labels is needed: with two witness columns called "a" the configured
    expression reads the last one for both (label map, last wins). *)
Theorem c03_duplicate_labels_refuted :
  exists (vo : generic_vo f97_fieldType) (w : seq (oracle nat)) vo' st' e,
    [/\ gv_configure vo (w, [::] : seq (oracle nat), [::] : seq (oracle nat)) = Ok (vo', st'),
        gv_get_expression vo' = Ok e &
        eval_res e (query_leaf st'.1.1 st'.1.2 st'.2 (fun o _ => Ok (n97 (o_data o))) (fun _ _ => Ok 0) (fun _ _ => Ok 0))
        <> eval_res (gv_virtual_exp vo)
             (index_leaf st'.1.1 st'.1.2 st'.2 (fun o _ => Ok (n97 (o_data o))) (fun _ _ => Ok 0) (fun _ _ => Ok 0))].
Proof. exact: duplicate_labels. Qed.
Print Assumptions c03_duplicate_labels_refuted.

Example c03_example :
  let w := [:: Oracle "a"%string [::] 1%N; Oracle "b"%string [:: next] 2%N; Oracle "c"%string [::] 3%N] in
  let i := [:: Oracle "pi"%string [::] 4%N] in
  let f := [seq Oracle l [::] 5%N | l <- [:: "qm"; "ql"; "qr"; "qo"; "qc"]%string] in
  let r := gv_configure (gv_init (gate_plonk_arith f97_fieldType)) (w, i, f) in
  is_ok r /\ (if r is Ok (_, (w', _, _)) then map (@o_rots nat) w' else [::]) = [:: [:: curr]; [:: curr; next]; [:: curr]].
Proof. by split; vm_compute. Qed.

(** ** C04 *)
Theorem c04_unconfigured (F : fieldType) (cfg : seq (expr F vquery) * seq vquery * seq vquery) :
  gl_get_expressions (gl_init cfg) = Err UninitializedLookupExpr /\
  gl_get_table_queries (gl_init cfg) = Err UninitializedLookupTableQuery.
Proof. exact: gl_unconfigured. Qed.
Print Assumptions c04_unconfigured.

Theorem c04_configure_ok_iff (F : fieldType) (PW PI PF PT : Type) (vo : generic_lookup_vo F)
    (w : seq (oracle PW)) (i : seq (oracle PI)) (f : seq (oracle PF)) (t : seq (oracle PT)) :
  (exists x, gl_configure vo (w, i, f) t = Ok x) <->
  lookup_in_range w i f vo /\ (forall q, occurs q (gl_virtual_table_queries vo) -> table_ok t q).
Proof. exact: gl_configure_iff. Qed.
Print Assumptions c04_configure_ok_iff.

Theorem c04_first_offender (F : fieldType) (PW PI PF PT : Type) (vo : generic_lookup_vo F)
    (w : seq (oracle PW)) (i : seq (oracle PI)) (f : seq (oracle PF)) (t : seq (oracle PT)) l1 q l2 :
  (forall q, occurs q (gl_virtual_queries vo) -> in_range w i f q) ->
  gl_virtual_table_queries vo = l1 ++ q :: l2 ->
  (forall q', occurs q' l1 -> table_ok t q') ->
  let s := ("VirtualQuery index: " ++ show_nat (vq_index q))%string in
  (vq_type q = Witness -> gl_configure vo (w, i, f) t = Err (WitnessTableNotAllowed s)) /\
  (vq_type q = Instance -> gl_configure vo (w, i, f) t = Err (InstanceTableNotAllowed s)).
Proof. exact: gl_configure_first_error. Qed.
Print Assumptions c04_first_offender.

Theorem c04_configure_resolves (F : fieldType) (PW PI PF PT : Type) (vo vo' : generic_lookup_vo F)
    (w w' : seq (oracle PW)) (i i' : seq (oracle PI)) (f f' : seq (oracle PF)) (t t' : seq (oracle PT)) :
  gl_configure vo (w, i, f) t = Ok (vo', (w', i', f'), t') ->
  let qs := gl_virtual_queries vo in
  let tqs := gl_virtual_table_queries vo in
  [/\ rotations_added Witness qs w w', rotations_added Instance qs i i', rotations_added Fixed qs f f',
      rotations_added Fixed tqs t t' &
   uniq (map (@o_label PW) w) -> uniq (map (@o_label PI) i) -> uniq (map (@o_label PF) f) ->
   uniq (map (@o_label PT) t) ->
   exists es rs, [/\ gl_get_expressions vo' = Ok es, gl_get_table_queries vo' = Ok rs,
     forall (qw : oracle PW -> rotation -> res F) qi qf,
       [seq eval_res e (query_leaf w' i' f' qw qi qf) | e <- es]
       = [seq eval_res e (index_leaf w' i' f' qw qi qf) | e <- gl_virtual_expressions vo] &
     [seq (resolve t' (oq_label r) (MissingConcreteEval (oq_label r)), oq_rot r, oq_type r) | r <- rs]
     = [seq (idx t' (vq_index q), vq_rot q, Fixed) | q <- tqs]]].
Proof. exact: gl_configure_spec. Qed.
Print Assumptions c04_configure_resolves.

Example c04_example :
  let w := [:: Oracle "a"%string [::] 1%N; Oracle "b"%string [::] 2%N; Oracle "c"%string [::] 3%N] in
  let t := [:: Oracle "t1"%string [::] 1%N; Oracle "t2"%string [::] 2%N; Oracle "t3"%string [::] 3%N] in
  let e : seq (oracle nat) := [::] in
  is_ok (gl_configure (gl_init (lookup_simple3 f97_fieldType)) (w, e, e) t) /\
  gl_configure (gl_init (([::] : seq (expr f97_fieldType vquery)), [::], [:: fq 1 curr; iq 7 curr; wq 0 curr])) (w, e, e) t
  = Err (InstanceTableNotAllowed "VirtualQuery index: 7"%string).
Proof. by split; vm_compute. Qed.

(** ** C05 *)
Theorem c05_gates_declare_their_queries (F : fieldType) (cfg : expr F vquery * seq vquery) :
  occurs cfg [:: gate_mul F; gate_plonk_arith F; gate_plonk_arith4 F; gate_rescue F; gate_delta F; gate_delta_xor_and F] ->
  forall q, occurs q (leaves cfg.1) -> occurs q cfg.2.
Proof. exact: all_gates_declare. Qed.
Print Assumptions c05_gates_declare_their_queries.

Theorem c05_configured_gates_have_their_rotations (F : fieldType) (PW PI PF : Type)
   (cfg : expr F vquery * seq vquery)
   (w w' : seq (oracle PW)) (i i' : seq (oracle PI)) (f f' : seq (oracle PF)) vo' :
  occurs cfg [:: gate_mul F; gate_plonk_arith F; gate_plonk_arith4 F; gate_rescue F; gate_delta F; gate_delta_xor_and F] ->
  gv_configure (gv_init cfg) (w, i, f) = Ok (vo', (w', i', f')) ->
  forall q, occurs q (leaves cfg.1) ->
  match vq_type q with
  | Witness => exists2 o, idx w' (vq_index q) = Ok o & vq_rot q \in o_rots o
  | Instance => exists2 o, idx i' (vq_index q) = Ok o & vq_rot q \in o_rots o
  | Fixed => exists2 o, idx f' (vq_index q) = Ok o & vq_rot q \in o_rots o
  end.
Proof. move=> H; exact: (declared_registered (all_gates_declare H)). Qed.
Print Assumptions c05_configured_gates_have_their_rotations.

Theorem c05_lookups_declare_their_queries (F : fieldType) (cfg : seq (expr F vquery) * seq vquery * seq vquery) :
  occurs cfg [:: lookup_simple1 F; lookup_simple3 F] ->
  (forall e q, occurs e cfg.1.1 -> occurs q (leaves e) -> occurs q cfg.1.2) /\
  (forall q, occurs q cfg.2 -> vq_type q = Fixed) /\ size cfg.1.1 = size cfg.2.
Proof. exact: lookups_declare. Qed.
Print Assumptions c05_lookups_declare_their_queries.

(** ** C06 *)
Theorem c06_mul_gate (F : fieldType) (v : row_values F) :
  vmeaning v (gate_mul F).1 = 0 <-> v Witness 0%N curr * v Witness 1%N curr = v Instance 0%N curr.
Proof. exact: gate_mulE. Qed.
Print Assumptions c06_mul_gate.

(** ** C07. Fixed columns in order: qm, ql, qr, qo, qc. *)
Theorem c07_plonk_gate (F : fieldType) (v : row_values F) :
  let: (a, b, c) := (v Witness 0%N curr, v Witness 1%N curr, v Witness 2%N curr) in
  let: (qm, ql, qr, qo, qc) :=
    (v Fixed 0%N curr, v Fixed 1%N curr, v Fixed 2%N curr, v Fixed 3%N curr, v Fixed 4%N curr) in
  vmeaning v (gate_plonk_arith F).1 = 0 <->
  ql * a + qr * b + qm * (a * b) + qo * c + qc + v Instance 0%N curr = 0.
Proof. exact: plonk_zero. Qed.
Print Assumptions c07_plonk_gate.

(** ** C08. The fourth wire of the 4-wire gate is the third one: the gate never reads
    witness column 3. *)
Theorem c08_plonk4_equation (F : fieldType) (v : row_values F) :
  let: (a, b, c) := (v Witness 0%N curr, v Witness 1%N curr, v Witness 2%N curr) in
  let: (qm, ql, qr, q4, qo, qc) :=
    (v Fixed 0%N curr, v Fixed 1%N curr, v Fixed 2%N curr, v Fixed 3%N curr, v Fixed 4%N curr, v Fixed 5%N curr) in
  vmeaning v (gate_plonk_arith4 F).1
  = ql * a + qr * b + qm * (a * b) + qo * c + q4 * c + qc + v Instance 0%N curr.
Proof. exact: plonk4_value. Qed.
Print Assumptions c08_plonk4_equation.

Theorem c08_fourth_wire_unconstrained (F : fieldType) (v v' : row_values F) :
  (forall t j r, ~ (t = Witness /\ j = 3%N) -> v t j r = v' t j r) ->
  vmeaning v (gate_plonk_arith4 F).1 = vmeaning v' (gate_plonk_arith4 F).1.
Proof. exact: plonk4_independent. Qed.
Print Assumptions c08_fourth_wire_unconstrained.

Theorem c08_fourth_wire_refuted :
  exists v v' : row_values f97_fieldType,
    [/\ v Fixed 3%N curr != 0, v Witness 3%N curr != v' Witness 3%N curr,
        (forall t j r, ~ (t = Witness /\ j = 3%N) -> v t j r = v' t j r),
        vmeaning v (gate_plonk_arith4 _).1 = 0 & vmeaning v' (gate_plonk_arith4 _).1 = 0].
Proof. exact: plonk4_fourth_wire. Qed.
Print Assumptions c08_fourth_wire_refuted.

(** ** C09 *)
Theorem c09_rescue_gate (F : fieldType) (v : row_values F) :
  vmeaning v (gate_rescue F).1 = 0 <->
  v Witness 4%N curr = \sum_(i < 4) v Fixed i curr * v Witness i curr ^+ 5.
Proof. exact: rescue_zero. Qed.
Print Assumptions c09_rescue_gate.

(** ** C10 *)
Theorem c10_delta_row (F : fieldType) (v : row_values F) : v Fixed 0%N curr = 0 ->
  vmeaning v (gate_delta F).1 = 0 <->
  exists2 k, (k < 4)%N & v Witness 0%N next - 4%N%:R * v Witness 0%N curr = k%:R.
Proof. exact: delta_row. Qed.
Print Assumptions c10_delta_row.

Theorem c10_delta_last_row_free (F : fieldType) (v : row_values F) : v Fixed 0%N curr = 1 ->
  vmeaning v (gate_delta F).1 = 0.
Proof. exact: delta_last. Qed.
Print Assumptions c10_delta_last_row_free.

Theorem c10_delta_accumulates (F : fieldType) n (cols : columns F) :
  (forall i, (i < n)%N -> vmeaning (at_row n cols i) (gate_delta F).1 = 0) ->
  forall s m, (s + m < n)%N ->
  (forall i, (s <= i < s + m)%N -> cols Fixed 0%N i = 0) ->
  exists2 k, (k < 4 ^ m)%N &
    cols Witness 0%N (s + m)%N = (4 ^ m)%N%:R * cols Witness 0%N s + k%:R.
Proof. exact: delta_accumulates. Qed.
Print Assumptions c10_delta_accumulates.

(** 27 = 1*16 + 2*4 + 3 accumulated over the rows 0..3; row 3 is the last one. *)
Example c10_example :
  let cols : columns f97_fieldType := fun t j i =>
    if t is Witness then n97 (nth 0 [:: 0; 1; 6; 27] i)%N else n97 (i == 3%N) in
  forall i, (i < 4)%N -> vmeaning (at_row 4 cols i) (gate_delta _).1 = 0.
Proof. by move=> cols [|[|[|[|i]]]] // _; apply/eqP; vm_compute. Qed.

(** ** C11 *)
Theorem c11_logic_gate (F : fieldType) (v : row_values F) a b : 12%N%:R != 0 :> F -> (a < 4)%N -> (b < 4)%N ->
  v Witness 0%N curr = a%:R -> v Witness 1%N curr = b%:R -> v Witness 2%N curr = (a * b)%N%:R ->
  (v Fixed 0%N curr = 1 ->
     vmeaning v (gate_delta_xor_and F).1 = 0 <-> v Witness 3%N curr = (Nat.land a b)%:R) /\
  (v Fixed 0%N curr = -1 ->
     vmeaning v (gate_delta_xor_and F).1 = 0 <-> v Witness 3%N curr = (Nat.lxor a b)%:R).
Proof. move=> c Ha Hb E1 E2 E3; split; [exact: gate_and|exact: gate_xor]. Qed.
Print Assumptions c11_logic_gate.

(** The only hypothesis on the field (2 and 3 are not 0) holds in F_97. *)
Example c11_example : 12%N%:R != 0 :> f97_fieldType.
Proof. by vm_compute. Qed.
