(** Concrete runs of the indexer. *)
From mathcomp Require Import all_ssreflect all_algebra.
From Coq Require Import String.
From Verif Require Import Base ModelPoly ModelVO ModelGates ModelOracle ModelPermutation ModelLookup ModelIndexer
  Spec ProofBase ProofPoly ProofDomain ProofVO ProofIndexer Field97 Concrete ProofConcrete.

Set Implicit Arguments.
Unset Strict Implicit.
Unset Printing Implicit Defensive.

Import GRing.Theory.
Local Open Scope ring_scope.

Lemma max_degree_linear (F Q : Type) k (es : seq (expr F Q)) : (max_degree 1 es <= 1)%N -> (max_degree k es <= k)%N.
Proof.
have scale (e : expr F Q) : expr_degree k e = (expr_degree 1 e * k)%N.
  elim: e => [c|q|a IH|a IHa b IHb|a IHa b IHb|a IH c] //=; rewrite ?mul1n //.
    by rewrite IHa IHb maxnMl.
  by rewrite IHa IHb mulnDl.
rewrite /max_degree; elim: es => [|e es IH]; first by rewrite !big_nil.
by rewrite !big_cons !geq_max => /andP[H1 /IH->]; rewrite scale -[X in (_ <= X)%N]mul1n leq_mul2r H1 orbT.
Qed.

(** w0^4 - w1 on four rows. *)
Definition pow4_cols : seq (poracle f97_fieldType) :=
  [:: porc Witness 4 "a" (col [:: 1; 2; 3; 5]%N) false;
      porc Witness 4 "b" [seq x ^+ 4 | x <- col [:: 1; 2; 3; 5]%N] false].
Definition pow4_exp : expr f97_fieldType vquery :=
  let w := Orc (wq 0 curr) in esub (emul (emul w w) (emul w w)) (Orc (wq 1 curr)).
Definition pow4_vo : generic_vo f97_fieldType := gv_init (pow4_exp, [:: wq 0 curr; wq 1 curr]).
Definition pow4_conf := ok_or (pow4_vo, (pow4_cols, [::], [::]))
  (gv_configure pow4_vo (pow4_cols, [::] : seq (poracle f97_fieldType), [::] : seq (poracle f97_fieldType))).
Definition vk0 : verifier_key f97_fieldType :=
  VerifierKey (Index 0 (Domain 1 1) (PermutationArgument 0 0 [::]) [::] 0) [::].
Definition pow4_vk := ok_or vk0 (index env97 (fun o : pdata f97_fieldType => pd_permute o) [:: pow4_conf.1] [::]
   pow4_conf.2.1.1 ([::] : seq (poracle f97_fieldType)) ([::] : seq (poracle f97_fieldType)) (dom97 4)
   (vanishing_dense (dom97 4)) (permutation_info_dummy f97_fieldType) 4).

Definition pow4_e : expr f97_fieldType oquery :=
  let w := Orc (OQuery "a"%string curr Witness) in esub (emul (emul w w) (emul w w)) (Orc (OQuery "b"%string curr Witness)).

Definition pow4_leaf (q : oquery) : lpoly f97_fieldType :=
  if find_oracle pow4_conf.2.1.1 (oq_label q) is Some o then po_poly o else [::].

Lemma pow4_getE : gv_get_expression pow4_conf.1 = Ok pow4_e.
Proof. by vm_compute. Qed.

Lemma pow4_index : index env97 (fun o : pdata f97_fieldType => pd_permute o) [:: pow4_conf.1] [::]
   pow4_conf.2.1.1 ([::] : seq (poracle f97_fieldType)) ([::] : seq (poracle f97_fieldType)) (dom97 4)
   (vanishing_dense (dom97 4)) (permutation_info_dummy f97_fieldType) 4 = Ok pow4_vk.
Proof.
have H : (if index env97 (fun o : pdata f97_fieldType => pd_permute o) [:: pow4_conf.1] [::]
   pow4_conf.2.1.1 ([::] : seq (poracle f97_fieldType)) ([::] : seq (poracle f97_fieldType)) (dom97 4)
   (vanishing_dense (dom97 4)) (permutation_info_dummy f97_fieldType) 4 is Ok _ then true else false) by vm_compute.
rewrite /pow4_vk; by case: (index _ _ _ _ _ _ _ _ _ _ _) H.
Qed.

Lemma pow4_poly leaf : poly_of leaf pow4_e = Poly (leaf (OQuery "a"%string curr Witness)) ^+ 4 - Poly (leaf (OQuery "b"%string curr Witness)).
Proof. by rewrite /pow4_e /poly_of /= -!expr2 -exprM. Qed.

Lemma pow4_at leaf x : (poly_of leaf pow4_e).[x] =
  peval (leaf (OQuery "a"%string curr Witness)) x ^+ 4 - peval (leaf (OQuery "b"%string curr Witness)) x.
Proof. by rewrite pow4_poly hornerD hornerN horner_exp -!pevalE. Qed.
Lemma pow4_ext : dsize (ix_ext (vk_index pow4_vk)) = 8%N. Proof. by apply/eqP; vm_compute. Qed.
Lemma pow4_dom : dsize (dom97 4) = 4%N. Proof. by apply/eqP; vm_compute. Qed.
Lemma pow4_size_a : size (Poly (pow4_leaf (OQuery "a"%string curr Witness))) = 4%N.
Proof.
have E : size (pow4_leaf (OQuery "a"%string curr Witness)) = 4%N by apply/eqP; vm_compute.
rewrite -E (PolyK (c := 0)) //; by vm_compute.
Qed.
Lemma pow4_size_b : (size (Poly (pow4_leaf (OQuery "b"%string curr Witness))) <= 4)%N.
Proof. by apply: leq_trans (size_Poly _) _; vm_compute. Qed.
Lemma pow4_size : size (Poly (pow4_leaf (OQuery "a"%string curr Witness)) ^+ 4
   - Poly (pow4_leaf (OQuery "b"%string curr Witness))) = 13%N.
Proof.
move: pow4_size_a pow4_size_b; move: (Poly _) (Poly _) => b a Ea Eb.
have E4 : size (a ^+ 4) = 13%N.
  have := size_exp a 4; rewrite Ea.
  have : size (a ^+ 4) != 0%N by rewrite size_poly_eq0 expf_eq0 /= -size_poly_eq0 Ea.
  by case: (size _) => //= k _ ->.
rewrite size_addl ?E4 // size_opp; exact: leq_ltn_trans Eb _.
Qed.
Lemma pow4_rows : all (fun i => (peval (pow4_leaf (OQuery "a"%string curr Witness)) (dgen (dom97 4) ^+ i)) ^+ 4
   - peval (pow4_leaf (OQuery "b"%string curr Witness)) (dgen (dom97 4) ^+ i) == 0) (iota 0 4).
Proof. by vm_compute. Qed.

Lemma quotient_degree_off_by_one :
  exists (F : fieldType) (env : fenv F) (d : domain F) (vo : generic_vo F) (ws : seq (poracle F))
         (vk : verifier_key F) (e : expr F oquery),
    let z_h := vanishing_dense d in
    let leaf q := if find_oracle ws (oq_label q) is Some o then po_poly o else [::] in
    [/\ fenv_ok env /\ std_domain env d,
        index env (fun o : pdata F => pd_permute o) [:: vo] [::] ws ([::] : seq (poracle F))
          ([::] : seq (poracle F)) d z_h (permutation_info_dummy F) (dsize d) = Ok vk,
        gv_get_expression vo = Ok e,
        forall i, (i < dsize d)%N -> (poly_of leaf e).[dgen d ^+ i] = 0 &
        (size (poly_of leaf e %/ Poly z_h)%R > dsize (ix_ext (vk_index vk)))%N].
Proof.
exists f97_fieldType, env97, (dom97 4), pow4_conf.1, pow4_conf.2.1.1, pow4_vk, pow4_e => z_h leaf.
rewrite pow4_ext pow4_dom.
split; [split; [exact: env97_ok|exact: dom97_4]|exact: pow4_index|exact: pow4_getE| |].
  move=> i Hi; rewrite pow4_at.
  by apply/eqP; have := allP pow4_rows i; rewrite mem_iota => /(_ Hi).
rewrite pow4_poly Poly_vanishing ?pow4_dom // size_divp; last by rewrite -size_poly_eq0 size_Xn_sub_1.
rewrite size_Xn_sub_1 //; have := pow4_size; rewrite -[pow4_leaf]/leaf; move: leaf => leaf E.
by rewrite E.
Qed.
