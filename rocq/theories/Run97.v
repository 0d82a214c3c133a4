(** A complete circuit over F_97, indexed, proved and verified by computation. Eight rows, five
    of them usable. Three columns a, b, c under the arithmetic gate, a column d, copy constraints
    among all four (two aggregation polynomials), a transition gate that queries the next row, a
    two-column lookup (c, d) and one public input. Only used by examples. *)
From mathcomp Require Import all_ssreflect all_algebra.
From Coq Require Import NArith String.
From Verif Require Import Base ModelPoly ModelVO ModelGates ModelOracle ModelPC ModelPermutation
  ModelLookup ModelIndexer ModelMultiproof ModelProtocol Spec Field97 Concrete.

Set Implicit Arguments.
Unset Strict Implicit.
Unset Printing Implicit Defensive.

Local Open Scope nat_scope.
Notation F97 := f97_fieldType.

Definition r_d := dom97 8.
Definition r_u : nat := 5.
Definition r_w : seq (poracle F97) :=
  [:: porc Witness 8 "a" (col [:: 3; 12; 15; 7; 1; 31; 5; 66]) true;
      porc Witness 8 "b" (col [:: 4; 3; 2; 9; 8; 17; 2; 14]) true;
      porc Witness 8 "c" (col [:: 12; 15; 5; 6; 7; 8; 20; 90]) true;
      porc Witness 8 "d" (col [:: 2; 2; 4; 5; 1; 2; 77; 4]) true].
Definition r_pi (x : nat) : seq (poracle F97) :=
  [:: porc Instance 8 "pi" (col [:: 0; 0; x; 0; 0; 0; 0; 0]) false].
Definition r_f : seq (poracle F97) :=
  [:: porc Fixed 8 "qm" (col [:: 1; 0; 0; 0; 0; 0; 0; 0]) false;
      porc Fixed 8 "ql" (col [:: 0; 1; 1; 1; 0; 0; 0; 0]) false;
      porc Fixed 8 "qr" (col [:: 0; 1; 0; 0; 0; 0; 0; 0]) false;
      porc Fixed 8 "qo" (col [:: 96; 96; 0; 0; 0; 0; 0; 0]) false;
      porc Fixed 8 "qc" (col [:: 0; 0; 0; 90; 0; 0; 0; 0]) false;
      porc Fixed 8 "qn" (col [:: 1; 1; 0; 0; 0; 0; 0; 0]) false].
Definition r_t : seq (poracle F97) :=
  [:: porc Fixed 8 "t1" (col [:: 15; 12; 7; 5; 6; 0; 0; 0]) false;
      porc Fixed 8 "t2" (col [:: 2; 2; 1; 4; 5; 0; 0; 0]) false].
(** Copies: c0 = a1, c1 = a2, a0 = b1, b2 = d0 = d1, c4 = a3, d4 = a4. Cells are numbered
    column first. *)
Definition r_deltas : seq F97 := col [:: 1; 5; 25; 28].
Definition r_cell (j i : nat) : F97 := (nth 0 r_deltas j * element r_d i)%R.
Definition r_cycles : seq (seq (nat * nat)) :=
  [:: [:: (2, 0); (0, 1)]; [:: (2, 1); (0, 2)]; [:: (0, 0); (1, 1)];
      [:: (1, 2); (3, 0); (3, 1)]; [:: (2, 4); (0, 3)]; [:: (3, 4); (0, 4)]].
Definition r_next (c : nat * nat) : nat * nat :=
  foldl (fun acc cy => if seq.index c cy < size cy then nth c (rot 1 cy) (seq.index c cy) else acc)
    c r_cycles.
Definition r_sigma : seq (poracle F97) :=
  [seq porc Fixed 8 "sigma" [seq let c := r_next (j, i) in r_cell c.1 c.2 | i <- iota 0 8] false
  | j <- iota 0 4].
Definition r_qblind : poracle F97 := porc Fixed 8 "q_blind" (col [:: 0; 0; 0; 0; 0; 0; 1; 1]) false.

Definition r_arith : generic_vo F97 := gv_init (gate_plonk_arith F97).
Definition r_trans : generic_vo F97 :=
  gv_init (emul (Orc (fq 5 curr)) (esub (Orc (wq 0 next)) (Orc (wq 2 curr))),
    [:: fq 5 curr; wq 0 next; wq 2 curr]).
Definition r_lookup : generic_lookup_vo F97 :=
  gl_init ([:: Orc (wq 2 curr); Orc (wq 3 curr)], [:: wq 2 curr; wq 3 curr], [:: fq 0 curr; fq 1 curr]).

(** [configure] of the virtual oracles, on either side. *)
Definition configure_run {PW PI PF PT} (st : seq (oracle PW) * seq (oracle PI) * seq (oracle PF))
    (t : seq (oracle PT)) :=
  rbind (gv_configure r_arith st) (fun '(g1, st) =>
  rbind (gv_configure r_trans st) (fun '(g2, st) =>
  rbind (gl_configure r_lookup st t) (fun '(l, st, t) => Ok (g1, g2, l, st, t)))).

Definition r_conf := ok_or (r_arith, r_trans, r_lookup, (r_w, r_pi 82, r_f), r_t)
  (configure_run (r_w, r_pi 82, r_f) r_t).
Definition r_vos := [:: r_conf.1.1.1.1; r_conf.1.1.1.2].
Definition r_l := r_conf.1.1.2.
Definition r_ws := r_conf.1.2.1.1.
Definition r_ins := r_conf.1.2.1.2.
Definition r_fs := r_conf.1.2.2.
Definition r_ts := r_conf.2.

Definition r_vk0 : verifier_key F97 :=
  VerifierKey (Index 0 (Domain 1 1%R) (PermutationArgument 0 0 [::]) [::] 0) [::].
Definition r_zh := vanishing_dense r_d.
Definition r_index := ModelIndexer.index env97 (fun o : pdata F97 => pd_permute o) r_vos [:: r_l]
  r_ws r_ins r_fs r_d r_zh (PermutationInfo r_u r_deltas) r_u.
Definition r_vk := ok_or r_vk0 r_index.

Definition r_pre : prover_pre KZG97 :=
  prover_pre_new env97 KZG97 r_fs r_sigma r_ts r_qblind (vk_index r_vk).
Definition r_dummy : tp_proof KZG97 :=
  @TPProof F97 KZG97 [::] [::] [::] [::] [::] 0%R [::] [::] [::] [::] [::] [::] [::] [::]
    (@MoProof F97 KZG97 [::] (pc_zero KZG97) (0%R, None)).
Definition r_run := tp_prove env97 (PC := KZG97) FS97 srs97 r_vk r_pre r_ws r_ins r_vos 8 11%num.
Definition r_proof := (ok_or (r_dummy, 0%num) r_run).1.

(** The verifier's side: commitments to the preprocessed columns without hiding. *)
Definition vfix (o : poracle F97) : voracle F97 (pc_com KZG97) :=
  Oracle (o_label o) (o_rots o)
    (VData Fixed [::] (Some (ok_or (pc_zero KZG97) (@pc_commit1 F97 KZG97 srs97 (po_poly o) (pc_empty KZG97)))) false).
Definition vwit (o : poracle F97) : voracle F97 (pc_com KZG97) :=
  Oracle (o_label o) (o_rots o) (@VData F97 (pc_com KZG97) Witness [::] None (pd_permute (o_data o))).
Definition vinst (o : poracle F97) : ioracle F97 := Oracle (o_label o) (o_rots o) (po_poly o).
Definition r_vpre : verifier_pre KZG97 :=
  VerifierPre (map vfix r_fs) (map vfix r_ts) (map vfix r_sigma) (vfix r_qblind).
Definition r_vws := map vwit r_ws.
Definition r_vins := map vinst r_ins.
Definition r_verify (pf : tp_proof KZG97) (ins : seq (ioracle F97)) :=
  tp_verify env97 (PC := KZG97) FS97 srs97 r_vk r_vpre pf r_vws ins r_vos 8 r_zh.
(** A column opened at the unrotated point. *)
Definition flat (o : poracle F97) : poracle F97 := Oracle (o_label o) [:: curr] (o_data o).
