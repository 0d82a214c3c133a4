(** Specification of a whole circuit: what the user supplies, when it is well laid out and
    satisfied, and the verifier's copy of it. Uses only the data types users see. *)
From mathcomp Require Import all_ssreflect all_algebra.
From Verif Require Import Base ModelPoly ModelVO ModelOracle ModelPC ModelPermutation ModelIndexer
  ModelMultiproof ModelProtocol Spec SpecProtocol SpecPIOP.

Set Implicit Arguments.
Unset Strict Implicit.
Unset Printing Implicit Defensive.

Import GRing.Theory.
Local Open Scope ring_scope.

Section Circuit.
Variable F : fieldType.

(** Everything handed to the indexer and to the prover. *)
Record circuit := Circuit {
  c_ws : seq (poracle F);
  c_ins : seq (poracle F);
  c_fs : seq (poracle F);
  c_ts : seq (poracle F);
  c_sigmas : seq (poracle F);
  c_qb : poracle F;
  c_vos : seq (generic_vo F);
  c_lookups : seq (generic_lookup_vo F);
  c_d : domain F;
  c_zh : lpoly F;
  c_info : permutation_info F;
  c_u : nat }.
Definition c_rows (C : circuit) : nat := dsize (c_d C).
(** Copy constraints or lookups are in use. *)
Definition c_arguments (C : circuit) : bool := ~~ nilp (copied (c_ws C)) || ~~ nilp (c_lookups C).

(** [vk] is the key the indexer returns, and the prover's preprocessed input. *)
Definition indexed (env : fenv F) (C : circuit) (vk : verifier_key F) : Prop :=
  index env (fun o : pdata F => pd_permute o) (c_vos C) (c_lookups C) (c_ws C) (c_ins C) (c_fs C)
    (c_d C) (c_zh C) (c_info C) (c_u C) = Ok vk.
Definition preprocessed (env : fenv F) (PC : pcs F) (C : circuit) (vk : verifier_key F) : prover_pre PC :=
  prover_pre_new env PC (c_fs C) (c_sigmas C) (c_ts C) (c_qb C) (vk_index vk).

(** The columns: at least two rows, interpolated over the domain, distinct labels, rotations within the table; the
    permutation and blinding columns are not rotated; copied columns are opened at the unrotated
    point; the blinding column marks the rows after the last usable one. *)
Record laid_out (C : circuit) : Prop := LaidOut {
  lay_rows : (1 < c_rows C)%N;
  lay_cols : forall o, occurs o (c_ws C ++ c_ins C ++ c_fs C ++ c_ts C ++ c_sigmas C ++ [:: c_qb C]) ->
    interpolates (c_d C) o;
  lay_labels : [/\ uniq (map (@o_label _) (c_ws C)), uniq (map (@o_label _) (c_ins C)),
    uniq (map (@o_label _) (c_fs C)) & uniq (map (@o_label _) (c_ts C))];
  lay_rots : [/\ rots_below (c_ws C) (c_rows C), rots_below (c_fs C) (c_rows C) & rots_below (c_ts C) (c_rows C)];
  lay_flat : forall o r, occurs o (c_sigmas C ++ [:: c_qb C]) -> r \in o_rots o -> r = curr;
  lay_copied : forall o, occurs o (copied (c_ws C)) -> curr \in o_rots o;
  lay_blind : c_arguments C -> forall i, (i < c_rows C)%N -> (po_evals (c_qb C))`_i = (pi_u (c_info C) < i)%N%:R }.

(** The gates: configured, with expressions [es] whose queries are declared and within the table. *)
Definition gates_ok (C : circuit) (es : seq (expr F oquery)) : Prop :=
  [/\ map (@gv_get_expression F) (c_vos C) = map Ok es,
      exprs_ok (c_ws C) (c_ins C) (c_fs C) (c_rows C) es & exprs_declared (c_ws C) (c_fs C) es].
(** A lookup: configured, as above, instance and fixed columns and the table unrotated, and no expression
    of a degree the extended domain (of [N] points) cannot hold. *)
Definition lookup_ok (C : circuit) (N : nat) (l : generic_lookup_vo F) : Prop :=
  exists es tqs, [/\ gl_get_expressions l = Ok es, gl_get_table_queries l = Ok tqs,
    exprs_ok (c_ws C) (c_ins C) (c_fs C) (c_rows C) es /\ exprs_declared (c_ws C) (c_fs C) es,
    table_queries_ok (c_ts C) tqs /\ tables_declared (c_ts C) tqs &
    (forall e q, occurs e es -> occurs q (leaves e) -> oq_type q <> Witness -> oq_rot q = curr) /\
    (forall e, occurs e es -> (expr_degree (c_rows C).-1 e < N)%N)].
(** All lookups, and the two numbers of usable rows agree and leave room for blinding. *)
Definition lookups_ok (C : circuit) (N : nat) : Prop :=
  (forall l, occurs l (c_lookups C) -> lookup_ok C N l) /\
  (~~ nilp (c_lookups C) -> [/\ pi_u (c_info C) = c_u C, (0 < c_u C)%N & (c_u C < c_rows C)%N]).
(** The gates hold on the rows where z_h vanishes. *)
Definition satisfied (C : circuit) (es : seq (expr F oquery)) (rows : seq nat) : Prop :=
  forall e i, occurs e es -> i \in rows -> meaning (row_value (c_ws C) (c_ins C) (c_fs C) (c_rows C) i) e = 0.

(** z_h is, up to a constant, the product of X - w^i over [rows]; it can be evaluated on the extended
    domain of [N] points when it has at most [N] coefficients or is X^n - 1. *)
Definition vanishes_on (C : circuit) (rows : seq nat) (N : nat) : Prop :=
  [/\ uniq rows, (forall i, i \in rows -> (i < c_rows C)%N),
      (exists2 c : F, c != 0 & Poly (c_zh C) = c *: \prod_(i <- rows) ('X - (dgen (c_d C) ^+ i)%:P)) &
      (size (c_zh C) <= N)%N \/ Poly (c_zh C) = 'X^(c_rows C) - 1].
(** The extended domain of [N] points holds the quotient by z_h (which vanishes on [m] rows) of the
    gates, of the copy constraints (in products of [k] columns) and of the lookups. *)
Definition quotient_room (C : circuit) (es : seq (expr F oquery)) (m k N : nat) : Prop :=
  [/\ (forall e, occurs e es -> (expr_degree (c_rows C).-1 e < m + N)%N),
      (~~ nilp (copied (c_ws C)) -> (k.+2 * (c_rows C).-1 < m + N)%N) &
      (~~ nilp (c_lookups C) -> (4 * (c_rows C).-1 < m + N)%N)].

(** ** The verifier's copy. *)
Section Copy.
Variables (PC : pcs F) (ck : pc_ck PC).
(** Commitments, without hiding, to the same columns. *)
Definition publishes (vs : seq (voracle F (pc_com PC))) (ps : seq (poracle F)) : Prop :=
  mirrors vs ps /\
  forall j v p, idx vs j = Ok v -> idx ps j = Ok p ->
    exists2 c, get_commitment v = Ok c & pc_commit1 ck (po_poly p) (pc_empty PC) = Ok c.
Record verifier_copy (C : circuit) (vws : seq (voracle F (pc_com PC))) (vins : seq (ioracle F))
    (vpre : verifier_pre PC) : Prop := VerifierCopy {
  vc_ws : mirrors vws (c_ws C) /\ [seq vd_permute (o_data o) | o <- vws] = [seq pd_permute (o_data o) | o <- c_ws C];
  vc_ins : same_instances vins (c_ins C);
  vc_fs : publishes (vp_fixed vpre) (c_fs C);
  vc_ts : publishes (vp_table vpre) (c_ts C);
  vc_sigmas : publishes (vp_perm vpre) (c_sigmas C);
  vc_qb : publishes [:: vp_q_blind vpre] [:: c_qb C] }.
End Copy.
End Circuit.
