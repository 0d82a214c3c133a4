(** Model of concrete oracles (src/oracles/witness.rs, fixed.rs, instance.rs, traits.rs),
    query sets and src/util.rs. Definitions only. *)
From mathcomp Require Import all_ssreflect all_algebra.
From Coq Require Import String.
From Verif Require Import Base ModelPoly ModelVO.

Set Implicit Arguments.
Unset Strict Implicit.
Unset Printing Implicit Defensive.

Import GRing.Theory.
Local Open Scope ring_scope.

Section Oracles.
Variable F : fieldType.
Variable env : fenv F.

(** Data of a prover-side oracle: src/oracles/witness.rs:20-28, fixed.rs:21-29,
    instance.rs:17-23. One record serves the three Rust structs: [pd_kind] selects the error
    of [get_extended_coset_evals]; [pd_permute] is meaningful for witness oracles only. *)
Record pdata := PData {
  pd_kind : oracle_type;
  pd_poly : lpoly F;
  pd_evals : seq F;
  pd_coset : option (seq F);
  pd_permute : bool }.
(** src/oracles/witness.rs:20-28, fixed.rs:21-29, instance.rs:17-23 *)
Definition poracle := oracle pdata.

(** src/oracles/traits.rs:27-35: [polynomial], [evals]. *)
Definition po_poly (p : poracle) : lpoly F := pd_poly (o_data p).
(** src/oracles/traits.rs:29 *)
Definition po_evals (p : poracle) : seq F := pd_evals (o_data p).

(** witness.rs:32-46, fixed.rs:33-45, instance.rs:27-39 *)
Definition po_new (k : oracle_type) (l : label) (p : lpoly F) (evals : seq F) (perm : bool)
  : poracle := Oracle l [::] (PData k p evals None perm).

(** fixed.rs:47-64 *)
Definition fixed_from_evals_and_domains (l : label) (evals : seq F) (d ext : domain F)
  : poracle :=
  let poly := ptrim (ifft d evals) in
  Oracle l [::] (PData Fixed poly evals (Some (coset_fft env ext poly)) false).

(** [query] of prover oracles and of InstanceVerifierOracle: polynomial evaluation
    (witness.rs:60-62, fixed.rs:90-92, instance.rs:49-51, 120-122). *)
Definition po_query (p : poracle) (x : F) : res F := Ok (peval (po_poly p) x).

(** witness.rs:74-80, fixed.rs:104-110, instance.rs:63-69 *)
Definition compute_extended_evals (ext : domain F) (p : poracle) : poracle :=
  let d := o_data p in
  Oracle (o_label p) (o_rots p)
    (PData (pd_kind d) (pd_poly d) (pd_evals d) (Some (coset_fft env ext (pd_poly d)))
       (pd_permute d)).

(** witness.rs:95-100, fixed.rs:129-134, instance.rs:84-89 *)
Definition get_extended_coset_evals (p : poracle) : res (seq F) :=
  opt_or (pd_coset (o_data p))
    (match pd_kind (o_data p) with
     | Witness => MissingCosetWitnessEval (o_label p)
     | Fixed => MissingCosetFixedEval (o_label p)
     | Instance => MissingCosetInstanceEval (o_label p)
     end).

(** traits.rs:37-44 *)
Definition query_in_evals_form (p : poracle) (lagrange_evals : seq F) : F :=
  foldl (fun acc e => acc + e.1 * e.2) 0 (zip (po_evals p) lagrange_evals).

(** Division and remainder panic on zero; src/oracles/traits.rs:57, 62, 74. *)
Definition udiv (a b : nat) : res nat := if b == 0%N then Panic PDivZero else Ok (a %/ b)%N.
(** src/oracles/traits.rs:62, 74 *)
Definition umod (a b : nat) : res nat := if b == 0%N then Panic PDivZero else Ok (a %% b)%N.

(** traits.rs:46-79. Simplification: the i64 casts do not overflow. *)
Definition query_in_coset (p : poracle) (omega_index : nat) (r : rotation) : res F :=
  ev <- get_extended_coset_evals p ;;
  if r.1 == 0%N then idx ev omega_index
  else
    let ext := size ev in
    ratio <- udiv ext (size (po_evals p)) ;;
    let shift := (r.1 * ratio)%N in
    if r.2 then
      if (shift <= omega_index)%N then idx ev (omega_index - shift)%N
      else
        m <- umod (shift - omega_index)%N ext ;;
        i <- usub ext m ;;
        idx ev i
    else
      i <- umod (omega_index + shift)%N ext ;;
      idx ev i.

(** traits.rs:81-106 *)
Definition query_at_omega_in_original_domain (p : poracle) (omega_index : nat) (r : rotation)
  : res F :=
  let ev := po_evals p in
  let n := size ev in
  if r.1 == 0%N then idx ev omega_index
  else if r.2 then
    if (r.1 <= omega_index)%N then idx ev (omega_index - r.1)%N
    else
      m <- umod (r.1 - omega_index)%N n ;;
      i <- usub n m ;;
      idx ev i
  else
    i <- umod (omega_index + r.1)%N n ;;
    idx ev i.

(** Instance oracles on the verifier side: instance.rs:96-131. *)
Definition ioracle := oracle (lpoly F).
(** instance.rs:120-122 *)
Definition io_query (p : ioracle) (x : F) : res F := Ok (peval (o_data p) x).

(** Query sets: [BTreeSet<(label, (point_label, point))>] (src/oracles/traits.rs:125-142). The Rust order compares
    the label, then the point label, then the point. Within one query set the point is a function of the
    point label, so the order of field elements never matters and is not modelled. *)
Definition qentry := (label * (label * F))%type.
(** Derived order of the entries: src/oracles/traits.rs:125-142 (byte order of strings). *)
Definition str_lt (a b : string) : bool := String.ltb a b.
(** src/oracles/traits.rs:125-142 *)
Definition qentry_lt (a b : qentry) : bool :=
  str_lt a.1 b.1 || ((a.1 == b.1) && str_lt a.2.1 b.2.1).

(** traits.rs:125-142, one oracle, inserted into an accumulator. *)
Definition oracle_query_set {P} (o : oracle P) (pl : label) (x : F) (omegas : seq F)
    (acc : seq qentry) : res (seq qentry) :=
  rfoldM (fun acc r =>
            pi <- get_point_info r pl x omegas ;;
            Ok (sinsert qentry_lt (o_label o, pi) acc)) acc (o_rots o).

(** src/piop/verifier.rs:111-128 : union over the oracles. *)
Definition get_query_set {P} (os : seq (oracle P)) (pl : label) (x : F) (omegas : seq F)
  : res (seq qentry) :=
  rfoldM (fun acc o => oracle_query_set o pl x omegas acc) [::] os.

(** The oracle a label resolves to in a BTreeMap collected from a slice, the last one: src/util.rs:41. *)
Definition find_oracle {P} (os : seq (oracle P)) (l : label) : option (oracle P) :=
  assoc_last (zip (map (@o_label P) os) os) l.

(** [match mapping.get(label) { Some(i) => &oracles[i], None => Err(e) }] with the mapping
    label -> index built from the oracles (e.g. src/piop/prover.rs:101-122). *)
Definition resolve {P} (os : seq (oracle P)) (l : label) (e : error) : res (oracle P) :=
  match label_index (map (@o_label P) os) l with
  | Some i => idx os i
  | None => Err e
  end.

(** The leaf closure passed to [evaluate] everywhere (src/piop/prover.rs:322-358,
    src/lookup/mod.rs:115-158, 181-215, 437-470, src/turbo_plonk.rs:1141-1179,
    src/mock_prover.rs:121-199): resolve the queried label among the oracles of the queried
    type, then query that oracle. *)
Definition query_leaf {PW PI PF A}
    (w : seq (oracle PW)) (i : seq (oracle PI)) (f : seq (oracle PF))
    (qw : oracle PW -> rotation -> res A) (qi : oracle PI -> rotation -> res A)
    (qf : oracle PF -> rotation -> res A) (q : oquery) : res A :=
  let l := oq_label q in
  match oq_type q with
  | Witness => o <- resolve w l (MissingWitnessOracle l) ;; qw o (oq_rot q)
  | Instance => o <- resolve i l (MissingInstanceOracle l) ;; qi o (oq_rot q)
  | Fixed => o <- resolve f l (MissingFixedOracle l) ;; qf o (oq_rot q)
  end.

(** util.rs:37-53 *)
Definition evaluate_query_set (os : seq poracle) (qs : seq qentry) : res (seq F) :=
  rmapM (fun e => match find_oracle os e.1 with
                  | Some o => po_query o e.2.2
                  | None => Panic PExplicit
                  end) qs.

(** util.rs:10-33 *)
Definition compute_vanishing_poly_over_coset (d : domain F) (deg : nat) : res (seq F) :=
  _ <- rassert (deg < dsize d)%N ;;
  let coset_gen := mult_gen env ^+ deg in
  Ok [seq coset_gen * (element d 1) ^+ (deg * i) - 1 | i <- iota 0 (dsize d)].

Section Verifier.
Variable C : Type. (* commitments *)

(** Data of a committed verifier oracle: witness.rs:109-115, fixed.rs:139-144. *)
Record vdata := VData {
  vd_kind : oracle_type;
  vd_evals : seq (F * F);
  vd_com : option C;
  vd_permute : bool }.
(** witness.rs:109-115, fixed.rs:139-144 *)
Definition voracle := oracle vdata.

(** witness.rs:119-127, fixed.rs:148-158 *)
Definition vo_new (k : oracle_type) (l : label) (c : option C) (perm : bool) : voracle :=
  Oracle l [::] (VData k [::] c perm).

(** witness.rs:131-133, fixed.rs:190-192 : BTreeMap::insert overrides. *)
Definition register_eval_at_challenge (x v : F) (o : voracle) : voracle :=
  let d := o_data o in
  Oracle (o_label o) (o_rots o) (VData (vd_kind d) (ains (vd_evals d) x v) (vd_com d) (vd_permute d)).

(** witness.rs:165-170, fixed.rs:207-212 *)
Definition vo_query (o : voracle) (x : F) : res F :=
  opt_or (assoc (vd_evals (o_data o)) x) (MissingConcreteEval (o_label o)).

(** witness.rs:184-186, fixed.rs:226-228 *)
Definition register_commitment (c : C) (o : voracle) : voracle :=
  let d := o_data o in
  Oracle (o_label o) (o_rots o) (VData (vd_kind d) (vd_evals d) (Some c) (vd_permute d)).

(** witness.rs:188-193, fixed.rs:230-235 *)
Definition get_commitment (o : voracle) : res C :=
  opt_or (vd_com (o_data o))
    (match vd_kind (o_data o) with
     | Witness => MissingWitnessCommitment (o_label o)
     | _ => MissingFixedCommitment (o_label o)
     end).

(** The loops of src/turbo_plonk.rs:806-819, 831-844, 856-869, 1063-1076: each claimed
    evaluation is registered with the oracle its query set entry names. *)
Definition register_evals (os : seq voracle) (missing : label -> error)
    (qs : seq (qentry * F)) : res (seq voracle) :=
  rfoldM (fun os e =>
            match label_index (map (@o_label _) os) e.1.1 with
            | Some i => Ok (upd os i (register_eval_at_challenge e.1.2.2 e.2))
            | None => Err (missing e.1.1)
            end) os qs.

End Verifier.
End Oracles.
