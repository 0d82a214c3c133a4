(** Specification: one commitment scheme seen through another, and KZG10 against a prover that knows how
    each of its group elements is combined from the SRS (the algebraic group model). *)
From mathcomp Require Import all_ssreflect all_algebra.
From Verif Require Import Base ModelPoly ModelVO ModelOracle ModelPC ModelMultiproof ModelProtocol
  Spec SpecProtocol SpecPIOP SpecMultiopen SpecSound.

Set Implicit Arguments.
Unset Strict Implicit.
Unset Printing Implicit Defensive.

Import GRing.Theory.
Local Open Scope ring_scope.

Section Seen.
Variables (F : fieldType) (PC1 PC2 : pcs F).
Variables (phi : pc_com PC1 -> pc_com PC2) (psi : pc_proof PC1 -> pc_proof PC2).

(** [phi] sends commitments to commitments and respects sums, multiples, and checks. *)
Record pcs_seen (vk1 : pc_vk PC1) (vk2 : pc_vk PC2) : Prop := PcsSeen {
  se_zero : phi (pc_zero PC1) = pc_zero PC2;
  se_add : forall c e, phi (pc_add c e) = pc_add (phi c) (phi e);
  se_scale : forall c a, phi (pc_scale c a) = pc_scale (phi c) a;
  se_check : forall c x v pf, pc_check vk2 (phi c) x v (psi pf) = pc_check vk1 c x v pf }.

(** What is absorbed leads to the same transcript (always so for public coins). *)
Record same_transcript (FS : fsrng F) : Prop := SameTranscript {
  st_coms : forall (st : fs_state FS) cs, fs_absorb st (coms_bytes (map phi cs)) = fs_absorb st (coms_bytes cs);
  st_com : forall (st : fs_state FS) c, fs_absorb st (pc_bytes (phi c)) = fs_absorb st (pc_bytes c);
  st_evals : forall (st : fs_state FS) es, fs_absorb st (fs_bytes PC2 es) = fs_absorb st (fs_bytes PC1 es) }.

(** Every commitment replaced by its image, nothing else changed. *)
Definition see_oracle (v : voracle F (pc_com PC1)) : voracle F (pc_com PC2) :=
  Oracle (o_label v) (o_rots v)
    (VData (vd_kind (o_data v)) (vd_evals (o_data v)) (omap phi (vd_com (o_data v))) (vd_permute (o_data v))).
Definition see_pre (p : verifier_pre PC1) : verifier_pre PC2 :=
  VerifierPre (map see_oracle (vp_fixed p)) (map see_oracle (vp_table p)) (map see_oracle (vp_perm p)) (see_oracle (vp_q_blind p)).
Definition see_opening (mo : mo_proof PC1) : mo_proof PC2 :=
  MoProof (mp_q_evals mo) (phi (mp_f_commit mo)) (psi (mp_opening mo)).
Definition see_proof (pf : tp_proof PC1) : tp_proof PC2 :=
  TPProof (map phi (tp_witness_commitments pf)) (tp_witness_evals pf) (tp_fixed_evals pf) (tp_table_evals pf) (tp_perm_evals pf)
    (tp_q_blind_eval pf) (map phi (tp_lookup_commitments pf)) (map phi (tp_lookup_z_commitments pf)) (tp_lookup_evals pf)
    (tp_lookup_z_evals pf) (map phi (tp_z_commitments pf)) (tp_z_evals pf) (map phi (tp_quotient_commitments pf))
    (tp_quotient_evals pf) (see_opening (tp_multiopen pf)).
Definition see_input (S : vinput PC1) : vinput PC2 :=
  VInput (s_vk S) (see_pre (s_pre S)) (map see_oracle (s_ws S)) (s_ins S) (s_vos S) (s_d S) (s_zh S).
End Seen.

Section Algebraic.
Variables (F : fieldType) (G : lmodType F) (N : nat).
Variables (Z : Type) (zk_rand : Z -> F * Z) (cbytes : G -> bytes) (fbytes : F -> bytes).

(** The SRS with secrets [tau] and [gamma]: tau^i g and tau^i gamma g for i < N. *)
Definition srs_of (g : G) (tau gamma : F) : kzg_srs G := KzgSrs tau g (gamma *: g) N.-1.
(** A combination of the SRS: coefficients for the tau^i g and for the tau^i gamma g. *)
Definition combination : Type := (lpoly F * lpoly F)%type.
(** The group element it denotes. Coefficients beyond the [N] elements of the SRS do not count. *)
Definition element_of (s : kzg_srs G) (c : combination) : G := kzg_commit s (take N c.1) (take N c.2).
Definition opening_of (s : kzg_srs G) (pf : combination * option F) : G * option F := (element_of s pf.1, pf.2).
(** The polynomial an algebraic prover commits to. *)
Definition committed_poly (c : combination) : {poly F} := Poly (take N c.1).

(** The prover's view: commitments are combinations. Given [None], a check compares the claim with the
    committed polynomial; given an SRS, it is the pairing check on the elements denoted. *)
Definition algebraic : pcs F :=
  @PCS F combination unit (combination * option F)%type unit (option (kzg_srs G)) Z
    zk_rand (fun _ z => (tt, z)) tt (fun _ p _ => Ok (p, [::])) (fun _ p _ _ => Ok ((p, [::]), None))
    (fun vk c x v pf => match vk with
       | None => Ok (peval (take N c.1) x == v)
       | Some s => kzg_check s (element_of s c) x v (opening_of s pf)
       end)
    (fun a b => (padd a.1 b.1, padd a.2 b.2)) (fun c x => (pscale x c.1, pscale x c.2)) ([::], [::])
    (fun _ _ => tt) (fun _ _ => tt) (fun _ => [::]) (fun _ => [::]).

(** The rest of the protocol once theta, beta, gamma and the commitments [cm] are chosen, against KZG10
    (compare [rarely_accepted]). The prover chooses combinations of the SRS without knowing its secrets.
    Unlikely challenges aside, at most [N] taus leave more than one gamma for which verify, given the
    group elements, accepts. *)
Definition rarely_accepted_kzg (env : fenv F) (g : G) (S : vinput algebraic) (cm : commitments algebraic) (B D : nat)
    (theta beta gamma : F) : Prop :=
  let op := committed_poly in
  let elements s := see_input (PC1 := algebraic) (PC2 := kzg zk_rand cbytes fbytes) (element_of s) in
  let sent s := see_proof (PC1 := algebraic) (PC2 := kzg zk_rand cbytes fbytes) (element_of s) (opening_of s) in
  at_most (size (s_vos S) + 2 * size (cm_z cm) + 5 * size (s_lookups S)) (fun alpha =>
    exists2 Q, (forall c, occurs c Q -> (size (op c) <= B)%N) &
    let R := opened_rots S (size Q) in
    ~ at_most (maxn D (size (recombined (dsize (s_d S)) (map op Q)) + size (Poly (s_zh S))).-2) (fun xi =>
      exists2 base, carries base cm Q &
    ~ at_most (size R).-1 (fun x1 =>
    ~ at_most (size (undup R)).-1 (fun x2 => exists2 f_commit, (size (op f_commit) <= B)%N &
    ~ at_most (B + size (flatten R)).-1 (fun x3 => exists2 q_evals, size q_evals = size (undup R) &
    ~ at_most (size (undup R)) (fun x4 => exists pi,
    ~ at_most N (fun tau => ~ at_most 1 (fun secret =>
      let s := srs_of g tau secret in
      verdict (PC := kzg zk_rand cbytes fbytes) env (scripted [:: theta; beta; gamma; alpha; xi; x1; x2; x3; x4]) s
        (elements s S) (sent s (with_opening base (MoProof (PC := algebraic) q_evals f_commit pi))) = Ok tt)))))))).
End Algebraic.
