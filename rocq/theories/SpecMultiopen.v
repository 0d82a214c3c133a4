(** Specification of the multi-opening: what is expected of a commitment scheme, public-coin
    challenges, and the prover's oracles next to the verifier's. *)
From mathcomp Require Import all_ssreflect all_algebra.
From Verif Require Import Base ModelPoly ModelVO ModelOracle ModelPC ModelMultiproof Spec SpecProtocol.

Set Implicit Arguments.
Unset Strict Implicit.
Unset Printing Implicit Defensive.

Import GRing.Theory.
Local Open Scope ring_scope.

(** A homomorphic commitment scheme works: sums and multiples of commitments are commitments to
    sums and multiples (with the combined randomness), and openings verify. *)
Record pcs_correct (F : fieldType) (PC : pcs F) (ck : pc_ck PC) (vk : pc_vk PC) : Prop := PcsCorrect {
  pl_zero : pc_commit1 ck [::] (pc_empty PC) = Ok (pc_zero PC);
  pl_add : forall p q r s c e, pc_commit1 ck p r = Ok c -> pc_commit1 ck q s = Ok e ->
    pc_commit1 ck (padd p q) (pc_add_rand r s) = Ok (pc_add c e);
  pl_scale : forall p r c a, pc_commit1 ck p r = Ok c ->
    pc_commit1 ck (pscale a p) (pc_scale_rand r a) = Ok (pc_scale c a);
  pl_open : forall p r c x pf, pc_commit1 ck p r = Ok c -> pc_open ck p x r = Ok pf ->
    pc_check vk c x (peval p x) pf = Ok true }.

(** A commitment scheme is binding for the committed polynomials [op]: [op] respects the homomorphic
    operations, and only true evaluations are accepted. (In the algebraic group model this is what
    an adversary against KZG10 is left with.) *)
Record pcs_binding (F : fieldType) (PC : pcs F) (vk : pc_vk PC) (op : pc_com PC -> {poly F}) : Prop := PcsBinding {
  pb_zero : op (pc_zero PC) = 0;
  pb_add : forall c e, op (pc_add c e) = op c + op e;
  pb_scale : forall c a, op (pc_scale c a) = a *: op c;
  pb_check : forall c x v pf, pc_check vk c x v pf = Ok true -> (op c).[x] = v }.

(** Public coins: the challenges are read from a list, whatever is absorbed. *)
Definition scripted {F : fieldType} (cs : seq F) : fsrng F :=
  @FSRng F (seq F) (fun _ => cs) (fun st _ => st) (fun st => (head 0 st, behead st)).

(** The challenge x3 of a multi-opening proof: drawn after x1, x2 and after absorbing the
    commitment in the proof. *)
Definition x3_of {F : fieldType} {PC : pcs F} {FS : fsrng F} (fs : fs_state FS) (pf : mo_proof PC) : F :=
  (fs_rand (fs_absorb (fs_rand (fs_rand fs).2).2 (pc_bytes (mp_f_commit pf)))).1.

(** The verifier's oracle [v] stands for the prover's [p] with commitment randomness [r]: same
    rotations, a commitment to the same polynomial, and the true value at every opened point. *)
Definition stands_for {F : fieldType} {PC : pcs F} (ck : pc_ck PC) (w xi : F) (v : voracle F (pc_com PC))
    (p : poracle F) (r : pc_rand PC) : Prop :=
  [/\ o_rots v = o_rots p,
      exists2 c, get_commitment v = Ok c & pc_commit1 ck (po_poly p) r = Ok c &
      forall rot, rot \in o_rots p -> answers (rot_point w rot xi) v p].

(** A commitment scheme in which a commitment is the polynomial itself: correct and binding (but
    neither hiding nor short). Only used to show that the hypotheses above can be met. *)
Definition plain {F : fieldType} (Z : Type) (zk_rand : Z -> F * Z) (cbytes : lpoly F -> bytes) (fbytes : F -> bytes) : pcs F :=
  @PCS F (lpoly F) unit unit unit unit Z zk_rand (fun _ z => (tt, z)) tt
    (fun _ p _ => Ok (ptrim p)) (fun _ _ _ _ => Ok tt) (fun _ c x v _ => Ok (peval c x == v))
    (fun a b => padd a b) (fun c x => pscale x c) [::] (fun _ _ => tt) (fun _ _ => tt) cbytes fbytes.

(** Well-formed claims: a commitment is registered, all rotations are in range and give distinct
    points, and some value (any value) is claimed at each of them. *)
Definition well_claimed {F : fieldType} {C : Type} (d : domain F) (xi : F) (v : voracle F C) : Prop :=
  [/\ exists c, get_commitment v = Ok c, all (fun r : rotation => r.1 < dsize d)%N (o_rots v),
      uniq [seq rot_point (dgen d) r xi | r <- o_rots v] &
      forall r, r \in o_rots v -> exists e, vo_query v (rot_point (dgen d) r xi) = Ok e].
