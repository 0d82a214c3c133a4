(** Interfaces of the cryptographic components: homomorphic polynomial commitment
    (src/commitment.rs), Fiat-Shamir RNG (src/rng.rs) and the zero-knowledge RNG;
    and the concrete instances KZG10 and SimpleHashFiatShamirRng. Definitions only. *)
From mathcomp Require Import all_ssreflect all_algebra.
From Verif Require Import Base ModelPoly.

Set Implicit Arguments.
Unset Strict Implicit.
Unset Printing Implicit Defensive.

Import GRing.Theory.
Local Open Scope ring_scope.

(** Bytes absorbed by the transcript, src/rng.rs:10-15. *)
Definition bytes := seq nat.

(** Operations of [PolynomialCommitment] + [HomomorphicCommitment] used by the crate:
    src/commitment.rs:10-40. [pc_commit1 ck p r] commits to one polynomial with given
    randomness; [pc_sample] draws the randomness for a hiding bound; [pc_zk_rand] is
    [F::rand(zk_rng)]. Opening and checking are for a single polynomial with opening
    challenge 1, the only way the crate calls them (src/multiproof/piop/mod.rs:150-159, 312-321). *)
Record pcs (F : fieldType) := PCS {
  pc_com : Type;
  pc_rand : Type;
  pc_proof : Type;
  pc_ck : Type;
  pc_vk : Type;
  pc_zk : Type;
  pc_zk_rand : pc_zk -> F * pc_zk;
  pc_sample : option nat -> pc_zk -> pc_rand * pc_zk;
  pc_empty : pc_rand;
  pc_commit1 : pc_ck -> lpoly F -> pc_rand -> res pc_com;
  pc_open : pc_ck -> lpoly F -> F -> pc_rand -> res pc_proof;
  pc_check : pc_vk -> pc_com -> F -> F -> pc_proof -> res bool;
  pc_add : pc_com -> pc_com -> pc_com;
  pc_scale : pc_com -> F -> pc_com;
  pc_zero : pc_com;
  pc_add_rand : pc_rand -> pc_rand -> pc_rand;
  pc_scale_rand : pc_rand -> F -> pc_rand;
  pc_bytes : pc_com -> bytes;
  pc_fbytes : F -> bytes }.

Section Commit.
Variables (F : fieldType) (PC : pcs F).

(** [PC::commit(ck, polys, Some(zk_rng))] (src/turbo_plonk.rs:236-241): one commitment and one randomness per
    labelled polynomial, drawing randomness in order. *)
Fixpoint commit_all (ck : pc_ck PC) (ps : seq (lpoly F * option nat)) (zk : pc_zk PC)
  : res (seq (pc_com PC) * seq (pc_rand PC) * pc_zk PC) :=
  match ps with
  | [::] => Ok ([::], [::], zk)
  | (p, h) :: ps' =>
      let: (r, zk1) := pc_sample h zk in
      c <- pc_commit1 ck p r ;;
      '(cs, rs, zk2) <- commit_all ck ps' zk1 ;;
      Ok (c :: cs, r :: rs, zk2)
  end.

(** [to_bytes![commitments]] (src/turbo_plonk.rs:244): concatenation without a length prefix. LabeledCommitment
    serialises as its commitment. *)
Definition coms_bytes (cs : seq (pc_com PC)) : bytes := flatten (map (@pc_bytes F PC) cs).
(** [to_bytes![q_evals]], src/multiproof/piop/mod.rs:96. *)
Definition fs_bytes (vs : seq F) : bytes := flatten (map (@pc_fbytes F PC) vs).
End Commit.

(** src/rng.rs:10-15: the RNG as seen by the protocol; [fs_rand] is [F::rand(&mut fs_rng)]. *)
Record fsrng (F : fieldType) := FSRng {
  fs_state : Type;
  fs_init : bytes -> fs_state;
  fs_absorb : fs_state -> bytes -> fs_state;
  fs_rand : fs_state -> F * fs_state }.

(** src/rng.rs:19-90, SimpleHashFiatShamirRng over an arbitrary hash [H] and seedable
    generator (type [R] of internal states, [of_seed], [draw]). The state is (r, seed). *)
Section SimpleHash.
Variables (F : fieldType) (R : Type) (H : bytes -> bytes)
          (of_seed : bytes -> R) (draw : R -> F * R).
(** rng.rs:62-75 *)
Definition sh_init (b : bytes) : R * bytes := (of_seed (H b), H b).
(** rng.rs:80-89 *)
Definition sh_absorb (st : R * bytes) (b : bytes) : R * bytes :=
  let seed := H (b ++ st.2) in (of_seed seed, seed).
(** rng.rs:26-52 delegate to the inner RNG. *)
Definition sh_rand (st : R * bytes) : F * (R * bytes) :=
  let: (x, r) := draw st.1 in (x, (r, st.2)).
(** src/rng.rs:19-90 *)
Definition simple_hash_rng : fsrng F :=
  @FSRng F (R * bytes)%type sh_init sh_absorb sh_rand.
End SimpleHash.

(** KZG10 over a group G1 that is a vector space over F (src/commitment.rs:42-117 and the
    arkworks scheme it wraps), in the trapdoor model: the SRS contains [tau^i g] and
    [tau^i gamma g], so committing to (p, blinding r) gives [p(tau) g + r(tau) gamma_g], and
    the pairing check e(C - v g - rv gamma_g, h) = e(w, (tau - z) h) holds iff
    [C - v g - rv gamma_g = (tau - z) w] (non-degenerate pairing). *)
Section KZG.
Variables (F : fieldType) (G : lmodType F).
Variables (Z : Type) (zk_rand : Z -> F * Z).
Variables (cbytes : G -> bytes) (fbytes : F -> bytes).

(** The SRS of [KZG10], src/commitment.rs:42-43; arkworks [sonic_pc] setup and trim. *)
Record kzg_srs := KzgSrs { k_tau : F; k_g : G; k_gamma_g : G; k_max : nat }.

(** Randomness::rand(hiding_bound): a blinding polynomial of degree hiding_bound + 1 (arkworks [kzg10], behind
    src/commitment.rs:42-43). *)
Definition kzg_sample (h : option nat) (zk : Z) : lpoly F * Z :=
  match h with
  | None => ([::], zk)
  | Some b => let: (p, zk') := draw_n zk_rand b.+2 zk in (ptrim p, zk')
  end.
(** arkworks [kzg10::commit], behind src/commitment.rs:42-43. *)
Definition kzg_commit (s : kzg_srs) (p r : lpoly F) : G :=
  peval p (k_tau s) *: k_g s + peval r (k_tau s) *: k_gamma_g s.
(** The same, with its error on a polynomial whose degree exceeds the SRS; called at src/turbo_plonk.rs:237-242. *)
Definition kzg_commit1 (s : kzg_srs) (p r : lpoly F) : res G :=
  if (pdeg p <= k_max s)%N then Ok (kzg_commit s p r) else Err PolynomialCommitmentError.
(** Witness polynomial (p - p(z)) / (X - z), inside the opening of src/multiproof/piop/mod.rs:111-120. *)
Definition kzg_witness (p : lpoly F) (z : F) : lpoly F :=
  ptrim (pdivmod_rec [:: - z; 1] 1 1 p).1.
(** [PC::open], src/multiproof/piop/mod.rs:111-120. The proof is (w, random_v); random_v is absent when there is
    no blinding. *)
Definition kzg_open (s : kzg_srs) (p : lpoly F) (z : F) (r : lpoly F) : res (G * option F) :=
  if (pdeg p <= k_max s)%N then
    Ok (kzg_commit s (kzg_witness p z) (kzg_witness r z),
        if ptrim r is [::] then None else Some (peval r z))
  else Err PolynomialCommitmentError.
(** arkworks [sonic_pc::check], called at src/multiproof/piop/mod.rs:273-286. *)
Definition kzg_check (s : kzg_srs) (c : G) (z v : F) (pf : G * option F) : res bool :=
  let rv := if pf.2 is Some x then x else 0 in
  Ok (c - v *: k_g s - rv *: k_gamma_g s == (k_tau s - z) *: pf.1).

(** src/commitment.rs:71-73 *)
Definition kzg_neg (c : G) : G := (- 1) *: c.
(** src/commitment.rs:54-69; multi_scalar_mul stops at the shorter of the two slices. *)
Definition kzg_msm (cs : seq G) (xs : seq F) : G :=
  foldl (fun acc e => acc + e.2 *: e.1) 0 (zip cs xs).
(** src/commitment.rs:90-92 *)
Definition kzg_is_zero (c : G) : bool := c == 0.
(** src/commitment.rs:94-96 *)
Definition kzg_eq (a b : G) : bool := a == b.

(** src/commitment.rs:75-116 *)
Definition kzg : pcs F :=
  @PCS F G (lpoly F) (G * option F)%type kzg_srs kzg_srs Z
    zk_rand kzg_sample [::] kzg_commit1 kzg_open kzg_check
    (fun a b => a + b) (fun c x => x *: c) 0
    (fun a b => padd a b) (fun r x => pscale x r)
    cbytes fbytes.
End KZG.
