(** Property theorems C51 (commitment homomorphism) and C53 (transcript). The vocabulary is in
    ModelPC.v (the interfaces) and below; the proofs are in ProofPC.v. *)
From mathcomp Require Import all_ssreflect all_algebra zify.
From Coq Require Import Lia.
From Verif Require Import Base ModelPoly ModelVO ModelOracle ModelPC ModelMultiproof Spec SpecMultiopen ProofBase ProofPoly ProofPC ProofMultiopen.

Set Implicit Arguments.
Unset Strict Implicit.
Unset Printing Implicit Defensive.

Import GRing.Theory.
Local Open Scope ring_scope.

(** ** C51 *)
(** Sums and multiples of KZG10 commitments are commitments to the sums and multiples of the
    polynomials, with the sums and multiples of the randomness; negation and zero behave. *)
Theorem c51_kzg_homomorphic (F : fieldType) (G : lmodType F) (s : kzg_srs G) (p q r t : lpoly F) (c e : G) (a : F) :
  kzg_commit1 s p r = Ok c -> kzg_commit1 s q t = Ok e ->
  [/\ kzg_commit1 s (padd p q) (padd r t) = Ok (c + e),
      kzg_commit1 s (pscale a p) (pscale a r) = Ok (a *: c),
      kzg_commit1 s (pneg p) (pneg r) = Ok (kzg_neg c),
      kzg_commit1 s [::] [::] = Ok 0 &
      c + kzg_neg c = 0 /\ forall x : G, kzg_is_zero x = (x == 0) /\ forall y, kzg_eq x y = (x == y)].
Proof.
move=> Hc He; have L := @kzg_correct F G unit (fun z => (0, z)) (fun _ => [::]) (fun _ => [::]) s.
split.
- exact: (pl_add L Hc He).
- exact: (pl_scale L a Hc).
- move: Hc; rewrite /kzg_commit1 !pdegE Poly_neg size_opp; case: ifP => // _ [<-]; congr Ok.
  by rewrite /kzg_neg /kzg_commit !peval_neg scalerDr !scalerA !mulN1r.
- exact: pl_zero L.
- by rewrite /kzg_neg scaleN1r subrr.
Qed.
Print Assumptions c51_kzg_homomorphic.

(** A linear combination: the multi-scalar product of commitments commits to the combination of the
    polynomials, and opening the combination verifies with the combined value at every point. *)
Theorem c51_kzg_combination (F : fieldType) (G : lmodType F) (s : kzg_srs G) (ts : seq (lpoly F * lpoly F * G)) (xs : seq F) (z : F) :
  (forall t, occurs t ts -> kzg_commit1 s t.1.1 t.1.2 = Ok t.2) -> size xs = size ts ->
  let p := foldl (fun q t => padd q (pscale t.2 t.1.1.1)) [::] (zip ts xs) in
  let r := foldl (fun q t => padd q (pscale t.2 t.1.1.2)) [::] (zip ts xs) in
  let c := kzg_msm [seq t.2 | t <- ts] xs in
  kzg_commit1 s p r = Ok c /\
  exists2 pf, kzg_open s p z r = Ok pf &
    kzg_check s c z (\sum_(t <- zip ts xs) t.2 * peval t.1.1.1 z) pf = Ok true.
Proof.
move=> H E p r c; have L := @kzg_correct F G unit (fun z => (0, z)) (fun _ => [::]) (fun _ => [::]) s.
have Hc : kzg_commit1 s p r = Ok c.
  rewrite /p /r /c /kzg_msm; move: (pl_zero L); rewrite /=; move: E H; clear.
  elim: ts xs [::] {1 3}[::] (0 : G) => [|t ts IH] [|x xs] // p r c; move=> [E] H Hc; rewrite /=.
  apply: IH => //; first by move=> t' Ht'; apply: H; right.
  have L := @kzg_correct F G unit (fun z => (0, z)) (fun _ => [::]) (fun _ => [::]) s.
  apply: (pl_add L) Hc _; apply: (pl_scale L); apply: H; by left.
split=> //; have Ho : exists pf, kzg_open s p z r = Ok pf.
  by move: Hc; rewrite /kzg_commit1 /kzg_open; case: ifP => // _ _; eexists.
have [pf Hpf] := Ho; exists pf => //.
have -> : \sum_(t <- zip ts xs) t.2 * peval t.1.1.1 z = peval p z.
  by rewrite /p (peval_foldl (fun t : lpoly F * lpoly F * G * F => t.1.1.1) (fun t => t.2)) add0r.
exact: (pl_open L Hc Hpf).
Qed.
Print Assumptions c51_kzg_combination.

(** ** C53 *)
(** What a user does with the transcript RNG after initialising it: absorb bytes or draw. *)
Inductive event := Absorb of bytes | Draw.
Section Transcript.
Variables (F : fieldType) (R : Type) (H : bytes -> bytes) (of_seed : bytes -> R) (draw : R -> F * R).
Let FS := simple_hash_rng H of_seed draw.
Definition step (st : fs_state FS) (e : event) : fs_state FS :=
  match e with Absorb b => fs_absorb st b | Draw => (fs_rand st).2 end.
Definition run (b0 : bytes) (es : seq event) : fs_state FS := foldl step (fs_init FS b0) es.
Definition absorbed (es : seq event) : seq bytes :=
  flatten [seq (if e is Absorb b then [:: b] else [::]) | e <- es].
(** The seed a history of absorbed inputs must lead to. *)
Fixpoint seed_of (seed : bytes) (bs : seq bytes) : bytes :=
  match bs with [::] => seed | b :: bs' => seed_of (H (b ++ seed)) bs' end.
End Transcript.

(** The state is determined by the initial input, the inputs absorbed so far and the number of
    draws since the last of them; the seed by the inputs alone. *)
Theorem c53_state_of_history (F : fieldType) (R : Type) (H : bytes -> bytes) (of_seed : bytes -> R) (draw : R -> F * R)
    (b0 : bytes) (es : seq event) :
  let seed := seed_of H (H b0) (absorbed es) in
  (run H of_seed draw b0 es).2 = seed /\
  forall es' n, es = es' ++ nseq n Draw -> (es' = [::] \/ exists es1 b, es' = rcons es1 (Absorb b)) ->
    (run H of_seed draw b0 es).1 = iter n (fun r => (draw r).2) (of_seed seed).
Proof.
have G es1 : (run H of_seed draw b0 es1).2 = seed_of H (H b0) (absorbed es1).
  rewrite /run -[H b0]/(fs_init (simple_hash_rng H of_seed draw) b0).2.
  move: (fs_init _ _); elim: es1 => //= -[b|] l IH st; rewrite IH //.
  by rewrite /= /sh_rand; case: (draw st.1).
have ab l n : absorbed (l ++ nseq n Draw) = absorbed l.
  by rewrite /absorbed map_cat flatten_cat; elim: n => //=; rewrite ?cats0.
move=> seed; split; first exact: G.
move=> es' n Ees Hes'; rewrite Ees /run foldl_cat -/(run H of_seed draw b0 es').
have -> st : (foldl (step (draw:=draw)) st (nseq n Draw)).1 = iter n (fun r => (draw r).2) st.1.
  elim: n {Ees} st => // n IH st; rewrite iterSr -[LHS]/((foldl (step (draw:=draw)) (sh_rand draw st).2 (nseq n Draw)).1) IH.
  by rewrite /sh_rand; case: (draw st.1).
congr (iter n _ _); rewrite /seed Ees ab.
case: Hes' => [->//|[es1 [b ->]]].
by rewrite /run foldl_rcons -/(run H of_seed draw b0 es1) /absorbed map_rcons flatten_rcons -/(absorbed es1) /= /sh_absorb G;
   elim: (absorbed es1) (H b0) => //= x l IH s; rewrite IH.
Qed.
Print Assumptions c53_state_of_history.

(** With digests of a fixed length, longer than the initial input, two different histories that lead
    to the same seed exhibit a collision of the hash. *)
Theorem c53_history_bound (F : fieldType) (R : Type) (H : bytes -> bytes) (of_seed : bytes -> R) (draw : R -> F * R)
    (L : nat) (b0 : bytes) (es es' : seq event) :
  (forall x, size (H x) = L) -> (size b0 < L)%N ->
  (run H of_seed draw b0 es).2 = (run H of_seed draw b0 es').2 -> absorbed es <> absorbed es' ->
  exists x y, x <> y /\ H x = H y.
Proof.
move=> HL Hb.
rewrite (c53_state_of_history H of_seed draw b0 es).1 (c53_state_of_history H of_seed draw b0 es').1.
have sr s bs b : seed_of H s (rcons bs b) = H (b ++ seed_of H s bs) by elim: bs s => //= x l IH s; rewrite IH.
have sz bs : size (seed_of H (H b0) bs) = L.
  by elim/last_ind: bs => [|l b _]; rewrite ?sr HL.
move: (absorbed es) (absorbed es'); elim/last_ind => [|l b IH] l'; elim/last_ind: l' => [|l' b' _] //.
- rewrite sr => E _; exists b0, (b' ++ seed_of H (H b0) l'); split=> //.
  by move=> /(congr1 size); rewrite size_cat sz => E'; move: Hb; rewrite E' ltnNge leq_addl.
- rewrite sr => E _; exists (b ++ seed_of H (H b0) l), b0; split=> //.
  by move=> /(congr1 size); rewrite size_cat sz => E'; move: Hb; rewrite -E' ltnNge leq_addl.
rewrite !sr => E ne; case: (eqVneq (b ++ seed_of H (H b0) l) (b' ++ seed_of H (H b0) l')) => [E2|/eqP ne2]; last by exists (b ++ seed_of H (H b0) l), (b' ++ seed_of H (H b0) l').
have sb : size b = size b'.
  by move: (congr1 size E2); rewrite !size_cat !sz => /addIn.
move/eqP: E2; rewrite eqseq_cat // => /andP[/eqP Eb /eqP Es].
by apply: (IH l') Es _ => El; apply: ne; rewrite El Eb.
Qed.
Print Assumptions c53_history_bound.

(** Without the bound on the initial input the histories can be confused: initialising with the
    seed material of an absorb is the same as absorbing. *)
Theorem c53_init_absorb_confusion (F : fieldType) (R : Type) (H : bytes -> bytes) (of_seed : bytes -> R) (draw : R -> F * R)
    (b0 b : bytes) : run H of_seed draw b0 [:: Absorb b] = run H of_seed draw (b ++ H b0) [::].
Proof. by []. Qed.
Print Assumptions c53_init_absorb_confusion.

(** ** Concrete cases *)
From Coq Require Import NArith String.
From Verif Require Import Field97 Concrete ProofTools ModelProtocol.
Local Close Scope ring_scope.

(** KZG over F_97 with two polynomials, hiding randomness and an opening of 5 p + 6 q at 20. *)
Definition kz_p : lpoly f97_fieldType := col [:: 1; 2; 3]%nat.
Definition kz_q : lpoly f97_fieldType := col [:: 4; 0; 0; 7]%nat.
Definition kz_r : lpoly f97_fieldType := col [:: 9; 8]%nat.
Example ex_c51 : ok_any (kzg_commit1 srs97 kz_p kz_r) /\ ok_any (kzg_commit1 srs97 kz_q [::]) /\
  ok_is (kzg_check srs97 (ok_or (n97 0) (kzg_commit1 srs97 kz_p kz_r)) (n97 20) (n97 77)
    (ok_or (n97 0, None) (kzg_open srs97 kz_p (n97 20) kz_r))) true /\
  ok_is (kzg_check srs97 (ok_or (n97 0) (kzg_commit1 srs97 kz_p kz_r)) (n97 20) (n97 78)
    (ok_or (n97 0, None) (kzg_open srs97 kz_p (n97 20) kz_r))) false.
Proof. by do ![split]; vm_compute. Qed.

(** A "hash" with 32-byte digests; the protocol name is shorter. *)
Example ex_c53 : let H := fun b : bytes => take 32 (b ++ nseq 32 0%nat) in
  (forall x, size (H x) = 32) /\ size PROTOCOL_NAME < 32.
Proof. by split=> [x|]; rewrite ?size_takel ?size_cat ?size_nseq ?leq_addl. Qed.
