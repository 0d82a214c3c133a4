(** The permutation argument: what its constraints mean row by row, completeness, soundness. *)
From mathcomp Require Import all_ssreflect all_algebra zify.
From Coq Require Import String.
From Verif Require Import ProofVO Base ModelPoly ModelVO ModelOracle ModelPermutation Spec ProofBase ProofPoly ProofDomain
  ProofPermutation ProofIndexer.

Set Implicit Arguments.
Unset Strict Implicit.
Unset Printing Implicit Defensive.

Import GRing.Theory.
Local Open Scope ring_scope.

(** A non-zero polynomial of degree at most [k] has at most [k] roots. *)
Lemma roots_at_most (F : fieldType) (p : {poly F}) k (P : F -> Prop) : p != 0 -> (size p <= k.+1)%N ->
  (forall x, P x -> p.[x] = 0) -> at_most k P.
Proof.
move=> p0 sp HP rs urs H; rewrite -ltnS; apply: leq_trans sp; apply: max_poly_roots => //.
by apply/allP => x /H/HP Hx; apply/eqP.
Qed.

Notation dch := (PChunk [::] 0 0 0 : pchunk _).

Lemma perm_constraints0 (R : comRingType) l0 ql qb beta gamma (cs : seq (pchunk R)) : (0 < size cs)%N ->
  (forall c, c \in perm_constraints l0 ql qb beta gamma cs -> c = 0) <->
  [/\ l0 * (1 - ch_z (nth dch cs 0)) = 0,
      forall k, (k < size cs)%N -> let c := nth dch cs k in
        (1 - (ql + qb)) * (ch_zn c * ch_den beta gamma c - ch_z c * ch_num beta gamma c) = 0,
      forall k, (k.+1 < size cs)%N -> l0 * (ch_z (nth dch cs k.+1) - ch_zu (nth dch cs k)) = 0 &
      let z := ch_z (nth dch cs (size cs).-1) in ql * (z * z - z) = 0].
Proof.
case: cs => // c0 cs _; have El : last c0 cs = nth dch (c0 :: cs) (size (c0 :: cs)).-1 by rewrite nth_last.
rewrite -El; split.
- move=> H; split.
  + by apply: H; rewrite inE eqxx.
  + move=> k Hk c; apply: H; rewrite inE mem_cat; apply/orP; right; apply/orP; left.
    rewrite -(nth_map dch 0 (fun k => (1 - (ql + qb)) * (ch_zn k * ch_den beta gamma k - ch_z k * ch_num beta gamma k))) //.
    by apply: mem_nth; rewrite size_map.
  + move=> k Hk; apply: H; rewrite inE !mem_cat; apply/orP; right; apply/orP; right; apply/orP; left.
    by rewrite -nth_chain //; apply: mem_nth; rewrite size_chain.
  + by apply: H; rewrite inE !mem_cat !inE eqxx !orbT.
- case=> H1 H2 H3 H4 c; rewrite inE !mem_cat => /orP[/eqP->//|/orP[|/orP[|]]].
  + by case/(nthP 0) => k; rewrite size_map => Hk <-; rewrite (nth_map dch) //; apply: H2.
  + move=> Hc; have := nth_index 0 Hc; have Hi := Hc; rewrite -index_mem size_chain in Hi.
    by rewrite nth_chain // => <-; apply: H3.
  + by rewrite inE => /eqP->.
Qed.

(** A product over chunks is a product over the list. *)
Lemma prod_chunks (R : comRingType) A (m : nat) (s : seq A) (g : A -> R) : (0 < m)%N ->
  \prod_(k < size (chunks m s)) \prod_(j <- nth [::] (chunks m s) k) g j = \prod_(j <- s) g j.
Proof.
move=> m0; rewrite -[in RHS](flatten_chunks s m0) big_flatten /= [RHS](big_nth [::]).
by rewrite big_mkord.
Qed.

Lemma perm_chunksE (R : comRingType) (m K : nat) (f g : nat -> R * R * R) (nz := size (chunks m (iota 0 K))) : (0 < m)%N ->
  perm_chunks m (map f (iota 0 K)) (map g (iota 0 nz)) =
  [seq PChunk (map f (nth [::] (chunks m (iota 0 K)) k)) (g k).1.1 (g k).1.2 (g k).2 | k <- iota 0 nz].
Proof.
move=> m0; rewrite /perm_chunks map_chunks //.
have E : zip (map (map f) (chunks m (iota 0 K))) (map g (iota 0 nz)) =
   [seq (map f (nth [::] (chunks m (iota 0 K)) k), g k) | k <- iota 0 nz].
  apply: (@eq_from_nth _ ([::], g 0%N)); first by rewrite size_zip !size_map size_iota minnn.
  move=> k; rewrite size_zip !size_map size_iota minnn => Hk.
  rewrite nth_zip ?size_map ?size_iota // (nth_map [::]) // (nth_map 0%N) ?size_iota //.
  by rewrite (nth_map 0%N) ?size_iota // nth_iota.
by rewrite E -map_comp.
Qed.

Section Rows.
Variable F : fieldType.
Variables (n u m K : nat) (w sg id : nat -> nat -> F) (z : nat -> nat -> F).
Variables (beta gamma : F).
Hypothesis m0 : (0 < m)%N.
Hypothesis un : (u < n)%N.
Let chs := chunks m (iota 0 K).
Let nz := size chs.
Definition cell_num (j i : nat) := w j i + beta * id j i + gamma.
Definition cell_den (j i : nat) := w j i + beta * sg j i + gamma.
Definition ch_numr k i := \prod_(j <- nth [::] chs k) cell_num j i.
Definition ch_denr k i := \prod_(j <- nth [::] chs k) cell_den j i.

Lemma next_row i : (i.+1 < n)%N -> rot_row n next i = i.+1.
Proof. by move=> H; rewrite /rot_row /= addn1 modn_small. Qed.

Lemma size_chs : (0 < K)%N -> (0 < nz)%N.
Proof. by move=> k0; rewrite /nz /chs chunks_cons ?size_iota. Qed.

Lemma perm_rowsP : (0 < K)%N ->
  perm_rows_hold n u m K beta gamma w sg id z <->
  [/\ z 0 0 = 1, forall k i, (k < nz)%N -> (i < u)%N -> z k i.+1 * ch_denr k i = z k i * ch_numr k i,
      forall k, (k.+1 < nz)%N -> z k.+1 0 = z k u & z nz.-1 u * z nz.-1 u - z nz.-1 u = 0].
Proof.
move=> K0; have nz0 := size_chs K0.
pose cs i := perm_chunks m [seq (w j i, sg j i, id j i) | j <- iota 0 K]
        [seq (z j i, z j (rot_row n next i), z j (rot_row n (u, Plus) i)) | j <- iota 0 nz].
have csE i : cs i = [seq PChunk [seq (w j i, sg j i, id j i) | j <- nth [::] chs k] (z k i) (z k (rot_row n next i)) (z k (rot_row n (u, Plus) i)) | k <- iota 0 nz].
  by rewrite /cs perm_chunksE.
have scs i : size (cs i) = nz by rewrite csE size_map size_iota.
have ncs i k : (k < nz)%N -> nth dch (cs i) k = PChunk [seq (w j i, sg j i, id j i) | j <- nth [::] chs k] (z k i) (z k (rot_row n next i)) (z k (rot_row n (u, Plus) i)).
  by move=> Hk; rewrite csE (nth_map 0%N) ?size_iota // nth_iota.
have n0 : (0 < n)%N by apply: leq_ltn_trans un.
have row i : (forall c, c \in perm_constraints (i == 0%N)%:R (i == u)%:R (u < i)%N%:R beta gamma (cs i) -> c = 0) <->
  [/\ (i == 0%N)%:R * (1 - z 0%N i) = 0,
      forall k, (k < nz)%N -> (1 - ((i == u)%:R + (u < i)%N%:R)) * (z k (rot_row n next i) * ch_denr k i - z k i * ch_numr k i) = 0,
      forall k, (k.+1 < nz)%N -> (i == 0%N)%:R * (z k.+1 i - z k (rot_row n (u, Plus) i)) = 0 &
      (i == u)%:R * (z nz.-1 i * z nz.-1 i - z nz.-1 i) = 0].
  rewrite perm_constraints0 scs // !ncs ?prednK //.
  split=> -[H1 H2 H3 H4]; split=> //.
  - by move=> k Hk; have := H2 k Hk; rewrite ncs // /ch_den /ch_num /= !big_map.
  - by move=> k Hk; have := H3 k Hk; rewrite !ncs // ltnW.
  - by move=> k Hk /=; rewrite ncs // /ch_den /ch_num /= !big_map; apply: H2.
  - by move=> k Hk; rewrite !ncs //; [exact: H3|exact: ltnW].
split.
- move=> H; split.
  + by have /row[H1 _ _ _] := H 0%N n0; move/eqP: H1; rewrite mul1r subr_eq0 => /eqP.
  + move=> k i Hk Hi; have lt : (i < n)%N by apply: ltn_trans un.
    have /row[_ H2 _ _] := H i lt; have := H2 k Hk.
    rewrite (ltn_eqF Hi) ltnNge (ltnW Hi) /= addr0 subr0 mul1r next_row ?(leq_ltn_trans Hi un) //.
    by move/eqP; rewrite subr_eq0 => /eqP.
  + move=> k Hk; have /row[_ _ H3 _] := H 0%N n0; have /eqP := H3 k Hk.
    by rewrite mul1r subr_eq0 /rot_row /= add0n modn_small // => /eqP.
  + by have /row[_ _ _ H4] := H u un; move: H4; rewrite eqxx mul1r.
- case=> H1 H2 H3 H4 i Hi; apply/row; split.
  + by case: eqP => [->|_]; rewrite ?H1 ?subrr ?mulr0 ?mul0r.
  + move=> k Hk; case: (ltngtP i u) => [lt|gt|->] /=; last by rewrite addr0 subrr mul0r.
      rewrite addr0 subr0 mul1r next_row ?H2 ?subrr //; exact: leq_ltn_trans un.
    by rewrite add0r subrr mul0r.
  + by move=> k Hk; case: eqP => [->|_]; rewrite ?mul0r // /rot_row /= add0n modn_small // H3 // subrr mulr0.
  + by case: eqP => [->|_]; rewrite ?H4 ?mulr0 ?mul0r.
Qed.

(** The product of all factors. *)
Lemma chain_product : (0 < K)%N ->
  [/\ z 0 0 = 1, forall k i, (k < nz)%N -> (i < u)%N -> z k i.+1 * ch_denr k i = z k i * ch_numr k i &
      forall k, (k.+1 < nz)%N -> z k.+1 0 = z k u] ->
  z nz.-1 u * \prod_(j <- iota 0 K) \prod_(i < u) cell_den j i = \prod_(j <- iota 0 K) \prod_(i < u) cell_num j i.
Proof.
move=> K0 [H1 H2 H3]; have nz0 := size_chs K0.
have col k : (k < nz)%N -> z k u * \prod_(i < u) ch_denr k i = z k 0 * \prod_(i < u) ch_numr k i.
  move=> Hk; suff gen v : (v <= u)%N -> z k v * \prod_(i < v) ch_denr k i = z k 0 * \prod_(i < v) ch_numr k i by exact: gen.
  elim: v => [|v IH] le; first by rewrite !big_ord0.
  by rewrite !big_ord_recr /= mulrA mulrAC H2 // mulrAC IH 1?ltnW // mulrA.
have all k : (k < nz)%N -> z k u * \prod_(l < k.+1) \prod_(i < u) ch_denr l i = \prod_(l < k.+1) \prod_(i < u) ch_numr l i.
  elim: k => [|k IH] Hk; first by rewrite !big_ord1 col // H1 mul1r.
  by rewrite big_ord_recr /= mulrA mulrAC col // H3 // mulrAC IH 1?ltnW // [in RHS]big_ord_recr.
have := all nz.-1; rewrite prednK // => /(_ (leqnn _)).
have E (g : nat -> nat -> F) : \prod_(l < nz) \prod_(i < u) (\prod_(j <- nth [::] chs l) g j i) = \prod_(j <- iota 0 K) \prod_(i < u) g j i.
  rewrite -(prod_chunks _ (fun j => \prod_(i < u) g j i) m0) -/chs -/nz.
  by apply: eq_bigr => l _; rewrite exchange_big.
by rewrite !E.
Qed.
End Rows.

Lemma perm_rows_ext (F : fieldType) n u m K (beta gamma : F) w sg id z w' sg' id' z' :
  (forall j i, (j < K)%N -> [/\ w j i = w' j i, sg j i = sg' j i & id j i = id' j i]) ->
  (forall k i, (k < size (chunks m (iota 0 K)))%N -> z k i = z' k i) ->
  perm_rows_hold n u m K beta gamma w sg id z -> perm_rows_hold n u m K beta gamma w' sg' id' z'.
Proof.
move=> H Hz HP i Hi c Hc; apply: (HP i Hi); move: Hc; congr (c \in perm_constraints _ _ _ _ _ (perm_chunks _ _ _)).
- by apply/eq_in_map => j; rewrite mem_iota /= => Hj; have [-> -> ->] := H j i Hj.
- by apply/eq_in_map => j; rewrite mem_iota /= => Hj; rewrite !Hz.
Qed.

(** The list of cells. *)
Definition cells (k u : nat) : seq (nat * nat) := allpairs pair (iota 0 k) (iota 0 u).
Lemma mem_cells k u c : (c \in cells k u) = is_cell k u c.
Proof.
case: c => j i; rewrite /is_cell /=; apply/allpairsP/idP => [[[j' i'] /= [Hj Hi [-> ->]]]|/andP[Hj Hi]].
  by move: Hj Hi; rewrite !mem_iota /= => -> ->.
by exists (j, i); rewrite !mem_iota.
Qed.
Lemma size_cells k u : size (cells k u) = (k * u)%N.
Proof. by rewrite size_allpairs !size_iota. Qed.
Lemma prod_cells (R : comRingType) k u (g : nat -> nat -> R) :
  \prod_(j <- iota 0 k) \prod_(i < u) g j i = \prod_(c <- cells k u) g c.1 c.2.
Proof.
rewrite /cells big_allpairs_dep /=; apply: eq_bigr => j _.
by rewrite -(big_mkord xpredT (fun i => g j i)) /index_iota subn0.
Qed.
Lemma cells_uniq k u : uniq (cells k u).
Proof. by rewrite allpairs_uniq ?iota_uniq // => -[a b] [c d] _ _ [-> ->]. Qed.

Section Soundness.
Variable F : fieldType.
Add Field Ffield : (F_field_theory F).
Variables (n u m K : nat) (w sg id : nat -> nat -> F) (tau : nat * nat -> nat * nat).
Hypothesis m0 : (0 < m)%N.
Hypothesis un : (u < n)%N.
Hypothesis id_inj : forall c c', is_cell K u c -> is_cell K u c' -> id c.1 c.2 = id c'.1 c'.2 -> c = c'.
Hypothesis tau_cell : forall c, is_cell K u c -> is_cell K u (tau c).
Hypothesis sgE : forall c, is_cell K u c -> sg c.1 c.2 = id (tau c).1 (tau c).2.
Variable bad : nat * nat.
Hypothesis bad_cell : is_cell K u bad.
Hypothesis violated : w bad.1 bad.2 <> w (tau bad).1 (tau bad).2.

Definition bad_betas : seq F :=
  [seq (w c.1 c.2 - w bad.1 bad.2) / (id (tau bad).1 (tau bad).2 - id c.1 c.2) | c <- cells K u].

Let num (beta : F) : {poly F} := \prod_(a <- [seq - (w c.1 c.2 + beta * id c.1 c.2) | c <- cells K u]) ('X - a%:P).
Let den (beta : F) : {poly F} := \prod_(a <- [seq - (w c.1 c.2 + beta * sg c.1 c.2) | c <- cells K u]) ('X - a%:P).

Lemma num_den_neq beta : beta \notin bad_betas -> num beta - den beta != 0.
Proof.
move=> nb; rewrite subr_eq0; apply/eqP => E.
pose g := - (w bad.1 bad.2 + beta * sg bad.1 bad.2).
have : root (den beta) g by rewrite root_prod_XsubC; apply: (map_f (fun c => - (w c.1 c.2 + beta * sg c.1 c.2))); rewrite mem_cells.
rewrite -E root_prod_XsubC.
case/mapP => c; rewrite mem_cells => Hc /eqP; rewrite /g eqr_opp (sgE bad_cell).
case: (eqVneq c (tau bad)) => [->|ne].
  by rewrite (inj_eq (addIr _)) => /eqP.
move=> Eq; case/negP: nb; apply/mapP; exists c; first by rewrite mem_cells.
have nid : id (tau bad).1 (tau bad).2 - id c.1 c.2 != 0.
  by rewrite subr_eq0; apply: contraNneq ne => Ei; rewrite (id_inj _ _ Ei) // tau_cell.
apply: (mulIf nid); rewrite divfK // mulrBr.
move/eqP: Eq; move: (w _ _) (w _ _) (beta * _) (beta * _) => a b x y Eq.
by have -> : a = b + y - x by [rewrite Eq addrK]; f_conv F; ring.
Qed.

Lemma horner_num beta x : (num beta).[x] = \prod_(c <- cells K u) (w c.1 c.2 + beta * id c.1 c.2 + x).
Proof. by rewrite horner_prod big_map; apply: eq_bigr => c _; rewrite hornerXsubC opprK addrC. Qed.
Lemma horner_den beta x : (den beta).[x] = \prod_(c <- cells K u) (w c.1 c.2 + beta * sg c.1 c.2 + x).
Proof. by rewrite horner_prod big_map; apply: eq_bigr => c _; rewrite hornerXsubC opprK addrC. Qed.

Lemma perm_sound : at_most (K * u) (fun beta : F => ~ at_most (2 * (K * u))
   (fun gamma => exists z, perm_rows_hold n u m K beta gamma w sg id z)).
Proof.
have K0 : (0 < K)%N by case/andP: bad_cell; case: (K).
move=> s us Hs; rewrite -size_cells -(size_map (fun c => (w c.1 c.2 - w bad.1 bad.2) / (id (tau bad).1 (tau bad).2 - id c.1 c.2))) -/bad_betas.
apply: uniq_leq_size => // beta /Hs nb; case Hb: (beta \in bad_betas) => //; case: nb.
move/negbT: Hb => nb.
have P0 : num beta * (num beta - den beta) != 0.
  by rewrite mulf_neq0 ?num_den_neq // monic_neq0 // monic_prod_XsubC.
have sn : size (num beta) = (K * u).+1 by rewrite size_prod_XsubC size_map size_cells.
have sd : size (den beta) = (K * u).+1 by rewrite size_prod_XsubC size_map size_cells.
apply: (roots_at_most P0) => [|gamma [z /(perm_rowsP _ _ _ _ _ _ m0 un K0)[H1 H2 H3 H4]]].
  apply: leq_trans (size_mul_leq _ _) _.
  have : (size (num beta - den beta)%R <= (K * u).+1)%N.
    by apply: leq_trans (size_add _ _) _; rewrite size_opp sn sd maxnn.
  by rewrite sn; move: (size _) => x; lia.
have := chain_product m0 K0 (And3 H1 H2 H3); rewrite !prod_cells.
rewrite /cell_num /cell_den -horner_num -horner_den => E.
apply/eqP; rewrite hornerM hornerD hornerN mulf_eq0 subr_eq0.
move/eqP: H4; rewrite subr_eq0; set zl := z _ _ in E *.
rewrite -{3}[zl]mul1r -subr_eq0 -mulrBl mulf_eq0 subr_eq0 => /orP[/eqP zl1|/eqP zl0].
  by rewrite -E zl1 mul1r eqxx orbT.
by rewrite -E zl0 mul0r eqxx.
Qed.
End Soundness.

Lemma mem_occurs_nth A (s : seq A) a0 j : (j < size s)%N -> occurs (nth a0 s j) s.
Proof. by elim: s j => [|a s IH] [|j] //= H; [left|right; apply: IH]. Qed.

Section Completeness.
Variable F : fieldType.
Variable env : fenv F.
Variable Z : Type.
Variable zk_rand : Z -> F * Z.
Variables (d ext : domain F) (beta gamma : F).
Let po0 : poracle F := Oracle EmptyString [::] (PData Witness [::] [::] None false).

Section Cols.
Variables (W S : nat -> poracle F) (D : nat -> F).
Let w j i := (po_evals (W j))`_i.
Let sg j i := (po_evals (S j))`_i.
Let id j i := D j * dgen d ^+ i.
Let num c i := \prod_(j <- c) cell_num w id beta gamma j i.
Let den c i := \prod_(j <- c) cell_den w sg beta gamma j i.

Lemma gp_rowE c i : (forall j, j \in c -> (i < size (po_evals (W j)))%N && (i < size (po_evals (S j)))%N) ->
  gp_row [seq po_evals (W j) | j <- c] [seq po_evals (S j) | j <- c] (map D c) beta gamma (element d i) i =
  Ok (num c i, den c i).
Proof.
rewrite /gp_row => H; set f := fun acc _ => _.
suff gen a b : rfoldM f (a, b) (zip (zip [seq po_evals (W j) | j <- c] [seq po_evals (S j) | j <- c]) (map D c)) =
   Ok (a * num c i, b * den c i) by rewrite gen !mul1r.
elim: c H a b => [|j c IH] H a b; first by rewrite /num /den !big_nil !mulr1.
have /andP[H1 H2] := H j (mem_head _ _).
rewrite /= {1}/f /= (idx_nth 0 H1) /= (idx_nth 0 H2) /= IH; last by move=> k Hk; apply: H; rewrite inE Hk orbT.
by rewrite /num /den !big_cons !mulrA /cell_num /cell_den /id /w /sg /element !mulrA.
Qed.

Lemma gp_rowsP c k l z : (forall i j, (i < k + l)%N -> j \in c -> (i < size (po_evals (W j)))%N && (i < size (po_evals (S j)))%N) ->
  if [forall t : 'I_l, den c (k + t) != 0] then
  exists2 zs, gp_rows d [seq po_evals (W j) | j <- c] [seq po_evals (S j) | j <- c] (map D c) beta gamma (iota k l) z = Ok zs &
   size zs = l /\ forall t, (t < l)%N -> (z :: zs)`_t.+1 * den c (k + t) = (z :: zs)`_t * num c (k + t)
  else gp_rows d [seq po_evals (W j) | j <- c] [seq po_evals (S j) | j <- c] (map D c) beta gamma (iota k l) z = Panic PUnwrap.
Proof.
elim: l k z => [|l IH] k z H.
  by case: ifP => [_|/forallP[]]; [exists [::]|case].
rewrite /= gp_rowE /=; last by move=> j Hj; apply: H => //; rewrite addnS ltnS leq_addr.
rewrite /finv; case: (eqVneq (den c k) 0) => [E|nz] /=.
  by case: forallP => // /(_ ord0); rewrite addn0 E eqxx.
have {}IH := IH k.+1 (z * (num c k * (den c k)^-1)); rewrite addSnnS in IH.
move: (IH H); case: ifP => [/forallP Hl|/negbT/forallPn[t Ht]] E.
  case: E => zs -> [szs Hr]; case: ifP => [_|/negbT/forallPn[t]].
    exists (z * (num c k / den c k) :: zs) => //; split; first by rewrite /= szs.
    case=> [_|t Ht]; first by rewrite addn0 /= -mulrA divfK.
    by rewrite -addSnnS; apply: Hr.
  by case: (unliftP ord0 t) => [s|] ->; rewrite ?addn0 ?nz // -addSnnS Hl.
rewrite E; case: forallP => // /(_ (lift ord0 t)); rewrite /= /bump /= add1n -addSnnS => H1.
by rewrite H1 in Ht.
Qed.

(** One grand product. *)
Definition z_column (u : nat) (c : seq nat) (init : F) (z : poracle F) : Prop :=
  [/\ interpolates d z, compute_extended_evals env ext z = z, (po_evals z)`_0 = init,
      forall t, (t < u)%N -> den c t != 0 &
      forall t, (t < u)%N -> (po_evals z)`_t.+1 * den c t = (po_evals z)`_t * num c t].

Lemma gp_construct_inv k is_last init c u zk z zk' : (u < dsize d)%N ->
  (forall i j, (i < u)%N -> j \in c -> (i < size (po_evals (W j)))%N && (i < size (po_evals (S j)))%N) ->
  gp_construct_agg_poly env zk_rand k is_last init (map S c) (map W c) (map D c) beta gamma u d ext zk = Ok (z, zk') ->
  z_column u c init z /\ (o_rots z = if is_last then [:: curr; next] else sinsert rot_lt (u, Plus) [:: curr; next]).
Proof.
move=> un H; rewrite /gp_construct_agg_poly -!map_comp.
have := @gp_rowsP c 0 u init H; case: ifP => [/forallP nz|_ -> //] [zs -> [szs Hr]] /=.
move=> H1; have [t1 /usub_ok[n1 E1] H2] := rbind_ok H1; have [t /usub_ok[n2 E2] H3] := rbind_ok H2.
move: H3; case: draw_n => blind zk1 /= H3; have [_ /rassert_ok/eqP E H4] := rbind_ok H3.
case: H4 => <- _; split=> //; split=> //.
  by move=> t' Ht'; exact: (nz (Ordinal Ht')).
move=> i Hi; rewrite /po_evals /= -cat_cons.
have nc j : (j <= u)%N -> ((init :: zs) ++ blind)`_j = (init :: zs)`_j.
  by move=> Hj; rewrite nth_cat /= szs ltnS Hj.
rewrite -[(zs ++ blind)`_i]/(((init :: zs) ++ blind)`_i.+1) (nc i.+1) // (nc i (ltnW Hi)); exact: Hr.
Qed.

Lemma gp_construct_ok k is_last init c u zk : (u < dsize d)%N ->
  (forall i j, (i < u)%N -> j \in c -> (i < size (po_evals (W j)))%N && (i < size (po_evals (S j)))%N) ->
  (forall t, (t < u)%N -> den c t != 0) ->
  exists z zk', gp_construct_agg_poly env zk_rand k is_last init (map S c) (map W c) (map D c) beta gamma u d ext zk = Ok (z, zk').
Proof.
move=> un H nz; rewrite /gp_construct_agg_poly -!map_comp.
have := @gp_rowsP c 0 u init H; case: forallP => [_|[]]; last by move=> t; apply: nz; exact: ltn_ord.
case=> zs -> [szs _] /=; have n0 : (0 < dsize d)%N by apply: leq_ltn_trans un.
have le : (u <= dsize d - 1)%N by rewrite -ltnS subn1 prednK.
rewrite /usub n0 /= le /=.
have sz n (x : Z) : size (draw_n zk_rand n x).1 = n.
  elim: n x => [|n IH] x //=; case: (zk_rand x) => y x1; have := IH x1; by case: (draw_n zk_rand n x1) => ys x2 /= ->.
have := sz (dsize d - 1 - u)%N zk; case: (draw_n _ _ _) => blind zk1 /= sb.
have -> : (size (zs ++ blind)).+1 == dsize d by rewrite size_cat szs sb subnKC // subn1 prednK.
by eexists; eexists.
Qed.

Variable pa : permutation_argument F.
Let u := pa_usable_rows pa.
Definition z_init (pr : option (poracle F)) : F := if pr is Some z then (po_evals z)`_u else 1.

Lemma loop_inv i pr (cs : seq (seq nat)) zk zs zk' : (u < dsize d)%N ->
  (forall i c j, (i < u)%N -> c \in cs -> j \in c -> (i < size (po_evals (W j)))%N && (i < size (po_evals (S j)))%N) ->
  construct_agg_polys_loop env zk_rand pa beta gamma d ext i pr [seq (map W c, map S c, map D c) | c <- cs] zk = Ok (zs, zk') ->
  size zs = size cs /\ forall k, (k < size cs)%N ->
    z_column u (nth [::] cs k) (if k is k'.+1 then (po_evals (nth po0 zs k'))`_u else z_init pr) (nth po0 zs k) /\
    o_rots (nth po0 zs k) = if k.+1 == size cs then [:: curr; next] else sinsert rot_lt (u, Plus) [:: curr; next].
Proof.
move=> un; elim: cs i pr zk zs zk' => [|c cs IH] i pr zk zs zk' H /=; first by case=> <-.
move=> H1; have [init Hi H2] := rbind_ok H1; have [[z zk1] Hz H3] := rbind_ok H2.
have Ei : init = z_init pr.
  by case: pr Hi {H1 IH} => [p|] /=; [move=> Hp; rewrite (idx_ok_nth 0 Hp)|case].
have [[zs1 zk2] Hl [<- _]] := rbind_ok H3.
have [Hc Hr] := gp_construct_inv un (fun i j Hi Hj => H i c j Hi (mem_head _ _) Hj) Hz.
have [|szs Hk] := IH _ _ _ _ _ _ Hl; first by move=> i' c' j' Hi' Hc' Hj'; apply: (H i' c') => //; rewrite inE Hc' orbT.
split=> [|[_|k]] /=; first by rewrite szs.
  by rewrite -Ei; split=> //; rewrite Hr eqSS; case: (cs).
rewrite ltnS => Hlt; have [A B] := Hk k Hlt; split; last by rewrite B.
by case: k A {B Hlt} => //=.
Qed.

Lemma loop_ok i pr (cs : seq (seq nat)) zk : (u < dsize d)%N ->
  (if pr is Some z then size (po_evals z) = dsize d else True) ->
  (forall i c j, (i < u)%N -> c \in cs -> j \in c -> (i < size (po_evals (W j)))%N && (i < size (po_evals (S j)))%N) ->
  (forall c t, c \in cs -> (t < u)%N -> den c t != 0) ->
  exists zs zk', construct_agg_polys_loop env zk_rand pa beta gamma d ext i pr [seq (map W c, map S c, map D c) | c <- cs] zk = Ok (zs, zk').
Proof.
move=> un; elim: cs i pr zk => [|c cs IH] i pr zk Hpr H nz /=; first by exists [::], zk.
have [init ->] : exists init, match pr with Some z => idx (po_evals z) (pa_usable_rows pa) | None => Ok 1 end = Ok init.
  by case: pr Hpr => [z|] E; [exists (po_evals z)`_u; apply: idx_nth; rewrite E|exists 1].
rewrite /=.
have Hc i' j : (i' < u)%N -> j \in c -> (i' < size (po_evals (W j)))%N && (i' < size (po_evals (S j)))%N.
  by move=> Hi' Hj; apply: (H i' c) => //; rewrite mem_head.
have [z [zk1 E]] := @gp_construct_ok i (nilp [seq (map W c, map S c, map D c) | c <- cs]) init c u zk un Hc (fun t => nz c t (mem_head _ _)).
rewrite E /=; have [[[Sz _] _ _ _ _] _] := gp_construct_inv un Hc E.
have [|||zs [zk2 ->]] := IH i.+1 (Some z) zk1 => //.
- by move=> i' c' j' Hi' Hc' Hj'; apply: (H i' c') => //; rewrite inE Hc' orbT.
- by move=> c' t' Hc' Ht'; apply: nz => //; rewrite inE Hc' orbT.
by exists (z :: zs), zk2.
Qed.
End Cols.

(** The columns of a circuit. *)
Variable pa : permutation_argument F.
Variables (ws sigmas : seq (poracle F)).
Let u := pa_usable_rows pa.
Let m := pa_max_cols pa.
Let K := size ws.
Let W j := nth po0 ws j.
Let S j := nth po0 sigmas j.
Let D j := (pa_deltas pa)`_j.
Let w j i := (po_evals (W j))`_i.
Let sg j i := (po_evals (S j))`_i.
Let id j i := D j * dgen d ^+ i.

Hypothesis un : (u < dsize d)%N.
Hypothesis sws : forall j, (j < K)%N -> (u <= size (po_evals (W j)))%N.
Hypothesis ssg : forall j, (j < K)%N -> (u <= size (po_evals (S j)))%N.

Lemma chunk_sub c j : c \in chunks m (iota 0 K) -> j \in c -> (j < K)%N.
Proof.
case m0: (0 < m)%N.
  move=> Hc Hj; have : j \in iota 0 K by rewrite -(flatten_chunks (iota 0 K) m0); apply/flattenP; exists c.
  by rewrite mem_iota.
move: m0; rewrite lt0n => /negbFE/eqP->.
rewrite /chunks; move: (iota 0 K) => l; move: (size l) => f.
elim: f l => [|f IH] [|a s] //=.
by rewrite inE => /orP[/eqP->//|]; apply: IH.
Qed.

Lemma zip_chunks : size sigmas = K -> size (pa_deltas pa) = K -> (0 < m)%N ->
  zip (zip (chunks m ws) (chunks m sigmas)) (chunks m (pa_deltas pa)) =
  [seq (map W c, map S c, map D c) | c <- chunks m (iota 0 K)].
Proof.
move=> s1 s2 m0.
have E A (a0 : A) (s : seq A) : size s = K -> chunks m s = map (map (nth a0 s)) (chunks m (iota 0 K)).
  by move=> <-; rewrite -map_chunks // -/(mkseq _ _) mkseq_nth.
rewrite (E _ po0 ws) // (E _ po0 sigmas) // (E _ 0 (pa_deltas pa)) //.
by elim: (chunks m (iota 0 K)) => //= c cs ->.
Qed.

(** Whenever the prover's construction succeeds, all constraints hold on all rows. *)
Lemma construct_agg_inv zk zs zk' :
  construct_agg_polys env zk_rand pa ws sigmas beta gamma d ext zk = Ok (zs, zk') ->
  let z k i := (po_evals (nth po0 zs k))`_i in
  [/\ size zs = size (chunks m (iota 0 K)), (0 < m)%N,
      forall k, (k < size zs)%N -> [/\ interpolates d (nth po0 zs k), compute_extended_evals env ext (nth po0 zs k) = nth po0 zs k &
        o_rots (nth po0 zs k) = if k.+1 == size zs then [:: curr; next] else sinsert rot_lt (u, Plus) [:: curr; next]],
      perm_rows_hold (dsize d) u m K beta gamma w sg id z & (0 < K)%N /\
      forall c, is_cell K u c -> w c.1 c.2 + beta * sg c.1 c.2 + gamma != 0].
Proof.
move=> H z; have [_ /rassert_ok/eqP E1 H1] := rbind_ok H; have [_ /rassert_ok/eqP E2 H2] := rbind_ok H1.
move: H2; rewrite /chunksR; case: eqP => //= /eqP m0; rewrite -lt0n in m0 => H2.
have [[zs1 zk1] Hl H3] := rbind_ok H2.
rewrite -/m zip_chunks // in Hl.
have [|szs Hz] := loop_inv un _ Hl.
  by move=> i c j Hi Hc Hj; have Hk := chunk_sub Hc Hj; rewrite !(leq_trans Hi) ?sws ?ssg.
have [zl Hzl H4] := rbind_ok H3; have [e He H5] := rbind_ok H4; have [_ /rassert_ok/eqP e1 [E _]] := rbind_ok H5.
have {}Hzl : (0 < size zs1)%N /\ zl = nth po0 zs1 (size zs1).-1.
  by case: (zs1) Hzl => //= a l [<-]; rewrite -[size l]/(size (a :: l)).-1 nth_last.
case: Hzl => z0 Ezl; rewrite -E in z *; rewrite szs in z0 Ezl *.
have K0 : (0 < K)%N by case: (K) z0 => //=; rewrite chunks_nil.
split=> //; first by move=> k Hk; have [[]] := Hz k Hk.
  apply/perm_rowsP => //; split.
  - by have [[_ _ ]] := Hz 0%N z0.
  - by move=> k i Hk Hi; have [[_ _ _ _ Hr] _] := Hz k Hk; apply: Hr.
  - by move=> k Hk; have [[_ _ Hi _ _] _] := Hz k.+1 Hk; rewrite /z Hi.
  - rewrite -/(z _ _); have -> : z (size (chunks m (iota 0 K))).-1 u = 1; last by rewrite mulr1 subrr.
    by rewrite /z -Ezl -e1 (idx_ok_nth 0 He).
split=> // -[j i] /andP[/= Hj Hi].
have : j \in flatten (chunks m (iota 0 K)) by rewrite flatten_chunks ?mem_iota.
case/flattenP => c Hc Hjc; have := nth_index [::] Hc; rewrite -index_mem in Hc.
have [[_ _ _ nd _] _] := Hz _ Hc; move=> E'; rewrite E' in nd.
by have := nd i Hi; rewrite prodf_seq_neq0 => /allP/(_ j Hjc).
Qed.

Definition num_prod := \prod_(j < K) \prod_(i < u) (w j i + beta * id j i + gamma).
Definition den_prod := \prod_(j < K) \prod_(i < u) (w j i + beta * sg j i + gamma).
Lemma prod_iota (g : nat -> F) k : \prod_(j < k) g j = \prod_(j <- iota 0 k) g j.
Proof. by rewrite -(big_mkord xpredT g) /index_iota subn0. Qed.
Lemma loop_product zs i zk zk' : (0 < m)%N -> (0 < K)%N ->
  construct_agg_polys_loop env zk_rand pa beta gamma d ext i None [seq (map W c, map S c, map D c) | c <- chunks m (iota 0 K)] zk = Ok (zs, zk') ->
  (po_evals (nth po0 zs (size zs).-1))`_u * den_prod = num_prod.
Proof.
move=> m0 K0 E.
have Hc i' c j : (i' < u)%N -> c \in chunks m (iota 0 K) -> j \in c ->
   (i' < size (po_evals (W j)))%N && (i' < size (po_evals (S j)))%N.
  by move=> Hi Hc Hj; have Hk := chunk_sub Hc Hj; rewrite !(leq_trans Hi) ?sws ?ssg.
have [szs Hz] := loop_inv un Hc E.
have z0 : (0 < size zs)%N by rewrite szs chunks_cons ?size_iota.
pose z k i := (po_evals (nth po0 zs k))`_i; rewrite -/(z _ _).
have := @chain_product F u m K w sg id z beta gamma m0 K0; rewrite -szs /num_prod /den_prod.
rewrite (prod_iota (fun j => \prod_(i < u) (w j i + beta * sg j i + gamma))).
rewrite (prod_iota (fun j => \prod_(i < u) (w j i + beta * id j i + gamma))); apply; split.
- by have [|[_ _ ]] := Hz 0%N; rewrite -?szs.
- by rewrite szs => k t Hk Ht; have [[_ _ _ _ Hr] _] := Hz k Hk; apply: Hr.
- by rewrite szs => k Hk; have [[_ _ Hi _ _] _] := Hz k.+1 Hk; rewrite /z Hi.
Qed.

(** When it succeeds, the two products over all cells agree. *)
Lemma construct_agg_products zk zs zk' :
  construct_agg_polys env zk_rand pa ws sigmas beta gamma d ext zk = Ok (zs, zk') -> num_prod = den_prod.
Proof.
move=> H; have [_ _ _ _ [K0 _]] := construct_agg_inv H.
have [_ /rassert_ok/eqP E1 H1] := rbind_ok H; have [_ /rassert_ok/eqP E2 H2] := rbind_ok H1.
move: H2; rewrite /chunksR; case: eqP => //= /eqP m0; rewrite -lt0n in m0 => H2.
have [[zs1 zk1] Hl H3] := rbind_ok H2.
rewrite -/m zip_chunks // in Hl.
have [zl Hzl H4] := rbind_ok H3; have [e He H5] := rbind_ok H4; have [_ /rassert_ok/eqP e1 _] := rbind_ok H5.
have Ezl : zl = nth po0 zs1 (size zs1).-1.
  by case: (zs1) Hzl => //= a l [<-]; rewrite -[size l]/(size (a :: l)).-1 nth_last.
by rewrite -(loop_product m0 K0 Hl) -Ezl -(idx_ok_nth 0 He) e1 mul1r.
Qed.

(** When they agree and no denominator is zero, it succeeds. *)
Hypothesis K0 : (0 < K)%N.
Hypothesis m0 : (0 < m)%N.
Hypothesis ssig : size sigmas = K.
Hypothesis sdel : size (pa_deltas pa) = K.
Hypothesis products : num_prod = den_prod.
Hypothesis nonzero : forall c, is_cell K u c -> w c.1 c.2 + beta * sg c.1 c.2 + gamma != 0.

Lemma construct_agg_ok zk : exists zs zk',
  construct_agg_polys env zk_rand pa ws sigmas beta gamma d ext zk = Ok (zs, zk').
Proof.
rewrite /construct_agg_polys ssig sdel eqxx /= /chunksR -/m (gtn_eqF m0) /= zip_chunks //.
have Hc i c j : (i < u)%N -> c \in chunks m (iota 0 K) -> j \in c ->
   (i < size (po_evals (W j)))%N && (i < size (po_evals (S j)))%N.
  by move=> Hi Hc Hj; have Hk := chunk_sub Hc Hj; rewrite !(leq_trans Hi) ?sws ?ssg.
have [|zs [zk' E]] := @loop_ok W S D pa 0 None (chunks m (iota 0 K)) zk un I Hc.
  move=> c t Hcc Ht; rewrite prodf_seq_neq0; apply/allP => j Hj; apply/implyP => _.
  by apply: (nonzero (c := (j, t))); rewrite /is_cell /= Ht (chunk_sub Hcc Hj).
rewrite E /=; have [szs Hz] := loop_inv un Hc E.
have z0 : (0 < size zs)%N by rewrite szs chunks_cons ?size_iota.
have -> : last_unwrap zs = Ok (nth po0 zs (size zs).-1).
  by case: (zs) z0 => //= a l _; rewrite -[size l]/(size (a :: l)).-1 nth_last.
rewrite /= (idx_nth 0) /=; last first.
  by have [|[[-> _] _ _ _ _] _] := Hz (size zs).-1; rewrite ?szs ?prednK // -szs.
set zl := (X in rassert (X == 1)).
suff -> : zl = 1 by rewrite eqxx; exists zs, zk'.
have nd : den_prod != 0.
  apply/prodf_neq0 => j _; apply/prodf_neq0 => i _.
  by apply: (nonzero (c := (nat_of_ord j, nat_of_ord i))); rewrite /is_cell /= !ltn_ord.
by apply: (mulIf nd); rewrite mul1r (loop_product m0 K0 E).
Qed.
End Completeness.

(** Copies that hold make the two products agree. *)
Lemma copies_products (F : fieldType) K u (w sg id : nat -> nat -> F) (beta gamma : F) (tau : nat * nat -> nat * nat) :
  (forall c, is_cell K u c -> is_cell K u (tau c)) ->
  (forall c c', is_cell K u c -> is_cell K u c' -> tau c = tau c' -> c = c') ->
  (forall c, is_cell K u c -> sg c.1 c.2 = id (tau c).1 (tau c).2) ->
  (forall c, is_cell K u c -> w c.1 c.2 = w (tau c).1 (tau c).2) ->
  \prod_(j < K) \prod_(i < u) (w j i + beta * id j i + gamma) = \prod_(j < K) \prod_(i < u) (w j i + beta * sg j i + gamma).
Proof.
move=> tau_cell tau_inj sgE copies.
rewrite (prod_iota (fun j => \prod_(i < u) (w j i + beta * id j i + gamma))) (prod_iota (fun j => \prod_(i < u) (w j i + beta * sg j i + gamma))).
rewrite (prod_cells _ _ (fun j i => w j i + beta * id j i + gamma)) (prod_cells _ _ (fun j i => w j i + beta * sg j i + gamma)).
have Et : perm_eq (map tau (cells K u)) (cells K u).
  apply: uniq_perm; first by rewrite map_inj_in_uniq ?cells_uniq // => c c'; rewrite !mem_cells; exact: tau_inj.
    exact: cells_uniq.
  have sub : {subset map tau (cells K u) <= cells K u}.
    by move=> c /mapP[c' Hc' ->]; move: Hc'; rewrite !mem_cells; exact: tau_cell.
  have [||_ E'] := uniq_min_size _ sub.
  - by rewrite map_inj_in_uniq ?cells_uniq // => c c'; rewrite !mem_cells; exact: tau_inj.
  - by rewrite size_map.
  - exact: E'.
rewrite -[LHS](perm_big _ Et) /= big_map; apply: eq_big_seq => c; rewrite mem_cells => Hc'.
by rewrite (sgE _ Hc') -(copies _ Hc').
Qed.

(** ** In terms of [cell_value]. *)
Section Cells.
Variable F : fieldType.
Variables (env : fenv F) (Z : Type) (zk_rand : Z -> F * Z) (d ext : domain F).
Variables (pa : permutation_argument F) (ws sigmas : seq (poracle F)) (beta gamma : F).
Let po0 : poracle F := Oracle EmptyString [::] (PData Witness [::] [::] None false).
Let u := pa_usable_rows pa.
Let k := size ws.
Let w := cell_value ws.
Let sigma := cell_value sigmas.
Let id j i := (pa_deltas pa)`_j * dgen d ^+ i.

Lemma cell_value_nth (os : seq (poracle F)) j i : cell_value os j i = (po_evals (nth po0 os j))`_i.
Proof.
rewrite /cell_value; case: (ltnP j (size os)) => H; first by rewrite (idx_nth po0).
by rewrite idx_oob // [nth po0 os j]nth_default //= nth_nil.
Qed.

Hypothesis un : (u < dsize d)%N.
Hypothesis Hsz : forall o, occurs o ws \/ occurs o sigmas -> size (po_evals o) = dsize d.
Lemma sws_of j : (j < k)%N -> (u <= size (po_evals (nth po0 ws j)))%N.
Proof. by move=> Hj; rewrite Hsz 1?ltnW //; left; apply: mem_occurs_nth. Qed.
Lemma ssg_of : size sigmas = k -> forall j, (j < k)%N -> (u <= size (po_evals (nth po0 sigmas j)))%N.
Proof. by move=> E j Hj; rewrite Hsz 1?ltnW //; right; apply: mem_occurs_nth; rewrite E. Qed.

Lemma construct_agg_rows zk zs zk' :
  construct_agg_polys env zk_rand pa ws sigmas beta gamma d ext zk = Ok (zs, zk') ->
  [/\ size zs = size (chunks (pa_max_cols pa) ws), (0 < pa_max_cols pa)%N /\ (0 < k)%N,
      forall z, occurs z zs -> interpolates d z,
      perm_rows_hold (dsize d) u (pa_max_cols pa) k beta gamma w sigma id (cell_value zs) &
      forall c, is_cell k u c -> w c.1 c.2 + beta * sigma c.1 c.2 + gamma != 0].
Proof.
move=> H; have [_ /rassert_ok/eqP/esym ss _] := rbind_ok H.
have [szs m0 Hz Hr [k0 Hn]] := construct_agg_inv un sws_of (ssg_of ss) H; split=> //.
- by rewrite szs !size_chunks // size_iota.
- move=> z /occurs_nth[i Hi Ez]; rewrite -(Ez po0); by have [] := Hz i Hi.
- apply: perm_rows_ext Hr => [j i Hj|j i Hj]; last by rewrite cell_value_nth.
  by split; rewrite ?/w ?/sigma ?cell_value_nth.
- by move=> c Hc; rewrite /w /sigma !cell_value_nth; apply: Hn.
Qed.

Let num_c := \prod_(j < k) \prod_(i < u) (w j i + beta * id j i + gamma).
Let den_c := \prod_(j < k) \prod_(i < u) (w j i + beta * sigma j i + gamma).
Lemma construct_agg_prods zk zs zk' :
  construct_agg_polys env zk_rand pa ws sigmas beta gamma d ext zk = Ok (zs, zk') ->
  [/\ size sigmas = k, size (pa_deltas pa) = k & num_c = den_c].
Proof.
move=> H; have [_ /rassert_ok/eqP/esym ss H1] := rbind_ok H; have [_ /rassert_ok/eqP/esym sd _] := rbind_ok H1; split=> //.
have Eq := construct_agg_products un sws_of (ssg_of ss) H.
apply: etrans (etrans _ Eq) _; apply: eq_bigr => j _; apply: eq_bigr => i _; by rewrite /w /sigma !cell_value_nth.
Qed.
Lemma construct_agg_of_prods : (0 < pa_max_cols pa)%N -> (0 < k)%N -> size sigmas = k -> size (pa_deltas pa) = k ->
  num_c = den_c -> (forall c, is_cell k u c -> w c.1 c.2 + beta * sigma c.1 c.2 + gamma != 0) ->
  forall zk, exists zs zk', construct_agg_polys env zk_rand pa ws sigmas beta gamma d ext zk = Ok (zs, zk').
Proof.
move=> m0 k0 ss sd pr nz zk; apply: (construct_agg_ok env zk_rand ext un sws_of (ssg_of ss) k0 m0 ss sd) => [|c Hc].
  apply: etrans (etrans _ pr) _; apply: eq_bigr => j _; apply: eq_bigr => i _; by rewrite /w /sigma !cell_value_nth.
by have := nz c Hc; rewrite /w /sigma !cell_value_nth.
Qed.

Lemma construct_agg_complete tau : (0 < pa_max_cols pa)%N -> (0 < k)%N -> size sigmas = k -> size (pa_deltas pa) = k ->
  (forall c, is_cell k u c -> is_cell k u (tau c)) ->
  (forall c c', is_cell k u c -> is_cell k u c' -> tau c = tau c' -> c = c') ->
  (forall c, is_cell k u c -> sigma c.1 c.2 = id (tau c).1 (tau c).2) ->
  (forall c, is_cell k u c -> w c.1 c.2 = w (tau c).1 (tau c).2) ->
  (forall c, is_cell k u c -> w c.1 c.2 + beta * sigma c.1 c.2 + gamma != 0) ->
  forall zk, exists zs zk', construct_agg_polys env zk_rand pa ws sigmas beta gamma d ext zk = Ok (zs, zk').
Proof.
move=> m0 k0 ss sd tc ti sgE cp nz; apply: construct_agg_of_prods => //.
exact: copies_products tc ti sgE cp.
Qed.
End Cells.

Lemma identity_labels (F : fieldType) (d : domain F) (deltas : seq F) (k u : nat) :
  domain_ok d -> (u <= dsize d)%N -> size deltas = k ->
  (forall j j', (j < k)%N -> (j' < k)%N -> deltas`_j' != 0 /\
     ((deltas`_j / deltas`_j') ^+ dsize d = 1 -> j = j')) ->
  forall c c', is_cell k u c -> is_cell k u c' ->
    deltas`_c.1 * dgen d ^+ c.2 = deltas`_c'.1 * dgen d ^+ c'.2 -> c = c'.
Proof.
move=> dok un sd H [j i] [j' i'] /andP[/= Hj Hi] /andP[/= Hj' Hi'] E.
have [n0 Hjj] := H j j' Hj Hj'; have [n1 _] := H j' j Hj' Hj.
have g0 : dgen d ^+ i != 0 by exact: (element_neq0 i dok).
have g0' : dgen d ^+ i' != 0 by exact: (element_neq0 i' dok).
have Ej : j = j'.
  apply: Hjj; have -> : deltas`_j / deltas`_j' = dgen d ^+ i' / dgen d ^+ i.
    by apply/eqP; rewrite eqr_div // E mulrC.
  by rewrite expr_div_n -/(element d i) -/(element d i') !element_exp // divr1.
move: E; rewrite Ej => /(mulfI n0)/eqP; rewrite -/(element d i) -/(element d i') element_eq //.
by rewrite !modn_small ?(leq_trans _ un) // => /eqP->.
Qed.
