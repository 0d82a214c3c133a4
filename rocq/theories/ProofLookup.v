(** The lookup argument: what its constraints mean row by row, soundness, and the construction
    of its columns. *)
From mathcomp Require Import all_ssreflect all_algebra zify.
From Coq Require Import String.
From Verif Require Import Base ModelPoly ModelVO ModelOracle ModelLookup Spec ProofBase ProofPoly ProofDomain
  ProofVO ProofOracle ProofPermute ProofPermutation ProofPermArg.

Set Implicit Arguments.
Unset Strict Implicit.
Unset Printing Implicit Defensive.

Import GRing.Theory.
Local Open Scope ring_scope.

Lemma rot_next_row n i : (i.+1 < n)%N -> rot_row n next i = i.+1.
Proof. by move=> H; rewrite /rot_row /= addn1 modn_small. Qed.
Lemma rot_prev_row n i : (0 < i)%N -> (i < n)%N -> rot_row n prev i = i.-1.
Proof.
move=> i0 Hi; have n1 : (1 < n)%N by apply: leq_ltn_trans Hi.
rewrite /rot_row /= (modn_small n1); have -> : (i + (n - 1) = i.-1 + n)%N by lia.
by rewrite modnDr modn_small //; lia.
Qed.

Section Rows.
Variable F : fieldType.
Add Field Ffield : (F_field_theory F).
Variables (n u : nat) (beta gamma : F).

Lemma lookup_rowsP (a s a' s' z : nat -> F) : (u < n)%N ->
  lookup_rows_hold n u beta gamma a s a' s' z <->
  [/\ z 0%N = 1, a' 0%N = s' 0%N, z u * z u - z u = 0,
      forall i, (i < u)%N -> z i.+1 * (a' i + beta) * (s' i + gamma) = z i * (a i + beta) * (s i + gamma) &
      forall i, (0 < i < u)%N -> (a' i - s' i) * (a' i - a' i.-1) = 0].
Proof.
move=> un; have n0 : (0 < n)%N by apply: leq_ltn_trans un.
split=> [H|[H1 H2 H3 H4 H5]].
- have C i : (i < n)%N -> let c := lookup_constraints (i == 0%N)%:R (i == u)%:R (u < i)%N%:R beta gamma
     (a i) (s i) (a' i) (s' i) (a' (rot_row n prev i)) (z i) (z (rot_row n next i)) in
     [/\ c`_0 = 0, c`_1 = 0, c`_2 = 0, c`_3 = 0 & c`_4 = 0].
    by move=> Hi; split; apply: (H i Hi); rewrite !inE eqxx ?orbT.
  split.
  + by have [] := C 0%N n0; rewrite /= mul1r => /eqP; rewrite subr_eq0 => /eqP<-.
  + by have [_ _ _] := C 0%N n0; rewrite /= mul1r => /eqP; rewrite subr_eq0 => /eqP.
  + by have [_ _] := C u un; rewrite /= eqxx mul1r.
  + move=> i Hi; have [|_] := C i; first exact: ltn_trans un.
    rewrite /= (ltn_eqF Hi) ltnNge (ltnW Hi) /= addr0 subr0 mul1r rot_next_row; last exact: leq_ltn_trans un.
    by move/eqP; rewrite subr_eq0 => /eqP.
  + move=> i /andP[i0 Hi]; have [|_ _ _ _] := C i; first exact: ltn_trans un.
    by rewrite /= (ltn_eqF Hi) ltnNge (ltnW Hi) /= addr0 subr0 mul1r rot_prev_row // (ltn_trans Hi).
- move=> i Hi c; rewrite !inE => /orP[|/orP[|/orP[|/orP[|]]]] /eqP->.
  + by case: eqP => [->|_]; rewrite ?mul0r // H1 subrr mulr0.
  + case: (ltngtP i u) => Hu /=; rewrite ?addr0 ?add0r ?subrr ?mul0r // subr0 mul1r rot_next_row; last exact: leq_ltn_trans un.
    by rewrite H4 // subrr.
  + by case: eqP => [->|_]; rewrite ?mul0r // mul1r.
  + by case: eqP => [->|_]; rewrite ?mul0r // H2 subrr mulr0.
  + case: (ltngtP i u) => Hu /=; rewrite ?addr0 ?add0r ?subrr ?mul0r // subr0 mul1r.
    case: (posnP i) => [->|i0]; first by rewrite H2 subrr mul0r.
    by rewrite rot_prev_row // H5 // i0.
Qed.

Lemma lookup_product (a s a' s' z : nat -> F) : z 0%N = 1 ->
  (forall i, (i < u)%N -> z i.+1 * (a' i + beta) * (s' i + gamma) = z i * (a i + beta) * (s i + gamma)) ->
  z u * ((\prod_(i < u) (a' i + beta)) * \prod_(i < u) (s' i + gamma)) =
  (\prod_(i < u) (a i + beta)) * \prod_(i < u) (s i + gamma).
Proof.
move=> z0 H.
suff gen v : (v <= u)%N ->
   z v * ((\prod_(i < v) (a' i + beta)) * \prod_(i < v) (s' i + gamma)) =
   (\prod_(i < v) (a i + beta)) * \prod_(i < v) (s i + gamma) by apply: gen.
elim: v => [|v IH] Hv; first by rewrite !big_ord0 z0 !mul1r.
rewrite !big_ord_recr /=; move: (IH (ltnW Hv)) (H v Hv).
move: (\prod_(i < v) _) (\prod_(i < v) _) (\prod_(i < v) _) (\prod_(i < v) _) => S2 A2 S1 A1 E1 E2.
have -> : z v.+1 * ((A1 * (a' v + beta)) * (S1 * (s' v + gamma))) =
          z v.+1 * (a' v + beta) * (s' v + gamma) * (A1 * S1) by f_conv F; ring.
rewrite E2; have -> : z v * (a v + beta) * (s v + gamma) * (A1 * S1) = (z v * (A1 * S1)) * ((a v + beta) * (s v + gamma)).
  by f_conv F; ring.
by rewrite E1; f_conv F; ring.
Qed.

(** On the usable rows every value of [a'] is a value of [s']. *)
Lemma a'_in_s' (a' s' : nat -> F) i : a' 0%N = s' 0%N ->
  (forall i, (0 < i < u)%N -> (a' i - s' i) * (a' i - a' i.-1) = 0) ->
  (i < u)%N -> exists2 j, (j < u)%N & a' i = s' j.
Proof.
move=> H0 H; elim: i => [|i IH] Hi; first by exists 0%N.
have := H i.+1; rewrite Hi => /(_ isT)/eqP; rewrite mulf_eq0 !subr_eq0 => /orP[/eqP E|/eqP E].
  by exists i.+1.
by rewrite E /=; apply: IH; apply: ltnW.
Qed.
End Rows.

Section Soundness.
Variable F : fieldType.
Add Field Ffield1 : (F_field_theory F).
Variables (n u : nat) (a s a' s' : nat -> F) (bad : nat).
Hypothesis un : (u < n)%N.
Hypothesis badu : (bad < u)%N.
Hypothesis violated : forall j, (j < u)%N -> a bad <> s j.

Let P (f : nat -> F) : {poly F} := \prod_(x <- [seq - f i | i <- iota 0 u]) ('X - x%:P).
Let hP f x : (P f).[x] = \prod_(i < u) (f i + x).
Proof.
rewrite horner_prod big_map -(big_mkord xpredT (fun i => f i + x)) /index_iota subn0.
by apply: eq_bigr => i _; rewrite hornerXsubC opprK addrC.
Qed.
Let rP f x : root (P f) x = (x \in [seq - f i | i <- iota 0 u]).
Proof. exact: root_prod_XsubC. Qed.
Let sP f : size (P f) = u.+1. Proof. by rewrite size_prod_XsubC size_map size_iota. Qed.
Let mP f : P f \is monic. Proof. exact: monic_prod_XsubC. Qed.
Let lP f : (P f)`_u = 1. Proof. by have /monicP := mP f; rewrite lead_coefE sP. Qed.

Lemma lookup_sound : at_most (2 * u) (fun beta : F => ~ at_most (2 * u)
   (fun gamma => exists z, lookup_rows_hold n u beta gamma a s a' s' z)).
Proof.
have sS (p q : {poly F}) k : (size p <= k)%N -> (size q <= k)%N -> (size (p - q)%R <= k)%N.
  by move=> H1 H2; apply: leq_trans (size_add _ _) _; rewrite size_opp geq_max H1.
have s2 (p q : {poly F}) : (size p <= u.+1)%N -> (size q <= u.+1)%N -> (size (p * q)%R <= (2 * u).+1)%N.
  by move=> H1 H2; apply: leq_trans (size_mul_leq _ _) _; lia.
(* the value that is not in the table *)
have [EA|nA] := eqVneq (P a) (P a'); last first.
  have D0 : P a * (P a - P a') != 0 by apply: mulf_neq0; [exact: monic_neq0|rewrite subr_eq0].
  apply: (roots_at_most D0); first by apply: s2; rewrite ?sP // sS ?sP.
  move=> beta nb; apply/eqP; apply: contraT => rb; case: nb.
  move: rb; rewrite hornerM mulf_eq0 negb_or hornerD hornerN subr_eq0 => /andP[ra rd].
  have Q0 : (P a).[beta] *: P s - (P a').[beta] *: P s' != 0.
    apply/eqP => /polyP/(_ u); rewrite coefD coefN !coefZ !lP !mulr1 coef0 => /eqP.
    by rewrite subr_eq0 (negPf rd).
  apply: (@roots_at_most _ (P s * ((P a).[beta] *: P s - (P a').[beta] *: P s'))).
  - by apply: mulf_neq0 => //; exact: monic_neq0.
  - by apply: s2; rewrite ?sP // sS // (leq_trans (size_scale_leq _ _)) ?sP.
  move=> gamma [z /(lookup_rowsP _ _ _ _ _ _ _ un)[z0 _ zu Hz _]].
  have := lookup_product z0 Hz; rewrite -!hP => E.
  apply/eqP; rewrite hornerM hornerD hornerN !hornerZ mulf_eq0 subr_eq0 -E.
  move/eqP: zu; rewrite -{3}[z u]mul1r -mulrBl mulf_eq0 subr_eq0 => /orP[/eqP->|/eqP zu].
    by rewrite mul1r eqxx orbT.
  move/eqP: E; rewrite zu mul0r eq_sym mulf_eq0 => /orP[E|->//].
  by rewrite E in ra.
have [ES|nS] := eqVneq (P s) (P s'); last first.
  apply: (@roots_at_most _ (P a)); rewrite ?monic_neq0 // ?sP; first by lia.
  move=> beta nb; apply/eqP; apply: contraT => rb; case: nb.
  apply: (@roots_at_most _ (P s * (P s - P s'))).
  - by apply: mulf_neq0; [exact: monic_neq0|rewrite subr_eq0].
  - by apply: s2; rewrite ?sP // sS ?sP.
  move=> gamma [z /(lookup_rowsP _ _ _ _ _ _ _ un)[z0 _ zu Hz _]].
  have := lookup_product z0 Hz; rewrite -!hP -EA => E.
  apply/eqP; rewrite hornerM hornerD hornerN mulf_eq0 subr_eq0.
  move/eqP: zu; rewrite -{3}[z u]mul1r -mulrBl mulf_eq0 subr_eq0 => /orP[/eqP zu|/eqP zu].
    by move: E; rewrite zu mul1r => /(mulfI rb)->; rewrite eqxx orbT.
  move/eqP: E; rewrite zu mul0r eq_sym mulf_eq0 => /orP[E|->//].
  by rewrite E in rb.
(* a', s' have the same values as a, s: then no z exists at all *)
move=> bs _ Hb; case: bs Hb => // beta bs Hb; case: (Hb beta (mem_head _ _)) => gs _ Hg.
case: gs Hg => // gamma gs /(_ gamma (mem_head _ _))[z /(lookup_rowsP _ _ _ _ _ _ _ un)[_ H0 _ _ H1]].
have : root (P a') (- a bad) by rewrite -EA rP; apply: (map_f (fun i => - a i)); rewrite mem_iota.
rewrite rP => /mapP[i]; rewrite mem_iota => /= Hi /oppr_inj Ei.
have [j Hj Ej] := a'_in_s' H0 H1 Hi.
have : root (P s) (- s' j) by rewrite ES rP; apply: (map_f (fun i => - s' i)); rewrite mem_iota.
rewrite rP => /mapP[k]; rewrite mem_iota => /= Hk /oppr_inj Ek.
by case: (violated Hk); rewrite Ei Ej.
Qed.
End Soundness.

(** ** The grand product of the lookup. *)
Section Construct.
Variable F : fieldType.
Variable env : fenv F.
Variable Z : Type.
Variable zk_rand : Z -> F * Z.
Variables (d ext : domain F) (beta gamma : F).
Add Field Ffield2 : (F_field_theory F).

Lemma rbind_Ok A B (x : A) (f : A -> res B) : rbind (Ok x) f = f x.
Proof. by []. Qed.

Lemma size_draw_n A (draw : Z -> A * Z) n x : size (draw_n draw n x).1 = n.
Proof. by elim: n x => [|n IH] x //=; case: (draw x) => y x1; have := IH x1; case: (draw_n draw n x1) => ys x2 /= ->. Qed.

Section Cols.
Variables (a s a' s' : seq F).
Let den i := (a'`_i + beta) * (s'`_i + gamma).
Let num i := (a`_i + beta) * (s`_i + gamma).

Lemma se_rowsP k l z : (forall i, (i < k + l)%N -> [&& i < size a, i < size s, i < size a' & i < size s']%N) ->
  if [forall t : 'I_l, den (k + t) != 0] then
  exists2 zs, se_rows a s a' s' beta gamma (iota k l) z = Ok zs &
   size zs = l /\ forall t, (t < l)%N -> (z :: zs)`_t.+1 * den (k + t) = (z :: zs)`_t * num (k + t)
  else se_rows a s a' s' beta gamma (iota k l) z = Panic PUnwrap.
Proof.
elim: l k z => [|l IH] k z H.
  by case: ifP => [_|/forallP[]]; [exists [::]|case].
have /and4P[h1 h2 h3 h4] : [&& k < size a, k < size s, k < size a' & k < size s']%N.
  by apply: H; rewrite addnS ltnS leq_addr.
rewrite /= (idx_nth 0 h1) /= (idx_nth 0 h2) /= (idx_nth 0 h3) /= (idx_nth 0 h4) /= -/(den k) -/(num k).
rewrite /finv; case: (eqVneq (den k) 0) => [E|nz] /=.
  by case: forallP => // /(_ ord0); rewrite addn0 E eqxx.
have {}IH := IH k.+1 (z * (num k * (den k)^-1)); rewrite addSnnS in IH.
move: (IH H); case: ifP => [/forallP Hl|/negbT/forallPn[t Ht]] E.
  case: E => zs -> [szs Hr]; case: ifP => [_|/negbT/forallPn[t]].
    exists (z * (num k / den k) :: zs) => //; split; first by rewrite /= szs.
    case=> [_|t Ht]; first by rewrite addn0 /= -mulrA divfK.
    by rewrite -addSnnS; apply: Hr.
  by case: (unliftP ord0 t) => [t'|] ->; rewrite ?addn0 ?nz // -addSnnS Hl.
rewrite E; case: forallP => // /(_ (lift ord0 t)); rewrite /= /bump /= add1n -addSnnS => H1.
by rewrite H1 in Ht.
Qed.
End Cols.

Variables (lo : lookup_oracles (poracle F)) (u : nat).
Let a := po_evals (lo_a lo).
Let s := po_evals (lo_s lo).
Let a' := po_evals (lo_a' lo).
Let s' := po_evals (lo_s' lo).
Hypothesis un : (u < dsize d)%N.
Hypothesis sizes : [&& u <= size a, u <= size s, u <= size a' & u <= size s']%N.
Let rows i : (i < u)%N -> [&& i < size a, i < size s, i < size a' & i < size s']%N.
Proof. by move=> Hi; case/and4P: sizes => h1 h2 h3 h4; rewrite !(leq_trans Hi). Qed.

Lemma se_construct_inv k zk z zk' :
  se_construct_agg_poly env zk_rand lo beta gamma k u d ext zk = Ok (z, zk') ->
  [/\ interpolates d z, compute_extended_evals env ext z = z, o_rots z = [:: curr; next],
      [/\ (po_evals z)`_0 = 1, (po_evals z)`_u = 1 &
       forall i, (i < u)%N -> (po_evals z)`_i.+1 * (a'`_i + beta) * (s'`_i + gamma) = (po_evals z)`_i * (a`_i + beta) * (s`_i + gamma)] &
      forall i, (i < u)%N -> (a'`_i + beta) * (s'`_i + gamma) != 0].
Proof.
rewrite /se_construct_agg_poly -/a -/s -/a' -/s'.
have := @se_rowsP a s a' s' 0 u 1 rows; case: ifP => [/forallP nz|_ -> //] [zs -> [szs Hr]] /= H.
have [zu Hzu H0] := rbind_ok H; have [_ /rassert_ok/eqP zu1 H1] := rbind_ok H0.
have [t1 /usub_ok[n1 E1] H2] := rbind_ok H1; have [t /usub_ok[n2 E2] H3] := rbind_ok H2.
move: H3; have := size_draw_n zk_rand t zk; case: draw_n => blind zk1 /= sb [<- _].
have nc j : (j <= u)%N -> ((1 :: zs) ++ blind)`_j = (1 :: zs)`_j.
  by move=> Hj; rewrite nth_cat /= szs ltnS Hj.
set zo := Oracle _ _ _; have ev : po_evals zo = (1 :: zs) ++ blind by [].
have iz : interpolates d zo.
  by split=> //; rewrite ev size_cat /= szs sb E2 addSn subnKC // E1 subn1 prednK.
split; [exact: iz|by []|by []| |by move=> i Hi; exact: (nz (Ordinal Hi))].
rewrite ev; split=> //.
  have Hz : idx (1 :: zs) u = Ok zu by exact: Hzu.
  by rewrite (nc u) // -(idx_ok_nth 0 Hz).
move=> i Hi; rewrite (nc i.+1) // (nc i (ltnW Hi)) -!mulrA; exact: Hr.
Qed.

Lemma se_construct_ok k zk :
  (forall i, (i < u)%N -> (a'`_i + beta) * (s'`_i + gamma) != 0) ->
  perm_eq (take u a') (take u a) -> perm_eq (take u s') (take u s) ->
  exists z zk', se_construct_agg_poly env zk_rand lo beta gamma k u d ext zk = Ok (z, zk').
Proof.
move=> nz pa ps; rewrite /se_construct_agg_poly -/a -/s -/a' -/s'.
have := @se_rowsP a s a' s' 0 u 1 rows; case: forallP => [_|[]]; last by move=> t; apply: nz; exact: ltn_ord.
case=> zs -> [szs Hr]; rewrite rbind_Ok (idx_nth 0) ?rbind_Ok; last by rewrite /= szs.
have Hp : (1 :: zs)`_u * ((\prod_(i < u) (a'`_i + beta)) * \prod_(i < u) (s'`_i + gamma)) =
   (\prod_(i < u) (a`_i + beta)) * \prod_(i < u) (s`_i + gamma).
  apply: (@lookup_product _ u beta gamma (fun i => a`_i) (fun i => s`_i) (fun i => a'`_i) (fun i => s'`_i) (fun i => (1 :: zs)`_i)) => // i Hi.
  by rewrite -!mulrA; apply: Hr.
have prodE (t : seq F) c : (u <= size t)%N -> \prod_(i < u) (t`_i + c) = \prod_(x <- take u t) (x + c).
  move=> le; rewrite (big_nth 0) size_takel // big_mkord; apply: eq_bigr => i _.
  by rewrite nth_take.
case/and4P: sizes => h1 h2 h3 h4.
have nd : (\prod_(i < u) (a'`_i + beta)) * \prod_(i < u) (s'`_i + gamma) != 0.
  by rewrite -big_split /= prodf_seq_neq0; apply/allP => i _; apply/implyP => _; apply: nz.
have E1 : (1 :: zs)`_u = 1.
  apply: (mulIf nd); rewrite mul1r Hp !prodE //.
  by rewrite (perm_big _ pa) (perm_big _ ps).
rewrite E1 eqxx /rassert rbind_Ok.
have n0 : (0 < dsize d)%N by apply: leq_ltn_trans un.
have le : (u <= dsize d - 1)%N by rewrite -ltnS subn1 prednK.
rewrite /usub n0 rbind_Ok le rbind_Ok; case: (draw_n _ _ _) => blind zk1.
by eexists; eexists.
Qed.
End Construct.
