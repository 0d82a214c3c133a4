(** Lemmas for C60: the uses of the random generator in each round of the prover. *)
From mathcomp Require Import all_ssreflect all_algebra.
From mathcomp Require Import zify.
From Verif Require Import Base ModelPoly ModelVO ModelOracle ModelPC ModelPermutation ModelLookup ModelIndexer ModelMultiproof ModelProtocol
  Spec SpecProtocol SpecBlind ProofBase ProofPoly ProofDomain ProofLookup ProofEach ProofProver ProofPermutation.

Set Implicit Arguments.
Unset Strict Implicit.
Unset Printing Implicit Defensive.

Import GRing.Theory.
Local Open Scope ring_scope.

Section Drawn.
Variables (F : fieldType) (PC : pcs F).
Implicit Types (zk : pc_zk PC) (ds : seq (draw PC)).

Lemma drawn_cat zk zk1 zk2 ds1 ds2 : drawn zk ds1 zk1 -> drawn zk1 ds2 zk2 -> drawn zk (ds1 ++ ds2) zk2.
Proof. by elim: ds1 zk => [|[x|r] ds1 IH] zk /= => [->|[-> /IH H] /H|[-> /IH H] /H]. Qed.

Lemma drawn_det zk zk1 zk2 ds1 ds2 : drawn zk ds1 zk1 -> drawn zk ds2 zk2 -> same_calls ds1 ds2 -> ds1 = ds2 /\ zk1 = zk2.
Proof.
elim: ds1 ds2 zk => [|[x|r] ds1 IH] [|[y|r'] ds2] zk //=; first by move=> -> ->.
  by move=> [-> H1] [-> H2] [H3]; have [-> ->] := IH _ _ H1 H2 H3.
by move=> [-> H1] [-> H2] [H3]; have [-> ->] := IH _ _ H1 H2 H3.
Qed.

Lemma commit_drawn ck (os : seq (poracle F)) zk cs rs zk' : commit_all ck (labeled os) zk = Ok (cs, rs, zk') ->
  drawn zk (map DRand rs) zk' /\ committed ck os rs cs.
Proof.
elim: os zk cs rs => [|o os IH] zk cs rs /=; first by case=> <- <- <-; split=> //; split=> // -[].
case E: (pc_sample _ zk) => [r zk1]; case Ec: (pc_commit1 _ _ _) => [c| |] //=.
case Ea: (commit_all _ _ _) => [[[cs' rs'] zk2]| |] //= -[<- <- Ez]; rewrite Ez in Ea; have [H1 [H2 H3 H4]] := IH _ _ _ Ea.
split; first by rewrite /= E.
split; rewrite /= ?H2 ?H3 // => -[|j] a b e /=; last exact: H4.
by move=> [<-] [<-] [<-].
Qed.

Lemma draw_n_drawn t zk xs zk' : draw_n (@pc_zk_rand F PC) t zk = (xs, zk') -> drawn zk (map DField xs) zk' /\ size xs = t.
Proof.
elim: t zk xs => [|t IH] zk xs /=; first by case=> <- <-.
case E: (pc_zk_rand zk) => [x zk1]; case E1: (draw_n _ t zk1) => [xs' zk2] [<- Ez]; rewrite Ez in E1.
by have [H1 H2] := IH _ _ E1; rewrite /= E H2.
Qed.

Lemma draw_pairs_drawn t zk xs ys zk' : draw_pairs (@pc_zk_rand F PC) t zk = (xs, ys, zk') ->
  [/\ drawn zk (map DField (alternate xs ys)) zk', size xs = t & size ys = t].
Proof.
elim: t zk xs ys => [|t IH] zk xs ys /=; first by case=> <- <- <-.
case E: (pc_zk_rand zk) => [x zk1]; case E1: (pc_zk_rand zk1) => [y zk2].
case E2: (draw_pairs _ t zk2) => [[xs' ys'] zk3] [<- <- Ez]; rewrite Ez in E2.
by have [H1 H2 H3] := IH _ _ _ E2; rewrite /= E /= E1 H2 H3.
Qed.
End Drawn.

Section Rounds.
Variables (F : fieldType) (env : fenv F) (PC : pcs F).
Implicit Types (zk : pc_zk PC) (d ext : domain F).

Lemma drop_eq (A : Type) k (a b : seq A) : size a = k -> drop k (a ++ b) = b.
Proof. by move=> <-; rewrite drop_size_cat. Qed.

Lemma a_and_s_drawn ws ins fs ts u k es tqs theta d ext zk lo zk' :
  construct_a_and_s_polys_prover env (@pc_zk_rand F PC) ws ins fs ts u k es tqs theta d ext zk = Ok (lo, zk') ->
  drawn zk (map DField (alternate (rows_from u (lo_a' lo)) (rows_from u (lo_s' lo)))) zk' /\
  (interpolates d (lo_a' lo) /\ interpolates d (lo_s' lo)).
Proof.
rewrite /construct_a_and_s_polys_prover => H.
have [_ _ {}H] := rbind_ok H; have [av Ha {}H] := rbind_ok H; have [ac _ {}H] := rbind_ok H; have [_ _ {}H] := rbind_ok H.
have [sv Hs {}H] := rbind_ok H; have [sc _ {}H] := rbind_ok H; have [_ _ {}H] := rbind_ok H.
have [ar Har {}H] := rbind_ok H; have [sr Hsr {}H] := rbind_ok H; have [[a1 s1] _ {}H] := rbind_ok H.
have leu : (u <= dsize d)%N.
  have sa : size av = dsize d by rewrite (rmapM_ok Ha) size_iota.
  by move: Har; rewrite /slice_to sa; case: ifP.
move: H; case E: (draw_pairs _ _ _) => [[ra rs] zk1] H; have [D sra srs] := draw_pairs_drawn E.
have [_ /rassert_ok/eqP E1 {}H] := rbind_ok H; have [_ /rassert_ok/eqP E2 {}H] := rbind_ok H.
case: H => <- Ez; cbn [lo_a' lo_s']; rewrite -Ez /interpolates /rows_from /po_evals /po_poly; cbn [o_data pd_evals pd_poly].
have e1 : size a1 = u by move: E1; rewrite size_cat sra; lia.
have e2 : size s1 = u by move: E2; rewrite size_cat srs; lia.
by rewrite !drop_eq.
Qed.

Lemma se_rows_size (a s a' s' : seq F) beta gamma rows zp zs : se_rows a s a' s' beta gamma rows zp = Ok zs -> size zs = size rows.
Proof.
elim: rows zp zs => [|i rows IH] zp zs /=; first by case=> <-.
move=> H; do 5 have [? _ {}H] := rbind_ok H.
by have [zs' /IH <- [<-]] := rbind_ok H.
Qed.

Lemma gp_rows_size d ws ss (ds : seq F) beta gamma rows zp zs : gp_rows d ws ss ds beta gamma rows zp = Ok zs -> size zs = size rows.
Proof.
elim: rows zp zs => [|i rows IH] zp zs /=; first by case=> <-.
move=> H; have [[? ?] _ {}H] := rbind_ok H; have [? _ {}H] := rbind_ok H.
by have [zs' /IH <- [<-]] := rbind_ok H.
Qed.

Lemma se_drawn lo beta gamma k u d ext zk z zk' :
  se_construct_agg_poly env (@pc_zk_rand F PC) lo beta gamma k u d ext zk = Ok (z, zk') ->
  drawn zk (map DField (rows_from u.+1 z)) zk' /\ interpolates d z.
Proof.
rewrite /se_construct_agg_poly => H.
have [zs /se_rows_size sz {}H] := rbind_ok H; have [zu _ {}H] := rbind_ok H; have [_ _ {}H] := rbind_ok H.
have [t1 /usub_ok [l1 e1] {}H] := rbind_ok H; have [t /usub_ok [l2 e2] {}H] := rbind_ok H.
rewrite size_iota in sz; move: H; case E: (draw_n _ _ _) => [bl zk1]; have [D sb] := draw_n_drawn E.
case=> <- Ez; rewrite -Ez /interpolates /rows_from /po_evals /po_poly; cbn [o_data pd_evals pd_poly].
have e : size (1 :: zs) = u.+1 by rewrite /= sz.
by rewrite -cat_cons drop_eq // size_cat e sb e2 e1; split=> //; split=> //; lia.
Qed.

Lemma gp_drawn i b init ss ws deltas beta gamma u d ext zk z zk' :
  gp_construct_agg_poly env (@pc_zk_rand F PC) i b init ss ws deltas beta gamma u d ext zk = Ok (z, zk') ->
  drawn zk (map DField (rows_from u.+1 z)) zk' /\ interpolates d z.
Proof.
rewrite /gp_construct_agg_poly => H; have [zs /gp_rows_size sz {}H] := rbind_ok H.
have [t1 /usub_ok [l1 e1] {}H] := rbind_ok H; have [t /usub_ok [l2 e2] {}H] := rbind_ok H.
rewrite size_iota in sz; move: H; case E: (draw_n _ _ _) => [bl zk1]; have [D sb] := draw_n_drawn E.
move=> H; have [_ /rassert_ok/eqP se {}H] := rbind_ok H.
case: H => <- Ez; rewrite -Ez /interpolates /rows_from /po_evals /po_poly; cbn [o_data pd_evals pd_poly].
have e : size (init :: zs) = u.+1 by rewrite /= sz.
by rewrite -cat_cons drop_eq.
Qed.

Lemma drawn_fields_cat zk zk1 zk2 xs ys : drawn zk (map DField xs) zk1 -> drawn zk1 (map DField ys) zk2 -> drawn zk (map DField (xs ++ ys)) zk2.
Proof. by rewrite map_cat; exact: drawn_cat. Qed.

Lemma lookup_round_drawn (pre : prover_pre PC) ix ws ins theta d kls zk los zk' :
  prover_lookup_round env pre ix ws ins theta d kls zk = Ok (los, zk') ->
  [/\ drawn zk (map DField (flatten [seq alternate (rows_from (ix_usable_rows ix) (lo_a' lo)) (rows_from (ix_usable_rows ix) (lo_s' lo)) | lo <- los])) zk',
      size los = size kls & forall o, occurs o (lookup_primes los) -> interpolates d o].
Proof.
elim: kls zk los => [|[k l] kls IH] zk los /=; first by case=> <- <-.
move=> H; have [es _ {}H] := rbind_ok H; have [tqs _ {}H] := rbind_ok H.
have [[lo zk1] /a_and_s_drawn [D1 [i1 i2]] {}H] := rbind_ok H; have [[los' zk2] E {}H] := rbind_ok H.
case: H => <- Ez; rewrite Ez in E; have [D2 sl i3] := IH _ _ E.
split; [exact: drawn_fields_cat D1 D2 | by rewrite /= sl|].
by move=> o /= [->|[->|/i3]].
Qed.

Lemma subset_round_drawn (ix : index_info F) beta gamma d klos zk zs zk' :
  prover_subset_round env ix beta gamma d klos zk = Ok (zs, zk') ->
  [/\ drawn zk (map DField (flatten (map (rows_from (ix_usable_rows ix).+1) zs))) zk', size zs = size klos &
      forall o, occurs o zs -> interpolates d o].
Proof.
elim: klos zk zs => [|[k lo] kls IH] zk zs /=; first by case=> <- <-.
move=> H; have [[z zk1] /se_drawn [D1 i1] {}H] := rbind_ok H; have [[zs' zk2] E {}H] := rbind_ok H.
case: H => <- Ez; rewrite Ez in E; have [D2 sl i3] := IH _ _ E.
split; [exact: drawn_fields_cat D1 D2 | by rewrite /= sl|by move=> o /= [->|/i3]].
Qed.

Lemma agg_loop_drawn pa beta gamma d ext i pr cs zk zs zk' :
  construct_agg_polys_loop env (@pc_zk_rand F PC) pa beta gamma d ext i pr cs zk = Ok (zs, zk') ->
  [/\ drawn zk (map DField (flatten (map (rows_from (pa_usable_rows pa).+1) zs))) zk' , size zs = size cs &
      forall o, occurs o zs -> interpolates d o].
Proof.
elim: cs i pr zk zs => [|[[w s] ds] cs IH] i pr zk zs /=; first by case=> <- <-.
move=> H; have [init _ {}H] := rbind_ok H.
have [[z zk1] /gp_drawn [D1 i1] {}H] := rbind_ok H; have [[zs' zk2] E {}H] := rbind_ok H.
case: H => <- Ez; rewrite Ez in E; have [D2 sl i3] := IH _ _ _ _ E.
split; [exact: drawn_fields_cat D1 D2 | by rewrite /= sl|by move=> o /= [->|/i3]].
Qed.

Lemma permutation_round_drawn (pa : permutation_argument F) (pre : prover_pre PC) tc beta gamma d ext zk zs zk' :
  prover_permutation_round env pa pre tc beta gamma d ext zk = Ok (zs, zk') ->
  drawn zk (map DField (flatten (map (rows_from (pa_usable_rows pa).+1) zs))) zk' /\
  forall o, occurs o zs -> interpolates d o.
Proof.
rewrite /prover_permutation_round; case: ifP => _; first by case=> <- <-.
rewrite /construct_agg_polys => H; do 5 have [? _ {}H] := rbind_ok H.
have [[zs1 zk1] /agg_loop_drawn [D _ i1] {}H] := rbind_ok H; do 3 have [? _ {}H] := rbind_ok H.
by case: H => <- <-.
Qed.
End Rounds.
