(** Property theorems C61: what the openings of a blinded column tell about its other rows. *)
From mathcomp Require Import all_ssreflect all_algebra.
From mathcomp Require Import zify.
From Verif Require Import Base ModelVO ModelPoly ModelOracle Spec SpecPIOP SpecBlind ProofBase ProofPoly ProofDomain ProofMultiopen ProofColumns ProofHonest.

Set Implicit Arguments.
Unset Strict Implicit.
Unset Printing Implicit Defensive.

Import GRing.Theory.
Local Open Scope ring_scope.

Section C61.
Variables (F : fieldType) (env : fenv F).
Hypothesis eok : fenv_ok env.
Variable (d : domain F).
Hypothesis sd : std_domain env d.
Let n := dsize d.

Lemma column_at (o : poracle F) i : interpolates d o -> (i < n)%N -> (opoly o).[element d i] = (po_evals o)`_i.
Proof. by move=> io Hi; apply: (opoly_at_row eok sd) => //; exact: (interpolates_tabulates eok sd). Qed.

Lemma size_opoly (o : poracle F) : interpolates d o -> (size (opoly o) <= n)%N.
Proof. by move=> io; rewrite (leq_trans (size_Poly _)) // (size_po_poly io). Qed.

Lemma openedE (o : poracle F) x : opened o x = (opoly o).[x].
Proof. by rewrite /opened pevalE. Qed.

Lemma not_a_row x i : x ^+ n != 1 -> x != element d i.
Proof. by apply: contraNneq => ->; rewrite /n element_exp //; exact: (std_domain_ok eok sd). Qed.

(** C61: a column with rows from [k] on blinded, opened at no more points outside of the domain than it has blinded rows:
    for any other content [w] of its first [k] rows there is one shift of the blinding under which all openings are the
    same. A shift maps uniformly distributed blinding to uniformly distributed blinding, so the openings have the same
    distribution for any two contents. *)
Theorem c61_openings_hide_the_rows (k : nat) (pts v w : seq F) :
  (k <= n)%N -> uniq pts -> (size pts <= n - k)%N -> (forall x, x \in pts -> x ^+ n != 1) -> size v = k -> size w = k ->
  exists e : seq F, size e = (n - k)%N /\
    forall o o' b, interpolates d o -> interpolates d o' -> size b = (n - k)%N ->
      po_evals o = v ++ b -> po_evals o' = w ++ col_add b e ->
      forall x, x \in pts -> opened o x = opened o' x.
Proof.
move=> kn up sp out sv sw; have dok := std_domain_ok eok sd.
pose evs := [seq (element d i, w`_i - v`_i) | i <- iota 0 k] ++ [seq (x, 0) | x <- pts].
have fE : map fst evs = [seq element d i | i <- iota 0 k] ++ pts.
  by rewrite map_cat -!map_comp; congr (_ ++ _); rewrite -[RHS]map_id; apply: eq_map.
have uE : uniq (map fst evs).
  rewrite fE cat_uniq up andbT; apply/andP; split.
    rewrite map_inj_in_uniq ?iota_uniq // => i j; rewrite !mem_iota !add0n /= => Hi Hj /eqP.
    by rewrite element_eq // !modn_small ?(leq_trans _ kn) // => /eqP.
  apply/hasPn => x xp; apply/mapP => -[i _ E]; by have := not_a_row i (out _ xp); rewrite E eqxx.
pose D := interp evs.
have sD : (size D <= n)%N by apply: leq_trans (size_interp uE) _; rewrite size_cat !size_map size_iota; lia.
have D0 x : x \in pts -> D.[x] = 0.
  by move=> xp; apply: interp_at => //; rewrite mem_cat; apply/orP; right; apply/mapP; exists x.
have DE i : (i < k)%N -> D.[element d i] = w`_i - v`_i.
  by move=> Hi; apply: interp_at => //; rewrite mem_cat; apply/orP; left; apply/mapP; exists i => //; rewrite mem_iota.
exists [seq D.[element d i] | i <- iota k (n - k)]; split; first by rewrite size_map size_iota.
move=> o o' b io io' sb Eo Eo' x xp; rewrite !openedE.
suff -> : opoly o' = opoly o + D by rewrite hornerD D0 // addr0.
apply: (@poly_eq_on _ _ _ (elements d)); rewrite ?size_elements.
- exact: elements_uniq.
- exact: size_opoly.
- by apply: leq_trans (size_add _ _) _; rewrite geq_max size_opoly.
move=> y /(nthP 0)[i]; rewrite size_elements => Hi <-; rewrite nth_elements // hornerD !column_at // Eo Eo'.
rewrite !nth_cat sv sw; case: ltnP => Hk; first by rewrite DE // addrC subrK.
rewrite /col_add (nth_map (0, 0)); last by rewrite size_zip size_map size_iota sb minnn; lia.
rewrite nth_zip ?size_map ?size_iota //= (nth_map 0%N) ?size_iota; last by lia.
by rewrite nth_iota ?subnKC //; lia.
Qed.

(** The bound is exact: with more openings than blinded rows, two columns that differ in exactly one of their first rows
    have different openings, whatever their blinding is. *)
Theorem c61_too_few_blinded_rows (k i : nat) (pts : seq F) o o' :
  (k <= n)%N -> uniq pts -> (n - k < size pts)%N -> (forall x, x \in pts -> x ^+ n != 1) ->
  interpolates d o -> interpolates d o' -> (i < k)%N ->
  (forall j, (j < k)%N -> (po_evals o)`_j = (po_evals o')`_j <-> j != i) ->
  exists2 x, x \in pts & opened o x != opened o' x.
Proof.
move=> kn up sp out io io' ik H; have dok := std_domain_ok eok sd.
apply/hasP; apply: contraT => /hasPn no; exfalso.
have E : opoly o = opoly o'.
  pose rs := [seq element d j | j <- iota 0 k & j != i] ++ pts.
  have srs : (n <= size rs)%N.
    rewrite size_cat size_map size_filter.
    have := count_predC (pred1 i) (iota 0 k); rewrite count_uniq_mem ?iota_uniq // mem_iota add0n ik size_iota => E.
    have -> : count (fun j => j != i) (iota 0 k) = count (predC (pred1 i)) (iota 0 k) by apply: eq_count.
    by lia.
  apply: (@poly_eq_on _ _ _ rs).
  - rewrite cat_uniq up andbT; apply/andP; split.
      rewrite map_inj_in_uniq ?filter_uniq ?iota_uniq // => a b; rewrite !mem_filter !mem_iota !add0n /= => /andP[_ Ha] /andP[_ Hb] /eqP.
      by rewrite element_eq // !modn_small ?(leq_trans _ kn) // => /eqP.
    apply/hasPn => x xp; apply/mapP => -[j _ Ej]; by have := not_a_row j (out _ xp); rewrite Ej eqxx.
  - exact: leq_trans (size_opoly io) srs.
  - exact: leq_trans (size_opoly io') srs.
  move=> x; rewrite mem_cat => /orP[/mapP[j]|xp].
    rewrite mem_filter mem_iota add0n /= => /andP[ji jk] ->; rewrite !column_at ?(leq_trans jk) //.
    by apply/(H j jk).
  by apply/eqP; have := no x xp; rewrite !openedE negbK.
have /(H i ik) : (po_evals o)`_i = (po_evals o')`_i by rewrite -!column_at ?E ?(leq_trans ik).
by rewrite eqxx.
Qed.
End C61.
Print Assumptions c61_openings_hide_the_rows.
Print Assumptions c61_too_few_blinded_rows.

From Coq Require Import NArith String.
From Verif Require Import Field97 Concrete ProofConcrete ModelPC ModelPermutation ModelIndexer ModelMultiproof ModelProtocol SpecProtocol Run97 PropsTranscript PropsEndToEnd.
Local Close Scope ring_scope.

(** Eight rows, three of them blinded. *)
Definition h_v : seq F97 := col [:: 1; 2; 3; 4; 5]%nat.
Definition h_w : seq F97 := col [:: 1; 2; 9; 4; 5]%nat.
Definition h_b : seq F97 := col [:: 70; 80; 90]%nat.
Definition h_pts : seq F97 := [:: n97 2; (n97 2 * dgen (dom97 8))%R; n97 3].
Definition h_col (rows : seq F97) : poracle F97 := Oracle "h"%string [:: curr] (PData Witness (ptrim (ifft (dom97 8) rows)) rows None false).
Lemma h_interpolates rows : size rows = 8%nat -> interpolates (dom97 8) (h_col rows). Proof. by []. Qed.

Example ex_c61 : exists e : seq F97, size e = 3%nat /\
  forall x, x \in h_pts -> opened (h_col (h_v ++ h_b)) x = opened (h_col (h_w ++ col_add h_b e)) x.
Proof.
have Ho := elimT allP (isT : all (fun x : F97 => x ^+ 8 != 1)%R h_pts).
have up : uniq h_pts by vm_compute.
have [e [se H]] := @c61_openings_hide_the_rows F97 env97 env97_ok (dom97 8) dom97_8 5 h_pts h_v h_w isT up isT Ho erefl erefl.
exists e; split; first exact se.
have s1 : size (h_v ++ h_b) = 8%nat by [].
have sc : size (col_add h_b e) = 3%nat by rewrite /col_add size_map size_zip se.
have s2 : size (h_w ++ col_add h_b e) = 8%nat by rewrite size_cat sc.
exact (H _ _ h_b (h_interpolates s1) (h_interpolates s2) erefl erefl erefl).
Qed.
(** With a fourth opening the change of row 2 cannot be hidden. *)
Example ex_c61_few b b' : size b = 3%nat -> size b' = 3%nat ->
  exists2 x, x \in n97 5 :: h_pts & opened (h_col (h_v ++ b)) x != opened (h_col (h_w ++ b')) x.
Proof.
move=> sb sb'.
have Ho := elimT allP (isT : all (fun x : F97 => x ^+ 8 != 1)%R (n97 5 :: h_pts)).
have up : uniq (n97 5 :: h_pts) by vm_compute.
have s1 : size (h_v ++ b) = 8%nat by rewrite size_cat sb.
have s2 : size (h_w ++ b') = 8%nat by rewrite size_cat sb'.
apply (@c61_too_few_blinded_rows F97 env97 env97_ok (dom97 8) dom97_8 5 2 (n97 5 :: h_pts) _ _ isT up isT Ho (h_interpolates s1) (h_interpolates s2) isT).
move=> j Hj; rewrite /po_evals; cbn [o_data pd_evals h_col].
rewrite !nth_cat; case: ltnP Hj => [|_ _ //].
by do 5 (case: j => [|j]; first by vm_compute).
Qed.

(** prove() does not ask for enough blinded rows: here is an accepted proof with more evaluations of the permutation
    products than these have blinded rows altogether. *)
Lemma r_few_rows : (size (tp_z_commitments r_proof) * (8 - (pa_usable_rows (ix_perm (vk_index r_vk))).+1) < size (tp_z_evals r_proof))%nat.
Proof. by vm_compute. Qed.
Lemma r_few_run : tp_prove env97 (PC := KZG97) FS97 srs97 r_vk r_pre r_ws r_ins r_vos 8 11%num = Ok (r_proof, (ok_or (r_dummy, 0%num) r_run).2).
Proof. rewrite -r_run_ok /r_run; reflexivity. Qed.
Theorem c61_enough_rows_refuted :
  ~ (forall (F : fieldType) (env : fenv F) (PC : pcs F) (FS : fsrng F) ck vk (pre : prover_pre PC) ws ins vos n zk pf zk',
       fenv_ok env -> tp_prove env FS ck vk pre ws ins vos n zk = Ok (pf, zk') ->
       (size (tp_z_evals pf) <= size (tp_z_commitments pf) * (n - (pa_usable_rows (ix_perm (vk_index vk))).+1))%nat).
Proof.
move=> H; have := H _ _ _ _ _ _ _ _ _ _ _ _ _ _ env97_ok r_few_run.
by rewrite leqNgt r_few_rows.
Qed.
Print Assumptions c61_enough_rows_refuted.
Example ex_c61_accepted : (r_verify r_proof r_vins).1 = Ok tt. Proof. exact ex_c44. Qed.
