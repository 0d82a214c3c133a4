(** The prover's rounds, inverted, and how extended evaluations leave everything else alone. *)
From mathcomp Require Import all_ssreflect all_algebra.
From mathcomp Require Import zify.
From Coq Require Import String.
From Verif Require Import Base ModelPoly ModelVO ModelOracle ModelPC ModelPermutation
  ModelLookup ModelIndexer ModelMultiproof ModelProtocol Spec SpecProtocol SpecPIOP SpecMultiopen SpecCircuit
  ProofBase ProofEach ProofOracle ProofPermutation ProofPermArg ProofOpen ProofPIOP ProofColumns ProofVerifierCols.

Set Implicit Arguments.
Unset Strict Implicit.
Unset Printing Implicit Defensive.

Import GRing.Theory.
Local Open Scope ring_scope.

Section Ext.
Variables (F : fieldType) (env : fenv F) (ext : domain F).
Notation f := (compute_extended_evals env ext).
Implicit Types os : seq (poracle F).

Lemma named_ext os l : named (map f os) l = omap f (named os l).
Proof. by rewrite /named; elim: os => //= o os IH; case: ifP. Qed.
Lemma labels_ext os : map (@o_label _) (map f os) = map (@o_label _) os.
Proof. by rewrite -map_comp. Qed.
Lemma copied_ext os : copied (map f os) = map f (copied os).
Proof. by rewrite /copied filter_map. Qed.
Lemma column_ext os l : column_named (map f os) l = column_named os l.
Proof. by rewrite /column_named named_ext; case: (named os l). Qed.
Lemma oracles_of_ext ws ins fs q : oracles_of (map f ws) (map f ins) (map f fs) q = map f (oracles_of ws ins fs q).
Proof. by rewrite /oracles_of; case: (oq_type q). Qed.
Lemma row_value_ext ws ins fs n i : row_value (map f ws) (map f ins) (map f fs) n i =1 row_value ws ins fs n i.
Proof. by move=> q; rewrite /row_value oracles_of_ext column_ext. Qed.
Lemma query_resolves_ext ws ins fs q : query_resolves (map f ws) (map f ins) (map f fs) q = query_resolves ws ins fs q.
Proof. by rewrite /query_resolves !labels_ext. Qed.
Lemma exprs_ok_ext ws ins fs n es : exprs_ok ws ins fs n es -> exprs_ok (map f ws) (map f ins) (map f fs) n es (F := F).
Proof. by move=> H e q He Hq; rewrite /query_ok query_resolves_ext; exact: H He Hq. Qed.
Lemma declares_ext os q : declares (map f os) q = declares os q.
Proof. by rewrite /declares named_ext; case: (named os _). Qed.
Lemma exprs_declared_ext ws fs es : exprs_declared ws fs es -> exprs_declared (map f ws) (map f fs) es (F := F).
Proof. by move=> H e q He Hq; rewrite /declared !declares_ext; exact: H He Hq. Qed.
Lemma tables_ext ts tqs : table_queries_ok ts tqs /\ tables_declared ts tqs ->
  table_queries_ok (map f ts) tqs /\ tables_declared (map f ts) tqs.
Proof.
by case=> H1 H2; split=> q Hq; rewrite ?labels_ext ?declares_ext; [exact: H1|exact: H2].
Qed.
Lemma meaning_ext ws ins fs n i (e : expr F oquery) :
  meaning (row_value (map f ws) (map f ins) (map f fs) n i) e = meaning (row_value ws ins fs n i) e.
Proof. by elim: e => //= [q|a ->|a -> b ->|a -> b ->|a -> c] //; rewrite row_value_ext. Qed.
Lemma mirrors_ext P (vs : seq (oracle P)) os : mirrors vs os -> mirrors vs (map f os).
Proof. by rewrite /mirrors -map_comp. Qed.
Lemma instances_ext vins os : same_instances vins os -> same_instances vins (map f os).
Proof. by rewrite /same_instances -map_comp. Qed.
Lemma rots_below_ext os n : rots_below os n -> rots_below (map f os) n.
Proof. by move=> H j o Hj r; have [o' Ho ->] := idx_map_inv Hj; exact: (H j _ Ho). Qed.
Lemma well_formed_ext d os : (forall o, occurs o os -> interpolates d o) -> uniq (map (@o_label _) os) ->
  well_formed env d ext (map f os).
Proof.
by move=> H u; split=> [|o Ho]; rewrite ?labels_ext //; have [o' /H Hi ->] := occurs_map Ho.
Qed.
Lemma prepared_ext d o : interpolates d o -> prepared env d ext (f o).
Proof. by []. Qed.

Lemma resolve_ext os l e : resolve (map f os) l e = rmap f (resolve os l e).
Proof. by rewrite /resolve labels_ext; case: (label_index _ l) => //= i; exact: idx_map. Qed.
Lemma eq_edegree (Q : Type) (g h : Q -> res nat) (e : expr F Q) : g =1 h -> edegree e g = edegree e h.
Proof. by move=> E; elim: e => //= a -> b ->. Qed.
Lemma index_ext (env' : fenv F) vos lookups ws ins fs d z_h info u :
  index env' (fun o : pdata F => pd_permute o) vos lookups (map f ws) (map f ins) (map f fs) d z_h info u =
  index env' (fun o : pdata F => pd_permute o) vos lookups ws ins fs d z_h info u.
Proof.
have E n z : compute_quotient_degree (map f ws) (map f ins) (map f fs) vos n z = compute_quotient_degree ws ins fs vos n z.
  rewrite /compute_quotient_degree; congr rbind; apply: eq_rfoldM => m vo; case: (gv_get_expression vo) => //= e.
  rewrite (@eq_edegree _ _ (query_leaf ws ins fs (fun _ _ => get_degree n) (fun _ _ => get_degree n) (fun _ _ => get_degree n)) e) // => q.
  by rewrite /query_leaf !resolve_ext; case: (oq_type q); case: (resolve _ _ _).
by rewrite /index E count_map.
Qed.
End Ext.

(** What the indexer puts in the key, beside what [index_inv] says. *)
Lemma index_rows (F : fieldType) (env : fenv F) PW PI PF (permute : PW -> bool) vos lookups (ws : seq (oracle PW)) (ins : seq (oracle PI))
    (fs : seq (oracle PF)) (d : domain F) z_h info u vk :
  index env permute vos lookups ws ins fs d z_h info u = Ok vk ->
  [/\ pa_usable_rows (ix_perm (vk_index vk)) = pi_u info, pa_deltas (ix_perm (vk_index vk)) = pi_deltas info &
      ix_usable_rows (vk_index vk) = u].
Proof.
rewrite /index; case: (compute_quotient_degree _ _ _ _ _ _) => [qd|//|//] /=; case: (domain_new env qd) => [e0|//] /=.
case: ifP => // _; case: (udiv _ _) => [s0|//|//] /=.
rewrite /perm_new; case: (usub _ _) => [mc|//|//] /=; case: (domain_new env _) => [e1|//] /=.
by case: (compute_zh_evals _ _ _ _) => [zh|//|//] /= [<-].
Qed.

Section Rounds.
Variables (F : fieldType) (env : fenv F) (PC : pcs F).

Lemma commit_each (ck : pc_ck PC) (os : seq (poracle F)) zk cs rs zk' : commit_all ck (labeled os) zk = Ok (cs, rs, zk') ->
  each3 (fun o c r => pc_commit1 ck (po_poly o) r = Ok c) os cs rs.
Proof.
elim: os zk cs rs zk' => [|o os IH] zk cs rs zk' /=; first by case=> <- <- _.
case: (pc_sample _ _) => r zk1; case E: (pc_commit1 _ _ _) => [c|//|//] /=.
by case E2: (commit_all _ _ _) => [[[cs1 rs1] zk2]|//|//] /= [<- <- _] /=; split=> //; exact: IH E2.
Qed.

Lemma lookup_round_inv (pre : prover_pre PC) ix ws ins theta d kls zk los zk' :
  prover_lookup_round env pre ix ws ins theta d kls zk = Ok (los, zk') ->
  each2 (fun kl lo => exists es tqs zk1 zk2, [/\ gl_get_expressions kl.2 = Ok es, gl_get_table_queries kl.2 = Ok tqs &
    construct_a_and_s_polys_prover env (@pc_zk_rand F PC) ws ins (pp_fixed pre) (pp_table pre) (ix_usable_rows ix) kl.1 es tqs
      theta d (ix_ext ix) zk1 = Ok (lo, zk2)]) kls los.
Proof.
elim: kls zk los zk' => [|[k l] kls IH] zk los zk' /=; first by case=> <-.
case E1: (gl_get_expressions l) => [es|//|//] /=; case E2: (gl_get_table_queries l) => [tqs|//|//] /=.
case E3: (construct_a_and_s_polys_prover _ _ _ _ _ _ _ _ _ _ _ _ _ _) => [[lo zk1]|//|//] /=.
case E4: (prover_lookup_round _ _ _ _ _ _ _ _ _) => [[los1 zk2]|//|//] /= [<- _] /=.
by split; [exists es, tqs, zk, zk1; split|exact: IH E4].
Qed.
Lemma subset_round_inv (ix : index_info F) beta gamma d klos (zk : pc_zk PC) zs zk' :
  prover_subset_round env ix beta gamma d klos zk = Ok (zs, zk') ->
  each2 (fun kl z => exists zk1 zk2, se_construct_agg_poly env (@pc_zk_rand F PC) kl.2 beta gamma kl.1 (ix_usable_rows ix) d (ix_ext ix) zk1
     = Ok (z, zk2)) klos zs.
Proof.
elim: klos zk zs zk' => [|[k lo] klos IH] zk zs zk' /=; first by case=> <-.
case E3: (se_construct_agg_poly _ _ _ _ _ _ _ _ _ _) => [[z zk1]|//|//] /=.
case E4: (prover_subset_round _ _ _ _ _ _ _) => [[zs1 zk2]|//|//] /= [<- _] /=.
by split; [exists zk, zk1|exact: IH E4].
Qed.
Lemma agg_loop_labels Z (zk_rand : Z -> F * Z) pa beta gamma (d ext : domain F) i pr cs zk zs zk' :
  construct_agg_polys_loop env zk_rand pa beta gamma d ext i pr cs zk = Ok (zs, zk') ->
  map (@o_label _) zs = [seq append "agg_permutation_" (show_nat k) | k <- iota i (size cs)].
Proof.
elim: cs i pr zk zs zk' => [|[[ws ss] ds] cs IH] i pr zk zs zk'; cbn [construct_agg_polys_loop]; first by case=> <-.
case: (match pr with None => _ | Some _ => _ end) => [init|//|//]; cbn [rbind].
case E: (gp_construct_agg_poly _ _ _ _ _ _ _ _ _ _ _ _ _ _) => [[z zk1]|//|//]; cbn [rbind].
case E2: (construct_agg_polys_loop _ _ _ _ _ _ _ _ _ _ _) => [[zs1 zk2]|//|//]; cbn [rbind] => -[<- _].
cbn [map size iota]; rewrite (IH _ _ _ _ _ E2); congr cons.
move: E; rewrite /gp_construct_agg_poly; case: (gp_rows _ _ _ _ _ _ _ _) => [r|//|//]; cbn [rbind].
case: (usub _ 1) => [t1|//|//]; cbn [rbind]; case: (usub _ _) => [t|//|//]; cbn [rbind].
by case: (draw_n _ _ _) => b z'; case: (rassert _) => [[]|//|//]; cbn [rbind] => -[<- _].
Qed.
(** The permutation round: what the constructed aggregation polynomials satisfy. *)
Lemma permutation_round_inv (pa : permutation_argument F) (pre : prover_pre PC) (d ext : domain F) beta gamma (tc : seq (poracle F)) zk zs zk' :
  (pa_usable_rows pa < dsize d)%N ->
  (forall o, occurs o tc \/ occurs o (pp_perm pre) -> size (po_evals o) = dsize d) ->
  prover_permutation_round env pa pre tc beta gamma d ext zk = Ok (zs, zk') ->
  (nilp tc /\ zs = [::]) \/
  [/\ ~~ nilp tc, [/\ (0 < pa_max_cols pa)%N, size (pp_perm pre) = size tc, size (pa_deltas pa) = size tc &
        size zs = size (chunks (pa_max_cols pa) tc)],
      perm_rows_hold (dsize d) (pa_usable_rows pa) (pa_max_cols pa) (size tc) beta gamma (cell_value tc) (cell_value (pp_perm pre))
        (fun j i => (pa_deltas pa)`_j * dgen d ^+ i) (cell_value zs),
      map (@o_label _) zs = [seq append "agg_permutation_" (show_nat k) | k <- iota 0 (size zs)] &
      forall k z, idx zs k = Ok z -> prepared env d ext z /\
        o_rots z = if k.+1 == size zs then [:: curr; next] else sinsert rot_lt (pa_usable_rows pa, Plus) [:: curr; next]].
Proof.
move=> un Hsz; rewrite /prover_permutation_round; case: ifP => [nn [<- _]|nn E]; first by left.
right; have := E; rewrite /construct_agg_polys.
case E1: (rassert _) => [[]|//|//]; cbn [rbind]; case E2: (rassert _) => [[]|//|//]; cbn [rbind].
have s1 : size tc = size (pp_perm pre) by move: E1; rewrite /rassert; case: eqP.
have s2 : size tc = size (pa_deltas pa) by move: E2; rewrite /rassert; case: eqP.
rewrite /chunksR; case: eqP => [//|/eqP m0]; cbn [rbind].
case E3: (construct_agg_polys_loop _ _ _ _ _ _ _ _ _ _ _) => [[zs1 zk1]|//|//]; cbn [rbind].
case: (last_unwrap zs1) => [zl|//|//]; cbn [rbind]; case: (idx _ _) => [el|//|//]; cbn [rbind].
case: (rassert _) => [[]|//|//]; cbn [rbind] => -[E4 _]; rewrite E4 in E3.
have [sz [m1 K0] _ rows _] := construct_agg_rows un Hsz E.
have [_ _ zk_ _ _] := construct_agg_inv un (sws_of un Hsz) (ssg_of un Hsz (esym s1)) E.
split=> //.
- rewrite (agg_loop_labels E3) sz; congr map; congr iota.
  by rewrite !size_zip !size_chunks // -s1 -s2 !minnn.
- move=> k z Hk; have := zk_ k (idx_lt Hk); rewrite -(idx_ok_nth _ Hk) => -[h1 h2 h3]; split; last exact: h3.
  by split.
Qed.
End Rounds.
