(** The verifier's columns: leaves answered by opened evaluations; forged lookup columns;
    compression with theta. *)
From mathcomp Require Import all_ssreflect all_algebra zify.
From Coq Require Import String Lia.
From Verif Require Import Base ModelPoly ModelVO ModelOracle ModelPC ModelPermutation ModelLookup
  ModelIndexer ModelMultiproof ModelProtocol Spec SpecProtocol
  ProofBase ProofPoly ProofDomain ProofVO ProofOracle ProofPermArg ProofLookup ProofColumns ProofOpen.

Set Implicit Arguments.
Unset Strict Implicit.
Unset Printing Implicit Defensive.

Import GRing.Theory.
Local Open Scope ring_scope.

(** ** C30 *)
Section Forge.
Variable F : fieldType.
Lemma rows_with_same n u beta gamma (a s a' s' z : nat -> F) :
  lookup_rows_with n u u beta gamma a s a' s' z <-> lookup_rows_hold n u beta gamma a s a' s' z.
Proof. by []. Qed.

Lemma forged_rows n u (beta gamma : F) (a s f : nat -> F) : (u.+1 < n)%N ->
  (forall i, (i <= u)%N -> f i + beta != 0 /\ f i + gamma != 0) ->
  exists z, lookup_rows_with n 0 u beta gamma a s f f z.
Proof.
move=> un nz.
pose r i := (a i + beta) * (s i + gamma) / ((f i + beta) * (f i + gamma)).
exists (fun i => \prod_(1 <= j < i) r j) => i Hi c; rewrite !inE.
have z0 : \prod_(1 <= j < 0) r j = 1 by rewrite big_geq.
have [i0|ip] := posnP i.
  rewrite i0 z0 ltn0 /= addr0 !subrr !(mul0r, mulr0, mul1r) !subrr !orbb => /eqP; exact.
rewrite /= !mul0r add0r !subrr !mulr0 !mul0r.
case: ltnP => [ui|iu]; first by rewrite subrr !mul0r !orbb => /eqP.
rewrite rot_next_row; last by apply: leq_ltn_trans un.
rewrite big_nat_recr //= /r.
have [h1 h2] := nz i iu; suff -> : forall p, p * ((a i + beta) * (s i + gamma) / ((f i + beta) * (f i + gamma))) * (f i + beta) * (f i + gamma) - p * (a i + beta) * (s i + gamma) = 0.
  by rewrite mulr0 !orbb => /eqP.
move=> p; rewrite -(mulrA _ (f i + beta)) -(mulrA p) divfK ?mulf_neq0 //.
by rewrite -(mulrA p) subrr.
Qed.
End Forge.

(** ** C31 *)
Section Theta.
Variable F : fieldType.
Lemma compressed_poly (theta : F) (vs : seq F) : compressed theta vs = (\sum_(j < size vs) vs`_j *: 'X^j).[theta].
Proof.
rewrite /compressed horner_sum; apply: eq_bigr => j _; by rewrite hornerZ hornerXn mulrC.
Qed.
Lemma theta_separates m (t : seq F) (rows : seq (seq F)) :
  size t = m -> (forall r, r \in rows -> size r = m /\ r <> t) ->
  at_most (size rows * m.-1) (fun theta => exists2 r, r \in rows & compressed theta t = compressed theta r).
Proof.
move=> st Hr.
pose D (r : seq F) : {poly F} := \poly_(j < m) (t`_j - r`_j).
have DE r theta : size r = m -> (D r).[theta] = compressed theta t - compressed theta r.
  move=> sr; rewrite /compressed st sr -sumrB horner_poly; apply: eq_bigr => j _.
  by rewrite -mulrBr mulrC.
have D0 r : r \in rows -> D r != 0.
  move=> Hin; have [sr ne] := Hr r Hin; apply/eqP => E; apply: ne; apply: (@eq_from_nth _ 0) => [|i Hi]; first by rewrite sr st.
  by move/polyP/(_ i): E; rewrite coef_poly -sr Hi coef0 => /eqP; rewrite subr_eq0 => /eqP.
have P0 : \prod_(r <- rows) D r != 0.
  by rewrite big_seq; elim/big_ind: _ => [||r Hin]; [exact: oner_neq0|exact: mulf_neq0|exact: D0].
apply: (roots_at_most P0).
  elim: rows Hr D0 {P0} => [|r rows IH] Hr D0; first by rewrite big_nil size_poly1.
  rewrite big_cons mulSn; apply: leq_trans (size_mul_leq _ _) _.
  have: (size (\prod_(r <- rows) D r)%R <= (size rows * m.-1).+1)%N.
    apply: IH => r' H'; [apply: Hr|apply: D0]; by rewrite inE H' orbT.
  have: (size (D r) <= m)%N by exact: size_poly.
  have [sr ne] := Hr r (mem_head _ _).
  have m0 : (0 < m)%N by case: (posnP m) => // m0; case: ne; move: sr st; rewrite m0 => /size0nil-> /size0nil->.
  rewrite -/(size rows).
  generalize (size rows * m.-1)%N (size (D r)) (size (\prod_(j <- rows) D j)%R) => v x y; lia.
move=> theta [r Hin E]; rewrite (perm_big _ (perm_to_rem Hin)) big_cons hornerM /=.
by rewrite DE ?E ?subrr ?mul0r //; case: (Hr r Hin).
Qed.
End Theta.

(** ** C32: leaves on the verifier's side. *)
Section Leaves.
Variables (F : fieldType) (env : fenv F) (C : Type).
Hypothesis eok : fenv_ok env.
Variables (d : domain F) (x : F).
Hypothesis dok : domain_ok d.
Let w := dgen d.

Lemma mirrors_labels P P' (vs : seq (oracle P)) (ps : seq (oracle P')) : mirrors vs ps ->
  map (@o_label P) vs = map (@o_label P') ps.
Proof.
move=> m; have -> : map (@o_label P) vs = map fst [seq (o_label o, o_rots o) | o <- vs] by rewrite -map_comp.
by rewrite m -map_comp.
Qed.

Lemma resolve_mirror P P' (vs : seq (oracle P)) (ps : seq (oracle P')) l e : map (@o_label P) vs = map (@o_label P') ps ->
  uniq (map (@o_label P') ps) -> l \in map (@o_label P') ps ->
  exists j v p, [/\ resolve vs l e = Ok v, resolve ps l e = Ok p, idx vs j = Ok v, idx ps j = Ok p & named ps l = Some p].
Proof.
move=> sl up Hl; have [p [j [ip rp np lp]]] := named_resolve e up Hl.
move: rp; rewrite /resolve sl; case E: (label_index _ _) => [i|] // ip'.
have [v iv _] := idx_map_eq sl ip'.
exists i, v, p; by rewrite -ip'.
Qed.

Lemma truthful_query (vs : seq (voracle F C)) (ps : seq (poracle F)) q e r : truthful w x vs ps -> uniq (map (@o_label _) ps) ->
  oq_label q \in map (@o_label _) ps -> declares ps (OQuery (oq_label q) r (oq_type q)) ->
  rbind (resolve vs (oq_label q) e) (fun o => vo_query o (rot_point w r x)) = Ok (peval (poly_named ps (oq_label q)) (rot_point w r x)).
Proof.
move=> [m t] up Hl; have [j [v [p [rv rp iv ip np]]]] := resolve_mirror e (mirrors_labels m) up Hl.
by rewrite /declares /= np /= => Hr; rewrite rv /= (t j v p r) // /poly_named np.
Qed.

Lemma declares_mem P (os : seq (oracle P)) q : declares os q -> oq_label q \in map (@o_label P) os.
Proof.
rewrite /declares /named; elim: os => //= o os IH; case: eqP => [-> _|ne]; rewrite inE ?eqxx //.
by move/IH->; rewrite orbT.
Qed.

Lemma instance_query (vins : seq (ioracle F)) (ins : seq (poracle F)) l e y : same_instances vins ins ->
  uniq (map (@o_label _) ins) -> l \in map (@o_label _) ins ->
  rbind (resolve vins l e) (fun o => io_query o y) = Ok (peval (poly_named ins l) y).
Proof.
move=> m up Hl.
have sl : map (@o_label _) vins = map (@o_label _) ins.
  have -> : map (@o_label _) vins = map fst [seq (o_label o, o_data o) | o <- vins] by rewrite -map_comp.
  by rewrite m -map_comp.
have [j [v [p [rv rp iv ip np]]]] := resolve_mirror e sl up Hl.
rewrite rv /= /io_query /poly_named np /=.
by have [v' iv' [_ E]] := idx_map_eq m ip; move: iv' E; rewrite iv => -[->] ->.
Qed.

Variables (ws ins fs : seq (poracle F)) (vws vfs : seq (voracle F C)) (vins : seq (ioracle F)).
Hypothesis tw : truthful w x vws ws.
Hypothesis tf : truthful w x vfs fs.
Hypothesis ti : same_instances vins ins.
Hypothesis uw : uniq (map (@o_label _) ws).
Hypothesis ui : uniq (map (@o_label _) ins).
Hypothesis uf : uniq (map (@o_label _) fs).

Lemma oquery_eta (q : oquery) : OQuery (oq_label q) (oq_rot q) (oq_type q) = q.
Proof. by case: q. Qed.

(** The leaf closure of the main identity. *)
Lemma verifier_leaf_ok (PC : pcs F) (vws' vfs' : seq (voracle F (pc_com PC))) q :
  truthful w x vws' ws -> truthful w x vfs' fs ->
  query_ok ws ins fs (dsize d) q -> declared ws fs q ->
  verifier_leaf vws' vins vfs' x (elements d) q = Ok (point_value ws ins fs w x q).
Proof.
move=> tw' tf' /andP[res rn] dec; rewrite /verifier_leaf compute_point_ok //= /query_leaf /point_value /oracles_of.
move: res dec; rewrite /query_resolves /declared -/w; case E: (oq_type q) => /= res dec.
- move: tw' => [m t]; have [j [v [p [rv rp iv ip np]]]] := resolve_mirror (MissingWitnessOracle (oq_label q)) (mirrors_labels m) uw res.
  move: dec; rewrite /declares np /= => Hr; rewrite rv /= (t j v p (oq_rot q)) // /poly_named np //.
- exact: instance_query.
- move: tf' => [m t]; have [j [v [p [rv rp iv ip np]]]] := resolve_mirror (MissingFixedOracle (oq_label q)) (mirrors_labels m) uf res.
  move: dec; rewrite /declares np /= => Hr; rewrite rv /= (t j v p (oq_rot q)) // /poly_named np //.
Qed.

(** The leaf closure of the lookup columns drops the rotation of fixed and instance queries. *)
Variables (ts : seq (poracle F)) (vts : seq (voracle F C)).
Hypothesis tt : truthful w x vts ts.
Hypothesis ut : uniq (map (@o_label _) ts).

Lemma rot_point_curr (y z : F) : rot_point y curr z = z.
Proof. by rewrite /rot_point /= expr0 mulr1. Qed.

Lemma verifier_columns_ok k (es : seq (expr F oquery)) tqs theta :
  size es = size tqs -> exprs_ok ws ins fs (dsize d) es ->
  (forall e q, occurs e es -> occurs q (leaves e) -> declared ws fs (unrotated q)) ->
  table_queries_ok ts tqs -> tables_declared ts tqs ->
  exists a s, [/\ construct_a_and_s_verifier vws vins vfs vts k es tqs theta x (elements d) = Ok (a, s),
    vo_query a x = Ok (compressed theta [seq meaning (fun q => point_value ws ins fs w x (unrotated q)) e | e <- es]) &
    vo_query s x = Ok (table_point ts tqs theta x)].
Proof.
move=> ss Hes Hdec Hts Hdt; rewrite /construct_a_and_s_verifier ss eqxx /rassert rbind_Ok.
pose g (q : oquery) := point_value ws ins fs w x (unrotated q).
rewrite (@compress_ok _ _ _ _ (meaning g)); last first.
  move=> e He; apply: eval_res_ok => q Hq.
  have /andP[res rn] := Hes e q He Hq; have dec := Hdec e q He Hq.
  move: res dec; rewrite /query_resolves /declared /g /point_value /oracles_of /unrotated /=.
  case E: (oq_type q) => /= res dec.
  - rewrite compute_point_ok // rbind_Ok -/w; apply: truthful_query => //; by rewrite E.
  - by rewrite rot_point_curr; apply: instance_query.
  - have := @truthful_query _ _ q (MissingFixedOracle (oq_label q)) curr tf uf res.
    rewrite rot_point_curr; apply; by rewrite E.
rewrite rbind_Ok (@compress_ok _ _ _ _ (fun q => peval (poly_named ts (oq_label q)) x)); last first.
  move=> q Hq; have [Ht Hl] := Hts q Hq; rewrite /table_leaf Ht.
  have := @truthful_query _ _ q (MissingFixedOracle (oq_label q)) curr tt ut Hl.
  by rewrite rot_point_curr; apply; rewrite Ht; exact: Hdt.
rewrite rbind_Ok; eexists _, _; split; first by reflexivity.
- by rewrite /vo_query /= eqxx.
- by rewrite /vo_query /= eqxx.
Qed.

Lemma unrotated_id q : (oq_type q <> Witness -> oq_rot q = curr) -> unrotated q = q.
Proof. case: q => l r [] H; rewrite /unrotated //=; have /= -> // := H _; discriminate. Qed.

Lemma map_occurs A B (f g : A -> B) (s : seq A) : (forall a, occurs a s -> f a = g a) -> map f s = map g s.
Proof. elim: s => //= a s IH H; rewrite H; [congr (_ :: _); apply: IH => b Hb; apply: H; by right|by left]. Qed.

Lemma verifier_columns_eq k (es : seq (expr F oquery)) tqs theta :
  size es = size tqs -> exprs_ok ws ins fs (dsize d) es -> exprs_declared ws fs es ->
  (forall e q, occurs e es -> occurs q (leaves e) -> oq_type q <> Witness -> oq_rot q = curr) ->
  table_queries_ok ts tqs -> tables_declared ts tqs ->
  exists a s, [/\ construct_a_and_s_verifier vws vins vfs vts k es tqs theta x (elements d) = Ok (a, s),
    vo_query a x = Ok (lookup_poly ws ins fs w es theta).[x] &
    vo_query s x = Ok (table_point ts tqs theta x)].
Proof.
move=> ss Hes Hdec Hcur Hts Hdt.
have [|a [s [E Ea Es]]] := verifier_columns_ok k theta ss Hes _ Hts Hdt.
  move=> e q He Hq; rewrite unrotated_id; [exact: Hdec Hq|exact: Hcur Hq].
exists a, s; split=> //; rewrite Ea lookup_poly_at; congr (Ok (compressed _ _)).
apply: map_occurs => e He; apply: eq_meaning => q Hq; by rewrite unrotated_id //; exact: Hcur Hq.
Qed.
End Leaves.

(** ** Degrees of expressions. *)
Section ExprDegree.
Variable F : fieldType.
Lemma size_comp_lin (p : {poly F}) c : (size (p \Po (c *: 'X)) <= size p)%N.
Proof.
have [->|p0] := eqVneq p 0; first by rewrite comp_poly0.
apply: leq_trans (size_comp_poly_leq _ _) _.
have := size_scale_leq c ('X : {poly F}); rewrite size_polyX.
have : (0 < size p)%N by rewrite size_poly_gt0.
move: (size p) (size (c *: 'X)) => a b a0; case: b => [|[|[|]]] //= _; lia.
Qed.

Lemma size_pmeaning_bound (leaf : oquery -> {poly F}) k e :
  (forall q, occurs q (leaves e) -> (size (leaf q) <= k.+1)%N) -> (size (pmeaning leaf e) <= (expr_degree k e).+1)%N.
Proof.
elim: e => [c|q|a IH|a IHa b IHb|a IHa b IHb|a IH c] H /=.
- by rewrite size_polyC; case: (c != 0).
- by apply: H; left.
- by rewrite size_opp; apply: IH.
- apply: leq_trans (size_add _ _) _; rewrite geq_max; apply/andP; split.
    by apply: leq_trans (IHa _) _ => [q Hq|]; [apply: H; apply/occurs_cat; left|rewrite ltnS leq_maxl].
  by apply: leq_trans (IHb _) _ => [q Hq|]; [apply: H; apply/occurs_cat; right|rewrite ltnS leq_maxr].
- apply: leq_trans (size_mul_leq _ _) _.
  have Ha : (size (pmeaning leaf a) <= (expr_degree k a).+1)%N by apply: IHa => q Hq; apply: H; apply/occurs_cat; left.
  have Hb : (size (pmeaning leaf b) <= (expr_degree k b).+1)%N by apply: IHb => q Hq; apply: H; apply/occurs_cat; right.
  move: Ha Hb; move: (size _) (size _) => x y; lia.
- by apply: leq_trans (size_scale_leq _ _) (IH _).
Qed.

Lemma expr_degree_scale Q k (e : expr F Q) : expr_degree k e = (expr_degree 1 e * k)%N.
Proof.
elim: e => [c|q|a IH|a IHa b IHb|a IHa b IHb|a IH c] //=; rewrite ?mul1n //.
  by rewrite IHa IHb maxnMl.
by rewrite IHa IHb mulnDl.
Qed.

Variables (env : fenv F) (d ext : domain F) (ws ins fs : seq (poracle F)).
Hypothesis n0 : (0 < dsize d)%N.
Hypothesis wfw : well_formed env d ext ws.
Hypothesis wfi : well_formed env d ext ins.
Hypothesis wff : well_formed env d ext fs.

Lemma size_query_poly w q : query_resolves ws ins fs q -> (size (query_poly ws ins fs w q) <= dsize d)%N.
Proof.
move=> res; apply: leq_trans (size_comp_lin _ _) _.
have [o [_ E [io _]]] := query_leaf_resolves wfw wfi wff (fun _ _ => Ok tt) res.
by rewrite /poly_named E; apply: leq_trans (size_Poly _) (size_po_poly io).
Qed.

Lemma size_expr_poly w e : (forall q, occurs q (leaves e) -> query_resolves ws ins fs q) ->
  (size (expr_poly ws ins fs w e) <= (expr_degree (dsize d).-1 e).+1)%N.
Proof.
move=> H; rewrite expr_polyE; apply: size_pmeaning_bound => q /H Hq; rewrite prednK //; exact: size_query_poly.
Qed.

Lemma size_lookup_poly_linear w (es : seq (expr F oquery)) theta : exprs_ok ws ins fs (dsize d) es ->
  (forall e, occurs e es -> (expr_degree 1 e <= 1)%N) ->
  (size (lookup_poly ws ins fs w es theta) <= dsize d)%N.
Proof.
move=> He Hd; apply: size_compressed => p /occurs_mem/occurs_map[e Hin ->].
apply: leq_trans (size_expr_poly w _) _.
  by move=> q Hq; have /andP[] := He e q Hin Hq.
have := Hd e Hin; rewrite (expr_degree_scale (dsize d).-1).
by move: (expr_degree 1 e) => [|[|]] // _; rewrite ?mul0n ?mul1n // prednK.
Qed.
End ExprDegree.
