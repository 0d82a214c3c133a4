(** What the multi-opening does not bind: proofs without q_evals, and individual claims. *)
From mathcomp Require Import all_ssreflect all_algebra zify.
From Verif Require Import Base ModelPoly ModelVO ModelOracle ModelPC ModelMultiproof Spec SpecProtocol SpecMultiopen
  ProofBase ProofPoly ProofDomain ProofOracle ProofLookup ProofVO ProofMultiopen ProofMultiopen2.

Set Implicit Arguments.
Unset Strict Implicit.
Unset Printing Implicit Defensive.

Import GRing.Theory.
Local Open Scope ring_scope.
Local Arguments mo_verifier_item : simpl never.
Local Arguments mo_f_eval : simpl never.

Section Attack.
Variables (F : fieldType) (env : fenv F) (PC : pcs F) (FS : fsrng F).
Hypothesis eok : fenv_ok env.
Variables (ck : pc_ck PC) (pvk : pc_vk PC).
Hypothesis law : pcs_correct ck pvk.
Variables (ds : nat) (d : domain F) (xi : F).
Hypothesis Ed : domain_new env ds = Some d.
Let dok : domain_ok d. Proof. by have [_ _ ? _] := domain_new_spec eok Ed. Qed.
Notation vorc := (voracle F (pc_com PC)).

Lemma rmapM_point k : all (fun r : rotation => r.1 < dsize d)%N k ->
  rmapM (fun r => compute_evaluation_point r xi (elements d)) k = Ok (points d xi k).
Proof.
elim: k => //= r k IH /andP[Hr /IH ->]; by rewrite compute_point_ok.
Qed.

Lemma item_ok pows k (os : seq vorc) : all (fun r : rotation => r.1 < dsize d)%N k -> uniq (points d xi k) ->
  (forall v, occurs v os -> well_claimed d xi v /\ o_rots v = k) ->
  exists it, mo_verifier_item pows (elements d) xi (k, os) = Ok it.
Proof.
move=> Hk U H; rewrite /mo_verifier_item.
rewrite (rfoldM_occurs (g := fun c t => pc_add c (pc_scale (com_of t.1) t.2))); last first.
  by move=> c t /occurs_zip_fst Ht; have [[[c' E] _ _ _] _] := H _ Ht; rewrite /com_of E.
rewrite rbind_Ok (@batched_intro _ _ _ _ _ _ _ _ _ [::] [seq (p, \sum_(t <- zip os pows) t.2 * ok_or 0 (vo_query t.1 p)) | p <- points d xi k]) /=; first by eexists.
- by rewrite -map_comp map_id_in // rmapM_point.
- by rewrite -map_comp map_id_in.
- by [].
- move=> i; rewrite size_map => Hi; rewrite (nth_map 0) //=.
  rewrite (batch_ok _ (g := fun v => ok_or 0 (vo_query v (points d xi k)`_i))) // => v Hv.
  have := mem_nth 0 Hi => /mapP [r Hr ->]; have [[_ _ _ Hq] Ek] := H _ Hv; rewrite -Ek in Hr.
  by have [e ->] := Hq r Hr.
Qed.

(** The proof without q_evals. *)
Lemma empty_proof_accepted (vs : seq vorc) (fs : fs_state FS) :
  (forall x, exists pi, pc_open ck [::] x (pc_empty PC) = Ok pi) ->
  (forall v, occurs v vs -> well_claimed d xi v) ->
  exists pi, mo_verify env pvk (MoProof [::] (pc_zero PC) pi) vs xi ds fs = Ok tt.
Proof.
move=> Ho H; have [pi] := Ho (fs_rand (fs_absorb (fs_rand (fs_rand fs).2).2 (pc_bytes (pc_zero PC)))).1.
move=> Hpi; exists pi; move: Hpi; rewrite /mo_verify Ed rbind_Ok /=.
case: (fs_rand fs) => [x1 fs1]; case: (fs_rand fs1) => [x2 fs2] /=; case: (fs_rand _) => [x3 fs3] /= Hpi; case: (fs_rand _) => [x4 fs4].
have -> : mo_zip (powers (size vs) 1 x1) (elements d) xi x3 (opening_sets [eta o_rots (P:=vdata F (pc_com PC))] vs) [::] = Ok [::].
  case E: (opening_sets _ vs) => [|[k os] S] //=.
  have HS : occurs (k, os) (opening_sets [eta o_rots (P:=vdata F (pc_com PC))] vs) by rewrite E; left.
  have Hos v : occurs v os -> well_claimed d xi v /\ o_rots v = k.
    by move=> Hv; have [<- Hv'] := opening_sets_mem HS Hv; split=> //; apply: H.
  have [v Hv] := occurs_mem_nonempty (opening_sets_nonempty HS).
  have [[_ Hk Hu _] Ek] := Hos _ Hv; rewrite Ek in Hk Hu.
  by have [it ->] := item_ok (powers (size vs) 1 x1) Hk Hu Hos.
rewrite rbind_Ok /=; have -> T U (l : seq U) : zip ([::] : seq T) l = [::] by case: l.
by have /= -> := pl_open law (pl_zero law) Hpi.
Qed.
End Attack.

Section Batched.
Variables (F : fieldType) (env : fenv F) (PC : pcs F) (FS : fsrng F).
Notation vorc := (voracle F (pc_com PC)).

Lemma eq_batched_evals (O O' : Type) (q : O -> F -> res F) (q' : O' -> F -> res F) dup omegas xi pows os os' rots acc :
  (forall r pt, r \in rots -> compute_evaluation_point r xi omegas = Ok pt -> batch q pows os pt = batch q' pows os' pt) ->
  batched_evals q dup omegas xi pows os rots acc = batched_evals q' dup omegas xi pows os' rots acc.
Proof.
elim: rots acc => //= r rots IH acc H; case E: (compute_evaluation_point _ _ _) => [pt| |] //.
rewrite !rbind_Ok -/(batch q pows os pt) -/(batch q' pows os' pt) (H r pt) ?mem_head //.
case: (batch _ _ _ _) => [ev| |] //; rewrite !rbind_Ok; case: ifP => // _.
by apply: IH => r' pt' Hr'; apply: H; rewrite inE Hr' orbT.
Qed.

Lemma verdict_batched (pvk : pc_vk PC) ds d (zs : seq (vorc * vorc)) xi (fs : fs_state FS) pf :
  fenv_ok env -> domain_new env ds = Some d ->
  (forall z, occurs z zs -> o_rots z.1 = o_rots z.2 /\ get_commitment z.1 = get_commitment z.2) ->
  (forall z rot, occurs z zs -> rot \in o_rots z.1 -> let k := [seq y <- zs | o_rots y.1 == o_rots z.1] in
     let p := rot_point (dgen d) rot xi in
     (forall y, occurs y k -> (exists e, vo_query y.1 p = Ok e) /\ (exists e, vo_query y.2 p = Ok e)) /\
     \sum_(t <- zip k (powers (size zs) 1 (fs_rand fs).1)) t.2 * ok_or 0 (vo_query t.1.1 p) =
     \sum_(t <- zip k (powers (size zs) 1 (fs_rand fs).1)) t.2 * ok_or 0 (vo_query t.1.2 p)) ->
  mo_verify env pvk pf (map fst zs) xi ds fs = mo_verify env pvk pf (map snd zs) xi ds fs.
Proof.
move=> eok Ed Hz Hb; have [_ _ dok _] := domain_new_spec eok Ed; rewrite /mo_verify Ed !rbind_Ok !size_map.
move: Hb; case: (fs_rand fs) => [x1 fs1]; rewrite [(x1, fs1).1]/= => Hb; case: (fs_rand fs1) => [x2 fs2].
case: (fs_rand (fs_absorb fs2 _)) => [x3 fs3]; case: (fs_rand (fs_absorb fs3 _)) => [x4 fs4].
set T := opening_sets (fun z : vorc * vorc => o_rots z.1) zs.
have E1 : opening_sets (fun o : vorc => o_rots o) (map fst zs) = [seq (kl.1, map fst kl.2) | kl <- T] by rewrite opening_sets_map.
have E2 : opening_sets (fun o : vorc => o_rots o) (map snd zs) = [seq (kl.1, map snd kl.2) | kl <- T].
  by rewrite opening_sets_map; congr map; apply: opening_sets_eq => z /Hz [-> _].
rewrite E1 E2; congr rbind.
have HT k l : occurs (k, l) T -> mo_verifier_item (powers (size zs) 1 x1) (elements d) xi (k, map fst l) =
  mo_verifier_item (powers (size zs) 1 x1) (elements d) xi (k, map snd l).
  move=> Ho; have El := opening_setsE Ho; rewrite /mo_verifier_item.
  have Hl z : occurs z l -> o_rots z.1 = k /\ occurs z zs by move=> H; exact: (opening_sets_mem Ho H).
  set f := fun q (ox : vorc * F) => c <- get_commitment ox.1 ;; Ok (pc_add q (pc_scale c ox.2)).
  have -> : rfoldM f (pc_zero PC) (zip (map fst l) (powers (size zs) 1 x1)) = rfoldM f (pc_zero PC) (zip (map snd l) (powers (size zs) 1 x1)).
    rewrite !zip_mapl !rfoldM_map; apply: eq_rfoldM_occurs => q t /occurs_zip_fst /Hl [_ /Hz [_ E]] /=.
    by rewrite /f /= E.
  case: (rfoldM f _ _) => [q| |] //; rewrite !rbind_Ok; congr rbind.
  apply: eq_batched_evals => r pt Hr /(compute_point_inv dok) [_ Ept].
  have [z Hzl] := occurs_mem_nonempty (opening_sets_nonempty Ho); have [Ek Hzz] := Hl _ Hzl.
  rewrite -Ek in Hr; have := Hb z r Hzz Hr; rewrite Ek -El -Ept => -[Hq Es].
  rewrite (batch_ok _ (g := fun v => ok_or 0 (vo_query v pt))); last first.
    by move=> v /occurs_map [y Hy ->]; have [[e ->] _] := Hq _ Hy.
  rewrite (batch_ok _ (g := fun v => ok_or 0 (vo_query v pt))); last first.
    by move=> v /occurs_map [y Hy ->]; have [_ [e ->]] := Hq _ Hy.
  by rewrite !zip_mapl !big_map Es.
move: (mp_q_evals pf) HT; elim: (T) => [|[k l] T' IH] [|e qe] //= HT.
  by rewrite HT //; left.
rewrite HT; last by left.
case: (mo_verifier_item _ _ _ _) => [[q evs]| |] //=; rewrite IH // => k' l' H'; apply: HT; by right.
Qed.
End Batched.
