(** Moving the claims of two quotient chunks against each other: what verify computes. *)
From mathcomp Require Import all_ssreflect all_algebra zify.
From Coq Require Import String.
From Verif Require Import Base ModelPoly ModelVO ModelOracle ModelPC ModelPermutation ModelLookup ModelIndexer ModelMultiproof ModelProtocol
  Spec SpecProtocol SpecPIOP SpecMultiopen SpecSound SpecShift ProofBase ProofPoly ProofDomain ProofOracle ProofLookup ProofVO ProofEach ProofProver ProofFront
  ProofMultiopen ProofMultiopen2 ProofMultiopen3.

Set Implicit Arguments.
Unset Strict Implicit.
Unset Printing Implicit Defensive.

Import GRing.Theory.
Local Open Scope ring_scope.
Local Arguments mo_verifier_item : simpl never.
Local Arguments mo_f_eval : simpl never.

(** ** The multi-opening *)
Section Shift.
Variables (F : fieldType) (env : fenv F) (PC : pcs F) (FS : fsrng F).
Add Field Ffield5 : (F_field_theory F).
Notation vorc := (voracle F (pc_com PC)).

(** Equal batched claims, set by set. *)
Lemma verdict_batch (pvk : pc_vk PC) ds d (zs : seq (vorc * vorc)) xi (fs : fs_state FS) pf :
  fenv_ok env -> domain_new env ds = Some d ->
  (forall z, occurs z zs -> o_rots z.1 = o_rots z.2 /\ get_commitment z.1 = get_commitment z.2) ->
  (forall z rot, occurs z zs -> rot \in o_rots z.1 -> let k := [seq y <- zs | o_rots y.1 == o_rots z.1] in
     batch (@vo_query F _) (powers (size zs) 1 (fs_rand fs).1) (map fst k) (rot_point (dgen d) rot xi) =
     batch (@vo_query F _) (powers (size zs) 1 (fs_rand fs).1) (map snd k) (rot_point (dgen d) rot xi)) ->
  mo_verify env pvk pf (map fst zs) xi ds fs = mo_verify env pvk pf (map snd zs) xi ds fs.
Proof.
move=> eok Ed Hz Hb; have [_ _ dok _] := domain_new_spec eok Ed; rewrite /mo_verify Ed !rbind_Ok !size_map.
move: Hb; case: (fs_rand fs) => [x1 fs1]; rewrite [(x1, fs1).1]/= => Hb; case: (fs_rand fs1) => [x2 fs2].
case: (fs_rand (fs_absorb fs2 _)) => [x3 fs3]; case: (fs_rand (fs_absorb fs3 _)) => [x4 fs4].
set T := opening_sets (fun z : vorc * vorc => o_rots z.1) zs.
have E1 : opening_sets (fun o : vorc => o_rots o) (map fst zs) = [seq (kl.1, map fst kl.2) | kl <- T] by rewrite opening_sets_map.
have E2 : opening_sets (fun o : vorc => o_rots o) (map snd zs) = [seq (kl.1, map snd kl.2) | kl <- T].
  by rewrite opening_sets_map; congr map; apply: opening_sets_eq => z /Hz [-> _].
rewrite E1 E2; congr rbind.
have HT k l : occurs (k, l) T -> mo_verifier_item (powers (size zs) 1 x1) (elements d) xi (k, map fst l) =
  mo_verifier_item (powers (size zs) 1 x1) (elements d) xi (k, map snd l).
  move=> Ho; have El := opening_setsE Ho; rewrite /mo_verifier_item.
  have Hl z : occurs z l -> o_rots z.1 = k /\ occurs z zs by move=> H; exact: (opening_sets_mem Ho H).
  set f := fun q (ox : vorc * F) => c <- get_commitment ox.1 ;; Ok (pc_add q (pc_scale c ox.2)).
  have -> : rfoldM f (pc_zero PC) (zip (map fst l) (powers (size zs) 1 x1)) = rfoldM f (pc_zero PC) (zip (map snd l) (powers (size zs) 1 x1)).
    rewrite !zip_mapl !rfoldM_map; apply: eq_rfoldM_occurs => q t /occurs_zip_fst /Hl [_ /Hz [_ E]] /=.
    by rewrite /f /= E.
  case: (rfoldM f _ _) => [q| |] //; rewrite !rbind_Ok; congr rbind.
  apply: eq_batched_evals => r pt Hr /(compute_point_inv dok) [_ Ept].
  have [z Hzl] := occurs_mem_nonempty (opening_sets_nonempty Ho); have [Ek Hzz] := Hl _ Hzl.
  by rewrite -Ek in Hr; have := Hb z r Hzz Hr; rewrite Ek -El -Ept.
move: (mp_q_evals pf) HT; elim: (T) => [|[k l] T' IH] [|e qe] //= HT.
  by rewrite HT //; left.
rewrite HT; last by left.
case: (mo_verifier_item _ _ _ _) => [[q evs]| |] //=; rewrite IH // => k' l' H'; apply: HT; by right.
Qed.

(** The oracle of a quotient chunk. *)
Definition chunk (l : string) (c : pc_com PC) (xi e : F) : vorc := Oracle l [:: curr] (VData Witness [:: (xi, e)] (Some c) false).
Lemma chunk_query l c xi e : vo_query (chunk l c xi e) xi = Ok e.
Proof. by rewrite /vo_query /= eqxx. Qed.

Lemma batch_shift (q : vorc -> F -> res F) (os1 os2 : seq vorc) a b a' b' pt x1 delta e0 e1 m s acc :
  q a pt = Ok e0 -> q b pt = Ok e1 -> q a' pt = Ok (e0 + x1 * delta) -> q b' pt = Ok (e1 - delta) ->
  (size os1 + 2 <= m)%N ->
  rfoldM (fun e (ox : vorc * F) => v <- q ox.1 pt ;; Ok (e + ox.2 * v)) acc (zip (os1 ++ a :: b :: os2) (powers m s x1)) =
  rfoldM (fun e (ox : vorc * F) => v <- q ox.1 pt ;; Ok (e + ox.2 * v)) acc (zip (os1 ++ a' :: b' :: os2) (powers m s x1)).
Proof.
move=> qa qb qa' qb'; elim: os1 m s acc => [|o os1 IH] [|m] s acc //=; last first.
  by rewrite addSn ltnS => H; case: (q o pt) => //= v; apply: IH.
case: m => // m _ /=; rewrite qa qa' !rbind_Ok /= qb qb' !rbind_Ok; congr (rfoldM _ _ _).
f_conv F; ring.
Qed.

Lemma mo_shift (pvk : pc_vk PC) ds xi (fs : fs_state FS) pf (os1 os2 : seq vorc) l0 l1 c0 c1 e0 e1 delta :
  fenv_ok env ->
  mo_verify env pvk pf (os1 ++ chunk l0 c0 xi (e0 + (fs_rand fs).1 * delta) :: chunk l1 c1 xi (e1 - delta) :: os2) xi ds fs =
  mo_verify env pvk pf (os1 ++ chunk l0 c0 xi e0 :: chunk l1 c1 xi e1 :: os2) xi ds fs.
Proof.
move=> eok; case Ed: (domain_new env ds) => [d|]; last by rewrite /mo_verify Ed.
pose dup (o : vorc) := (o, o); set x1 := (fs_rand fs).1.
pose zs := map dup os1 ++ (chunk l0 c0 xi e0, chunk l0 c0 xi (e0 + x1 * delta)) :: (chunk l1 c1 xi e1, chunk l1 c1 xi (e1 - delta)) :: map dup os2.
have m1 s : map fst (map dup s) = s by elim: s => //= o s ->.
have m2 s : map snd (map dup s) = s by elim: s => //= o s ->.
have E1 : map fst zs = os1 ++ chunk l0 c0 xi e0 :: chunk l1 c1 xi e1 :: os2.
  by rewrite /zs map_cat /= ?m1 ?m2.
have E2 : map snd zs = os1 ++ chunk l0 c0 xi (e0 + x1 * delta) :: chunk l1 c1 xi (e1 - delta) :: os2.
  by rewrite /zs map_cat /= ?m1 ?m2.
rewrite -E1 -E2; apply: esym; apply: (verdict_batch _ _ eok Ed) => [z|z rot Hz Hr k].
  have md s : occurs z (map dup s) -> o_rots z.1 = o_rots z.2 /\ get_commitment z.1 = get_commitment z.2.
    by move=> H; have [o _ ->] := ProofEach.occurs_map H.
  by rewrite /zs => H; case: ((ProofEach.occurs_cat _ _ _).1 H) => [/md|[->|[->|/md]]].
have fl P (s : seq vorc) : [seq y <- map dup s | P (o_rots y.1)] = map dup [seq y <- s | P (o_rots y)] by rewrite filter_map.
have Ek : k = map dup [seq y <- os1 | o_rots y == o_rots z.1] ++
    (if o_rots z.1 == [:: curr] then [:: (chunk l0 c0 xi e0, chunk l0 c0 xi (e0 + x1 * delta)); (chunk l1 c1 xi e1, chunk l1 c1 xi (e1 - delta))] else [::]) ++
    map dup [seq y <- os2 | o_rots y == o_rots z.1].
  rewrite /k /zs filter_cat /= !(fl (fun r => r == o_rots z.1)).
  have -> : (o_rots z.1 == [:: curr]) = ([:: curr] == o_rots z.1) by exact: eq_sym.
  by case: ([:: curr] == _).
have sk : (size k <= size zs)%N by rewrite size_filter count_size.
move: sk; rewrite {}Ek; case: (eqVneq (o_rots z.1) [:: curr]) => [Er|ne] sk; last first.
  by rewrite /= !map_cat !m1 !m2.
rewrite Er in Hr sk *; have {Hr}-> : rot = curr by apply/eqP; move: Hr; rewrite mem_seq1.
have -> : rot_point (dgen d) curr xi = xi by rewrite /rot_point /= expr0 mulr1.
rewrite /batch !map_cat /= !m1 !m2.
apply: (@batch_shift _ _ _ _ _ _ _ _ _ delta e0 e1); rewrite ?chunk_query //.
by move: sk; rewrite !size_cat /= !size_map -/x1; lia.
Qed.
End Shift.

(** ** The quotient check *)
Section Never.
Definition never (A : Type) (r : res A) : Prop := r <> Err QuotientNotZero.
Lemma never_bind A B (r : res A) (f : A -> res B) : never r -> (forall a, never (f a)) -> never (rbind r f).
Proof. by case: r => [a|e|p] //= H1 H2 E; apply: H1; case: E => ->. Qed.
Lemma never_fold A S (f : S -> A -> res S) s l : (forall s a, never (f s a)) -> never (rfoldM f s l).
Proof. by move=> H; elim: l s => //= a l IH s; apply: never_bind. Qed.
Lemma never_map A B (f : A -> res B) l : (forall a, never (f a)) -> never (rmapM f l).
Proof. by move=> H; elim: l => //= a l IH; apply: never_bind => // b; apply: never_bind. Qed.
Lemma never_idx A (s : seq A) i : never (idx s i).
Proof. by elim: s i => [|a s IH] [|i] //=; exact: IH. Qed.
Lemma never_assert b : never (rassert b). Proof. by case: b. Qed.
Lemma never_query (F : fieldType) C (o : voracle F C) x : never (vo_query o x).
Proof. by rewrite /vo_query; case: (assoc _ _). Qed.
Lemma never_unwrap A (o : option A) : never (opt_unwrap o). Proof. by case: o. Qed.
Lemma never_last A (s : seq A) : never (last_unwrap s). Proof. by case: s. Qed.
Lemma never_sub a b : never (usub a b). Proof. by rewrite /usub; case: ifP. Qed.
Lemma never_chunks A k (s : seq A) : never (chunksR k s). Proof. by rewrite /chunksR; case: ifP. Qed.
Lemma never_inv (F : fieldType) (x : F) : never (finv x). Proof. by rewrite /finv; case: ifP. Qed.
Lemma never_resolve P (os : seq (oracle P)) l e : e <> QuotientNotZero -> never (resolve os l e).
Proof. by rewrite /resolve; case: (label_index _ _) => [i|] H; [exact: never_idx|case]. Qed.
Lemma never_point (F : fieldType) r (x : F) om : never (compute_evaluation_point r x om).
Proof.
rewrite /compute_evaluation_point; case: ifP => // _; apply: never_bind; first exact: never_idx.
by move=> o; apply: never_bind => //; case: (r.2) => //; exact: never_inv.
Qed.
Lemma never_rmap A B (f : A -> B) r : never r -> never (rmap f r).
Proof. by case: r => //= e H E; apply: H; case: E => ->. Qed.
Lemma never_lift2 A B C (f : A -> B -> C) r r' : never r -> never r' -> never (rlift2 f r r').
Proof. by case: r r' => [a|e|p] [a'|e'|p'] //= H H' E; [apply: H'|apply: H|apply: H]; case: E => ->. Qed.
Lemma never_eval (F : fieldType) Q (e : expr F Q) leaf : (forall q, never (leaf q)) -> never (eval_res e leaf).
Proof.
move=> H; elim: e => [c|q|a IH|a IHa b IHb|a IHa b IHb|a IH c] //=; rewrite /eval_res /=; first exact: H.
- exact: never_rmap.
- exact: never_lift2.
- exact: never_lift2.
- exact: never_rmap.
Qed.
End Never.
Ltac never := repeat match goal with
  | |- never (rbind _ _) => apply: never_bind; [|intro]
  | |- never (rfoldM _ _ _) => apply: never_fold; intros ? ?
  | |- never (rmapM _ _) => apply: never_map; intro
  | |- never (idx _ _) => exact: never_idx
  | |- never (rassert _) => exact: never_assert
  | |- never (vo_query _ _) => exact: never_query
  | |- never (opt_unwrap _) => exact: never_unwrap
  | |- never (last_unwrap _) => exact: never_last
  | |- never (usub _ _) => exact: never_sub
  | |- never (chunksR _ _) => exact: never_chunks
  | |- never (finv _) => exact: never_inv
  | |- never (compute_evaluation_point _ _ _) => exact: never_point
  | |- never (resolve _ _ _) => exact: never_resolve
  | |- never (eval_res _ _) => apply: never_eval; intro
  | |- never (Ok _) => by []
  | |- never (if ?b then _ else _) => case: b
  | |- never (let: (_, _) := ?p in _) => destruct p
  | |- never (match ?p with Some _ => _ | None => _ end) => case: p => [?|]
  end.

Section Check.
Variables (F : fieldType) (env : fenv F) (PC : pcs F).
Add Field Ffield6 : (F_field_theory F).
Notation vorc := (voracle F (pc_com PC)).

(** The left side of the identity. *)
Definition check_lhs (vk : verifier_key F) (ins : seq (ioracle F)) (vos : seq (generic_vo F)) (ds : nat) (beta gamma alpha xi : F) (T : vtrace PC) : res F :=
  let ix := vk_index vk in let omegas := elements (vt_d T) in let pre := vt_pre T in
  al <- alpha_schedule alpha (size vos) (size (vt_zs T)) (size (ix_lookups ix)) ;;
  l0 <- unit_poly (vt_d T) ds 0 ;;
  lu <- unit_poly (vt_d T) ds (pa_usable_rows (ix_perm ix)) ;;
  v <- rfoldM (fun acc va =>
          e <- gv_get_expression va.1 ;;
          x <- eval_res e (verifier_leaf (vt_ws T) ins (vp_fixed pre) xi omegas) ;;
          Ok (acc + va.2 * x)) 0 (zip vos (ap_vos al)) ;;
  p <- (if nilp (vt_copied T) then Ok 0
        else perm_open (ix_perm ix) (peval l0 xi) (peval lu xi) (vp_q_blind pre) (vt_zs T) (vp_perm pre) (vt_copied T)
               beta gamma (vt_d T) xi (ap_perm al)) ;;
  rfoldM (fun acc lza =>
            x <- lookup_open (peval l0 xi) (peval lu xi) (vp_q_blind pre) lza.1.1 lza.1.2
                   beta gamma xi (vt_d T) lza.2 ;;
            Ok (acc + x)) (v + p) (zip (zip (vt_los T) (vt_lzs T)) (ap_lookups al)).
Definition check_sum (xi : F) (ds : nat) (chunks : seq vorc) : res F :=
  rfoldM (fun acc xc => y <- vo_query xc.2 xi ;; Ok (acc + xc.1 * y)) 0 (zip (powers (size chunks) 1 (xi ^+ ds)) chunks).
Lemma rbindA A B C (r : res A) (f : A -> res B) (g : B -> res C) : rbind (rbind r f) g = rbind r (fun a => rbind (f a) g).
Proof. by case: r. Qed.
Lemma vt_checkE vk ins vos ds z_h beta gamma alpha xi (T : vtrace PC) :
  vt_check vk ins vos ds z_h beta gamma alpha xi T =
  (e <- check_lhs vk ins vos ds beta gamma alpha xi T ;; t <- check_sum xi ds (vt_chunks T) ;;
   if e - t * peval z_h xi != 0 then Err QuotientNotZero else Ok tt).
Proof.
rewrite /vt_check /quotient_check /check_lhs.
by do ! [match goal with |- rbind ?r _ = _ => case: r => [?|?|?]; [cbn [rbind]|by []|by []] end].
Qed.
Lemma never_lhs vk ins vos ds beta gamma alpha xi (T : vtrace PC) : never (check_lhs vk ins vos ds beta gamma alpha xi T).
Proof.
rewrite /check_lhs /alpha_schedule /unit_poly /gv_get_expression /opt_or /verifier_leaf /query_leaf; never => //.
- by case: (oq_type _); never.
- by rewrite /perm_open /gp_open /gp_expr; never.
- by rewrite /lookup_open /se_open; never.
Qed.

(** The front of the verifier with other quotient evaluations. *)
Section Front.
Variables (vk : verifier_key F) (pre : verifier_pre PC) (pf : tp_proof PC) (ws0 : seq vorc) (ds : nat) (theta xi : F).
Definition rechunk (cs : seq vorc) (T : vtrace PC) : vtrace PC :=
  VTrace (vt_d T) (vt_ws T) (vt_fixed T) (vt_table T) (vt_perm T) (vt_qb T) (vt_los T) (vt_lzs T) (vt_zs T) cs.
Lemma front_chunks es cs cs' ins T :
  rmapM (quotient_oracle_v xi (tp_quotient_evals pf)) (enumerate (tp_quotient_commitments pf)) = Ok cs ->
  rmapM (quotient_oracle_v xi es) (enumerate (tp_quotient_commitments pf)) = Ok cs' ->
  verify_front env vk pre pf ws0 ins ds theta xi = Ok T ->
  verify_front env vk pre (with_quotient_evals pf es) ws0 ins ds theta xi = Ok (rechunk cs' T) /\ vt_chunks T = cs.
Proof.
move=> E E'; rewrite /verify_front; cbn [tp_witness_commitments tp_witness_evals tp_fixed_evals tp_table_evals tp_perm_evals tp_q_blind_eval
  tp_lookup_commitments tp_lookup_z_commitments tp_lookup_evals tp_lookup_z_evals tp_z_commitments tp_z_evals
  tp_quotient_commitments tp_quotient_evals with_quotient_evals].
rewrite E E' !rbind_Ok.
by do ! [match goal with |- rbind ?r _ = _ -> _ => case: r => [?|?|?]; [cbn [rbind]|by []|by []] end] => -[<-].
Qed.
Lemma front_some ins T : verify_front env vk pre pf ws0 ins ds theta xi = Ok T ->
  rmapM (quotient_oracle_v xi (tp_quotient_evals pf)) (enumerate (tp_quotient_commitments pf)) = Ok (vt_chunks T).
Proof.
rewrite /verify_front; case: (rmapM _ _) => [cs|?|?] //; cbn [rbind].
by do ! [match goal with |- rbind ?r _ = _ -> _ => case: r => [?|?|?]; [cbn [rbind]|by []|by []] end] => -[<-].
Qed.
(** ... and with other public inputs. *)
Lemma primes_same ws ins ins' p th x om oms (l : seq (nat * (generic_lookup_vo F * seq (pc_com PC) * seq F))) los los' :
  rmapM (lookup_oracles_v ws ins p th x om oms) l = Ok los -> rmapM (lookup_oracles_v ws ins' p th x om oms) l = Ok los' ->
  lookup_primes los = lookup_primes los'.
Proof.
elim: l los los' => [|[k [[g c] e]] l IH] los los' /=; first by case=> <- [<-].
case: (gl_get_expressions g) => [xs|?|?] //=; case: (gl_get_table_queries g) => [ts|?|?] //=.
case: (construct_a_and_s_verifier _ ins) => [[a s]|?|?] //=; case: (construct_a_and_s_verifier _ ins') => [[a' s']|?|?] //=;
case: (idx e 0) => [e0|?|?] //=; case: (idx e 1) => [e1|?|?] //=; case: (idx c 0) => [c0|?|?] //=; case: (idx e 2) => [e2|?|?] //=; case: (idx c 1) => [c1|?|?] //=;
case E: (rmapM _ l) => [t|?|?] //=; case E': (rmapM _ l) => [t'|?|?] //= -[<-] [<-].
by rewrite /lookup_primes /= -!/(lookup_primes _) (IH _ _ E E').
Qed.
Lemma front_ins ins ins' T : verify_front env vk pre pf ws0 ins ds theta xi = Ok T ->
  never (verify_front env vk pre pf ws0 ins' ds theta xi) /\
  forall T', verify_front env vk pre pf ws0 ins' ds theta xi = Ok T' -> vt_oracles T' = vt_oracles T.
Proof.
rewrite /verify_front.
do 15! [match goal with |- rbind ?r _ = _ -> _ => case: r => [?|?|?]; [cbn [rbind]|by []|by []] end].
match goal with |- rbind ?r _ = _ -> never (rbind ?r' _) /\ _ => case E: r => [los|?|?] //; have nv : never r'; [|case E': r' nv => [los'|?|?] nv] end.
- rewrite /lookup_oracles_v /gl_get_expressions /gl_get_table_queries /opt_or /construct_a_and_s_verifier /compress /table_leaf; never => //.
  + by case: (oq_type _); never.
  + by case: (oq_type _); never.
- cbn [rbind].
  do ! [match goal with |- rbind ?r _ = _ -> _ => case: r => [?|?|?]; [cbn [rbind]|by []|by []] end] => -[<-].
  by split=> // T' [<-]; rewrite /vt_oracles /= (primes_same E E').
- by move=> _; split=> // X; apply: nv; case: X => ->.
- by [].
Qed.
End Front.

(** ** The forged proof *)
Lemma rmapM_same A B (f f' : A -> res B) s : (forall a, occurs a s -> f' a = f a) -> rmapM f' s = rmapM f s.
Proof.
elim: s => [|a s IH] H //=; rewrite (H a (or_introl erefl)); case: (f a) => //= b.
by rewrite IH // => a' Ha; apply: H; right.
Qed.
Lemma occurs_zip_iota A (k m : nat) (s : seq A) j a : occurs (j, a) (zip (iota k m) s) -> (k <= j)%N.
Proof. by elim: m k s => [|m IH] k [|b s] //= [[-> _]|/IH /ltnW]. Qed.
Lemma rfold_move xi (a s : F) l :
  rfoldM (fun acc (xc : F * vorc) => y <- vo_query xc.2 xi ;; Ok (acc + xc.1 * y)) (a + s) l =
  rmap (fun t => t + s) (rfoldM (fun acc (xc : F * vorc) => y <- vo_query xc.2 xi ;; Ok (acc + xc.1 * y)) a l) :> res F.
Proof.
elim: l a => //= x l IH a; case: (vo_query _ _) => [y|?|?] //=.
by rewrite -IH addrAC.
Qed.
Lemma check_sum_shift xi ds l0 l1 c0 c1 e0 e1 x1 delta R :
  check_sum xi ds (chunk l0 c0 xi (e0 + x1 * delta) :: chunk l1 c1 xi (e1 - delta) :: R) =
  rmap (fun t => t + (x1 - xi ^+ ds) * delta) (check_sum xi ds (chunk l0 c0 xi e0 :: chunk l1 c1 xi e1 :: R)).
Proof.
rewrite /check_sum /= !chunk_query !rbind_Ok -rfold_move; congr (rfoldM _ _ _).
f_conv F; ring.
Qed.
Lemma forge (FS : fsrng F) (pvk : pc_vk PC) (S : vinput PC) (pf : tp_proof PC) T :
  let ch := derive_challenges FS pf in let x1 := (fs_rand (ch_fs ch)).1 in let n := dsize (s_d S) in
  fenv_ok env ->
  verify_front env (s_vk S) (s_pre S) pf (s_ws S) (s_ins S) n (ch_theta ch) (ch_xi ch) = Ok T ->
  (vt_check (s_vk S) (s_ins S) (s_vos S) n (s_zh S) (ch_beta ch) (ch_gamma ch) (ch_alpha ch) (ch_xi ch) T = Ok tt \/
   vt_check (s_vk S) (s_ins S) (s_vos S) n (s_zh S) (ch_beta ch) (ch_gamma ch) (ch_alpha ch) (ch_xi ch) T = Err QuotientNotZero) ->
  mo_verify env pvk (tp_multiopen pf) (vt_oracles T) (ch_xi ch) n (ch_fs ch) = Ok tt ->
  (1 < size (tp_quotient_commitments pf))%N -> ch_xi ch ^+ n != x1 -> (Poly (s_zh S)).[ch_xi ch] != 0 ->
  exists delta, verdict env FS pvk S (shift_quotient x1 delta pf) = Ok tt.
Proof.
move=> ch x1 n eok Hf Hc Hm sq nx nz; set xi := ch_xi ch in Hf Hc Hm nx nz *.
have Ech := front_some Hf.
case Ec: (tp_quotient_commitments pf) sq => [|c0 [|c1 cs]] // _.
case Ee: (tp_quotient_evals pf) => [|e0 [|e1 es]]; try by move: Ech; rewrite Ec Ee.
pose L := zip (iota 2 (size cs)) cs.
have En : enumerate (tp_quotient_commitments pf) = (0%N, c0) :: (1%N, c1) :: L by rewrite Ec.
have rest a b : rmapM (quotient_oracle_v xi (a :: b :: es)) L = rmapM (quotient_oracle_v xi (e0 :: e1 :: es)) L.
  by apply: rmapM_same => -[k c] H; have := occurs_zip_iota H; case: k {H} => [|[|k]].
have [R ER] : exists R, rmapM (quotient_oracle_v xi (e0 :: e1 :: es)) L = Ok R.
  by move: Ech; rewrite En Ee /=; case: (rmapM _ L) => [R|?|?] // _; exists R.
set l0 := ("quotient_chunk_" ++ show_nat 0)%string; set l1 := ("quotient_chunk_" ++ show_nat 1)%string.
have full a b : rmapM (quotient_oracle_v xi (a :: b :: es)) (enumerate (tp_quotient_commitments pf)) = Ok (chunk l0 c0 xi a :: chunk l1 c1 xi b :: R).
  by rewrite En /= rest ER.
have ET : vt_chunks T = chunk l0 c0 xi e0 :: chunk l1 c1 xi e1 :: R.
  by move: Ech; rewrite Ee full => -[].
have [e [t [El Et]]] : exists e t, check_lhs (s_vk S) (s_ins S) (s_vos S) n (ch_beta ch) (ch_gamma ch) (ch_alpha ch) xi T = Ok e /\
    check_sum xi n (vt_chunks T) = Ok t.
  have nl := @never_lhs (s_vk S) (s_ins S) (s_vos S) n (ch_beta ch) (ch_gamma ch) (ch_alpha ch) xi T.
  have ns : never (check_sum xi n (vt_chunks T)) by rewrite /check_sum; never.
  move: Hc; rewrite vt_checkE; case: (check_lhs _ _ _ _ _ _ _ _ _) nl => [e|er|?] nl /=; [|by case=> // -[E]; case: nl; rewrite E|by case].
  by case: (check_sum _ _ _) ns => [t|er|?] ns /=; [exists e, t|case=> // -[E]; case: ns; rewrite E|case].
pose delta := (e - t * peval (s_zh S) xi) / (peval (s_zh S) xi * (x1 - xi ^+ n)).
exists delta; rewrite /verdict; apply: (etrans (proj1 (verify_frontE env FS pvk _ _ _ _ _ _ _ _))).
have -> : derive_challenges FS (shift_quotient x1 delta pf) = ch by [].
have Es : shift_quotient x1 delta pf = with_quotient_evals pf (e0 + x1 * delta :: e1 - delta :: es) by rewrite /shift_quotient Ee.
have -> : verify_front env (s_vk S) (s_pre S) (shift_quotient x1 delta pf) (s_ws S) (s_ins S) n (ch_theta ch) xi =
   Ok (rechunk (chunk l0 c0 xi (e0 + x1 * delta) :: chunk l1 c1 xi (e1 - delta) :: R) T).
  by have [X _] := front_chunks Ech (full (e0 + x1 * delta) (e1 - delta)) Hf; rewrite Es.
rewrite rbind_Ok vt_checkE.
have -> cs' : check_lhs (s_vk S) (s_ins S) (s_vos S) n (ch_beta ch) (ch_gamma ch) (ch_alpha ch) xi (rechunk cs' T) = Ok e by [].
rewrite rbind_Ok; cbn [rechunk vt_chunks]; rewrite check_sum_shift -ET Et [rmap _ _]/= rbind_Ok.
have -> : e - (t + (x1 - ch_xi ch ^+ dsize (s_d S)) * delta) * peval (s_zh S) (ch_xi ch) = 0.
  rewrite -/xi -/n; move: nz; rewrite -pevalE => nz; have nx' : x1 - xi ^+ n <> 0 by apply/eqP; rewrite subr_eq0 eq_sym.
  move/eqP: nz => nz; rewrite /delta; f_conv F; field.
  by split.
rewrite eqxx rbind_Ok; apply: etrans Hm.
have pos cs' : vt_oracles (rechunk cs' T) = (vt_ws T ++ lookup_primes (vt_los T) ++ vt_lzs T) ++ cs' ++ vt_zs T
  ++ vt_fixed T ++ vt_table T ++ vt_perm T ++ [:: vt_qb T] by rewrite /vt_oracles /= -!catA.
have -> : vt_oracles T = vt_oracles (rechunk (vt_chunks T) T) by case: (T).
by rewrite !pos ET !cat_cons; apply: mo_shift.
Qed.
End Check.
