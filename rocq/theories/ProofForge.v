(** A lookup with a permutation argument over no rows: columns that satisfy every constraint whatever is
    looked up. *)
From mathcomp Require Import all_ssreflect all_algebra zify.
From Coq Require Import String Lia.
From Verif Require Import Base ModelPoly ModelVO ModelOracle ModelPC ModelPermutation ModelLookup
  ModelIndexer ModelMultiproof ModelProtocol Spec SpecProtocol SpecPIOP SpecMultiopen SpecCircuit SpecSound
  ProofBase ProofPoly ProofDomain ProofVO ProofOracle ProofPermutation ProofIndexer ProofLookup ProofColumns ProofOpen
  ProofVerifierCols ProofPIOP ProofPIOP2.

Set Implicit Arguments.
Unset Strict Implicit.
Unset Printing Implicit Defensive.

Import GRing.Theory.
Local Open Scope ring_scope.

Section Forge.
Variables (F : fieldType) (env : fenv F).
Hypothesis eok : fenv_ok env.
Variables (d : domain F).
Hypothesis sd : std_domain env d.
Let n := dsize d.
Let w := dgen d.
Let dok : domain_ok d := std_domain_ok eok sd.
Variables (A : assignment F) (pa : permutation_argument F) (u : nat).
Hypothesis u0 : pa_usable_rows pa = 0%N.
Hypothesis un : (u.+1 < n)%N.
Hypothesis bl : forall i, (i < n)%N -> (opoly (as_qb A)).[w ^+ i] = (u < i)%N%:R.

Definition plain (p : {poly F}) : poracle F := column d ""%string [::] p false.
Lemma plainE p : opoly (plain p) = p. Proof. by rewrite /opoly /= polyseqK. Qed.
Definition forged (c : F) (lo : lookup_oracles (poracle F)) : lookup_oracles (poracle F) :=
  LookupOracles (lo_a lo) (lo_s lo) (plain c%:P) (plain c%:P).

Variables (beta gamma c : F).
Hypotheses (cb : c + beta != 0) (cg : c + gamma != 0).
Lemma forged_one lo : exists z, forall p i, (i < n)%N ->
  p \in lookup_constraints (row_selector d 0) (row_selector d 0) (opoly (as_qb A)) beta%:P gamma%:P
         (opoly (lo_a (forged c lo))) (opoly (lo_s (forged c lo))) (opoly (lo_a' (forged c lo))) (opoly (lo_s' (forged c lo)))
         (scaled_arg w^-1 (opoly (lo_a' (forged c lo)))) (opoly z) (scaled_arg w (opoly z)) ->
  p.[w ^+ i] = 0.
Proof.
have n0 : (0 < n)%N by apply: leq_ltn_trans un.
have [z Hz] := @forged_rows F n u beta gamma (fun i => (opoly (lo_a lo)).[w ^+ i]) (fun i => (opoly (lo_s lo)).[w ^+ i])
  (fun _ => c) un (fun i _ => conj cb cg).
exists (plain (Poly (ifft d [seq z i | i <- iota 0 n]))) => p i Hi Hp.
apply: (Hz i Hi); have := map_f (horner_eval (w ^+ i)) Hp.
rewrite (map_lookup_constraints [rmorphism of horner_eval (w ^+ i)]) /= /horner_eval !hornerC !scaled_arg_at !plainE bl //.
have zE j : (j < n)%N -> (Poly (ifft d [seq z k | k <- iota 0 n])).[element d j] = z j.
  by move=> Hj; rewrite -pevalE (ifft_eval eok) // (nth_map 0%N) ?size_iota // nth_iota.
have -> : w * w ^+ i = element d (rot_row n next i) by rewrite -[n]/(dsize d) rot_row_point // rot_next.
rewrite zE ?rot_row_lt // -/(element d i) zE //.
by rewrite !(row_selector_at eok sd) // !hornerC.
Qed.

Definition fcons (t : lookup_oracles (poracle F) * poracle F) : seq {poly F} :=
  lookup_constraints (row_selector d 0) (row_selector d 0) (opoly (as_qb A))
         beta%:P gamma%:P (opoly (lo_a t.1)) (opoly (lo_s t.1)) (opoly (lo_a' t.1)) (opoly (lo_s' t.1))
         (scaled_arg w^-1 (opoly (lo_a' t.1))) (opoly t.2) (scaled_arg w (opoly t.2)).
Lemma forged_all (los : seq (lookup_oracles (poracle F))) : exists2 lzs : seq (poracle F), size lzs = size los &
  forall p i, (i < n)%N -> p \in flatten (map fcons (zip (map (forged c) los) lzs)) -> p.[w ^+ i] = 0.
Proof.
elim: los => [|lo los [lzs sz IH]]; first by exists [::].
have [z Hz] := forged_one lo; exists (z :: lzs) => [|p i Hi]; first by rewrite /= sz.
have -> : flatten (map fcons (zip (map (forged c) (lo :: los)) (z :: lzs))) = fcons (forged c lo, z) ++ flatten (map fcons (zip (map (forged c) los) lzs)) by [].
by rewrite mem_cat => /orP[/Hz|/IH]; apply.
Qed.
End Forge.

Section Accept.
Variables (F : fieldType) (env : fenv F).
Hypothesis eok : fenv_ok env.
Variables (d : domain F).
Hypothesis sd : std_domain env d.
Variables (PC : pcs F) (vk : verifier_key F) (vos : seq (generic_vo F)) (es : seq (expr F oquery)) (A : assignment F)
  (z_h : lpoly F) (c : F) (rows : seq nat) (beta gamma alpha : F).
Let ix := vk_index vk.
Let n := dsize d.
Let w := dgen d.
Hypothesis ev : map (@gv_get_expression F) vos = map Ok es.
Hypothesis k0 : (0 < size vos)%N.
Hypothesis eqok : exprs_ok (as_ws A) (as_ins A) (as_fs A) n es.
Hypothesis dec : exprs_declared (as_ws A) (as_fs A) es.
Hypothesis shape : shape_ok d (ix_perm ix) A (size (ix_lookups ix)).
Hypothesis uw : uniq (map (@o_label _) (as_ws A)).
Hypothesis ui : uniq (map (@o_label _) (as_ins A)).
Hypothesis uf : uniq (map (@o_label _) (as_fs A)).
Hypothesis c0 : c != 0.
Hypothesis ur : uniq rows.
Hypothesis rn : forall i, i \in rows -> (i < n)%N.
Hypothesis zE : Poly z_h = c *: \prod_(i <- rows) ('X - (w ^+ i)%:P).
(** When every constraint vanishes on the rows, some chunks make the verifier's check pass everywhere. *)
Lemma vanishing_accepted :
  (forall p i, p \in constraint_polys d (ix_perm ix) es beta gamma A -> i \in rows -> p.[w ^+ i] = 0) ->
  exists ts : seq (poracle F), forall xi (v : view F (pc_com PC)) vpre, sees w xi (pa_usable_rows (ix_perm ix)) v A ts ->
    vp_fixed vpre = v_fs v -> vp_perm vpre = v_sigmas v -> vp_q_blind vpre = v_qb v ->
    quotient_check vk (v_ws v) (v_ins v) vpre (v_copied v) (v_zs v) (v_los v) (v_lzs v) (v_chunks v) vos beta gamma alpha xi d n z_h
    = Ok tt.
Proof.
move=> Hc; set N := numerator d (ix_perm ix) es beta gamma A alpha.
have N0 i : i \in rows -> N.[w ^+ i] = 0 by move=> Hi; apply: numerator_root => p Hp; exact: Hc Hp Hi.
have [Q EQ _] := divides_rows eok sd c0 ur rn zE N0.
have n0 : (0 < n)%N by case: shape => /ltnW.
exists (map (plain d) (map Poly (chunks n Q))) => xi v vpre sv vf vp_ vq.
rewrite (quotient_checkE eok sd ev shape eqok k0 uw ui uf dec sv vf vp_ vq).
have -> : recombined n (map (@opoly F) (map (plain d) (map Poly (chunks n Q)))) = Q.
  rewrite -map_comp map_id_in; first by rewrite recombined_chunks // polyseqK.
  by move=> p _ /=; rewrite plainE.
by rewrite -/N EQ hornerM subrr eqxx.
Qed.
End Accept.
