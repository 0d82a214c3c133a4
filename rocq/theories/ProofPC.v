(** The KZG10 model is a correct homomorphic commitment scheme; [plain] is correct and binding. *)
From mathcomp Require Import all_ssreflect all_algebra zify.
From Verif Require Import Base ModelPoly ModelVO ModelOracle ModelPC ModelMultiproof Spec SpecMultiopen ProofBase ProofPoly.

Set Implicit Arguments.
Unset Strict Implicit.
Unset Printing Implicit Defensive.

Import GRing.Theory.
Local Open Scope ring_scope.

Section KZG.
Variables (F : fieldType) (G : lmodType F) (Z : Type) (zk_rand : Z -> F * Z).
Variables (cbytes : G -> bytes) (fbytes : F -> bytes).
Variable s : kzg_srs G.
Notation KZG := (kzg zk_rand cbytes fbytes).

Lemma pdeg_leq (p : lpoly F) m : (pdeg p <= m)%N = (size (Poly p) <= m.+1)%N.
Proof. rewrite pdegE; case: (size _) => [|n] //=. Qed.
Lemma commit_add p q r t : kzg_commit s (padd p q) (padd r t) = kzg_commit s p r + kzg_commit s q t.
Proof. by rewrite /kzg_commit !peval_add !scalerDl addrACA. Qed.
Lemma commit_scale p r a : kzg_commit s (pscale a p) (pscale a r) = a *: kzg_commit s p r.
Proof. by rewrite /kzg_commit !peval_scale scalerDr !scalerA. Qed.

Lemma witnessE (p : lpoly F) z : Poly p = Poly (kzg_witness p z) * ('X - z%:P) + (peval p z)%:P.
Proof.
rewrite /kzg_witness; case E: (pdivmod_rec _ _ _ _) => [q r] /=.
have [|||H1 H2] := pdivmod_rec_correct _ _ _ E; rewrite ?Poly_XsubC ?size_XsubC ?lead_coefXsubC ?oner_neq0 //.
rewrite Poly_XsubC in H1; rewrite Poly_trim [in LHS]H1; congr (_ + _).
rewrite pevalE H1 {1}(size1_polyC H2) hornerD hornerM hornerXsubC subrr mulr0 add0r.
by rewrite [in RHS](size1_polyC H2) hornerC.
Qed.
Lemma witness_eval (p : lpoly F) z x : peval p x - peval p z = (x - z) * peval (kzg_witness p z) x.
Proof.
by rewrite {1}pevalE (witnessE p z) hornerD hornerM hornerXsubC hornerC addrK -pevalE mulrC.
Qed.

Theorem kzg_correct : pcs_correct (PC := KZG) s s.
Proof.
split=> /=.
- by rewrite /kzg_commit1 /= /kzg_commit /= !scale0r addr0.
- rewrite /kzg_commit1 => p q r t c e; rewrite !pdeg_leq; case: ifP => // Hp [<-]; case: ifP => // Hq [<-].
  rewrite Poly_add (leq_trans (size_add _ _)) ?geq_max ?Hp ?Hq //; by rewrite commit_add.
- rewrite /kzg_commit1 => p r c a; rewrite !pdeg_leq; case: ifP => // Hp [<-].
  by rewrite Poly_scale (leq_trans (size_scale_leq _ _)) ?Hp // commit_scale.
- rewrite /kzg_commit1 /kzg_open => p r c x pf; case: ifP => // Hp [<-] [<-] /=.
  rewrite /kzg_check /=; congr Ok; apply/eqP.
  have -> : (if (if ptrim r is [::] then None else Some (peval r x)) is Some y then y else 0) = peval r x.
    by case E: (ptrim r) => //=; rewrite -peval_trim E.
  rewrite /kzg_commit scalerDr !scalerA -!witness_eval !scalerBl.
  by rewrite -addrA -opprD addrACA opprD.
Qed.

Lemma msmE (cs : seq G) (xs : seq F) : kzg_msm cs xs = \sum_(t <- zip cs xs) t.2 *: t.1.
Proof. by rewrite /kzg_msm foldl_sum add0r. Qed.
End KZG.

Section Plain.
Variables (F : fieldType) (Z : Type) (zk_rand : Z -> F * Z) (cbytes : lpoly F -> bytes) (fbytes : F -> bytes).
Notation PL := (plain zk_rand cbytes fbytes).
Lemma padd_trim (p q : lpoly F) : padd (ptrim p) (ptrim q) = ptrim (padd p q).
Proof. by rewrite -[LHS]ptrim_id; apply/eqP; rewrite ptrim_inj !Poly_add !Poly_trim. Qed.
Lemma pscale_trim (p : lpoly F) a : pscale a (ptrim p) = ptrim (pscale a p).
Proof. by rewrite -[LHS]ptrim_id; apply/eqP; rewrite ptrim_inj !Poly_scale !Poly_trim. Qed.
Lemma plain_correct : pcs_correct (PC := PL) tt tt.
Proof.
split=> //=.
- by move=> p q _ _ _ _ [<-] [<-]; rewrite padd_trim.
- by move=> p _ _ a [<-]; rewrite pscale_trim.
- by move=> p _ _ x _ [<-] _; rewrite peval_trim eqxx.
Qed.
Lemma plain_binding : pcs_binding (PC := PL) tt (@Poly F).
Proof.
split=> //=.
- by move=> p q; rewrite Poly_add.
- by move=> p a; rewrite Poly_scale.
- by move=> p x v _ [/eqP <-]; rewrite pevalE.
Qed.
End Plain.
