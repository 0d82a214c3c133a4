{
 "C08": [
  "partial",
  "The property as stated is false of the code: the fourth wire query has index 2. Proved: the exact equation, independence of witness column 3, and a refutation."
 ],
 "C14": [
  "partial",
  "False as stated: a backwards rotation by exactly n rows (or any landing whole turns behind row 0) indexes out of bounds; refuted for every column. Proved: in bounds for every rotation by fewer than n rows; C12/C13 give the exact panic condition."
 ],
 "C20": [
  "partial",
  "False as stated: Domain::new(quotient_degree) has too few points when the quotient degree is itself the size of the domain; refuted by a degree-4 gate on 4 rows (index Ok, 8 points, quotient degree 8). Proved: quotient_degree bounds the degree of every quotient, is at most the number of points, and the quotient fits whenever the two differ."
 ],
 "C21": [
  "partial",
  "False as stated: index() underflows for linear constraints, for empty constraint lists and whenever the largest degree is below deg z_h. Proved: that, and that in every other case (in a field with a large enough two-adic subgroup) it returns Ok, or QuotientTooSmall under an exact condition."
 ],
 "C30": [
  "partial",
  "False as stated: dummy()/empty() carry usable_rows = 0, so the lookup's last-row selector sits on row 0 and constant permuted columns satisfy every constraint for arbitrary columns; refuted for every such index, on the constraint polynomials and on the verifier's quotient check. Proved: membership is enforced (bounded bad beta, gamma) whenever the permutation info carries the index's number of usable rows."
 ],
 "C32": [
  "partial",
  "False as stated: the verifier drops the rotation of fixed and instance queries in lookup expressions; refuted on a concrete run. Proved: the exact value the verifier computes, and equality with the prover's polynomials when those queries are unrotated."
 ],
 "C33": [
  "partial",
  "False as stated: any compressed expression of degree >= n makes the prover's assertion panic; refuted in general and on a concrete square. Proved: linear expressions of any shape complete."
 ],
 "C35": [
  "partial",
  "False as stated: the first lookup constraint is weighted by the same power of alpha as the last permutation constraint (both schedules start from the last power handed out), so one pair of constraints is summed unweighted; refuted. Proved: the exact schedule, and separation for every constraint outside that pair and inside it whenever usable_rows > 0 or one of the two arguments is absent."
 ],
 "C41": [
  "partial",
  "False as stated: the verifier zips the opening sets with proof.q_evals without comparing lengths, so a proof with no q_evals, the commitment to zero and an opening of zero is accepted for every well-formed set of claims, true or false; refuted for every correct commitment scheme and transcript. C42 proves soundness for proofs with the right number of q_evals."
 ],
 "C43": [
  "partial",
  "False as stated: x1 is drawn without absorbing the claims, and the verdict depends on the claims only through sums weighted by powers of x1 (proved); shifting e1 by x1*delta and e2 by -delta is never noticed; refuted. C42 proves that claims fixed before x1 are bound individually."
 ],
 "C44": [
  "partial",
  "False as stated when the quotient degree equals the number of points of the extended domain (the indexer accepts this); refuted by a degree-4 gate on 4 rows: prove returns a proof, verify answers QuotientNotZero. Proved: completeness for z_h = X^n - 1 whenever the two numbers differ; the general form is C55."
 ],
 "C47": [
  "partial",
  "False as stated: only commitments in the proof are absorbed, not the public inputs, verifier key or preprocessed commitments. Proved: the verdict on any proof is the same for all public inputs agreeing at the queried points (which the forger knows), with a concrete accepted false public input; and, as the true part, that the commitments of a proof are bound up to hash collisions. For a whole proof (c47_proof_history_bound): the nine challenges are those drawn along its full history, including the multi-opening messages, and two proofs with different histories get different seeds or exhibit a hash collision."
 ],
 "C45": [
  "partial",
  "False as stated: for every readable circuit, every transcript and correct scheme, and arbitrary commitments, a proof with no q_evals and made-up evaluations is accepted (consequence of C41); concretely for w^2 = 5 over F_97, which no witness satisfies. C56 and C57 prove the soundness that holds: interactive, with the right number of q_evals."
 ],
 "C48": [
  "partial",
  "False as stated: for every readable circuit, any wrong length (other than of the witness or quotient commitments) makes verify panic. Proved: with the right lengths verify never panics, whatever the contents, unless challenges coincide with opened points."
 ],
 "C49": [
  "partial",
  "False as stated: a proof that carries fewer witness commitments than there are witness columns is judged with the commitments an earlier proof left behind; a concrete run shows such a proof accepted after an accepted one and rejected on fresh oracles. Proved: for proofs with all witness commitments the verdict is independent of any history of calls, whatever their outcomes; C58 gives the exact dependence in general."
 ],
 "C61": [
  "proved",
  "c61_enough_rows_refuted is the last sentence of the statement: an accepted proof with more openings of the permutation products than blinded rows (finding F23)."
 ]
}