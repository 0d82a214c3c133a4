(** Model of src/indexer.rs and of the key types of src/data_structures.rs. Definitions only. *)
From mathcomp Require Import all_ssreflect all_algebra.
From Verif Require Import Base ModelPoly ModelVO ModelOracle ModelPermutation ModelLookup.

Set Implicit Arguments.
Unset Strict Implicit.
Unset Printing Implicit Defensive.

Import GRing.Theory.
Local Open Scope ring_scope.

Section Indexer.
Variable F : fieldType.
Variable env : fenv F.

(** src/data_structures.rs:48-54 (Index) and 168-172 (VerifierKey). The PC verifier key is
    passed separately in the model. *)
Record index_info := Index {
  ix_quotient_degree : nat;
  ix_ext : domain F;
  ix_perm : permutation_argument F;
  ix_lookups : seq (generic_lookup_vo F);
  ix_usable_rows : nat }.
(** src/data_structures.rs:168-172 *)
Record verifier_key := VerifierKey {
  vk_index : index_info;
  vk_zh_inverses : seq F }.

Section Quotient.
Variables (PW PI PF : Type).

(** src/oracles/traits.rs:22-24 *)
Definition get_degree (domain_size : nat) : res nat := usub domain_size 1.

(** src/indexer.rs:47-96 *)
Definition compute_quotient_degree (ws : seq (oracle PW)) (ins : seq (oracle PI))
    (fs : seq (oracle PF)) (vos : seq (generic_vo F)) (domain_size z_h_degree : nat) : res nat :=
  m <- rfoldM (fun m vo =>
         e <- gv_get_expression vo ;;
         dg <- edegree e (query_leaf ws ins fs (fun _ _ => get_degree domain_size)
                 (fun _ _ => get_degree domain_size) (fun _ _ => get_degree domain_size)) ;;
         Ok (maxn m dg)) 0%N vos ;;
  usub m z_h_degree.
End Quotient.

(** src/indexer.rs:98-131 *)
Definition compute_zh_evals (d ext : domain F) (z_h : lpoly F) : res (seq F) :=
  _ <- rassert (dsize d <= dsize ext)%N ;;
  if peq (vanishing_dense d) z_h && (dsize d == dsize ext) then
    e <- finv (eval_vanishing d (mult_gen env)) ;;
    Ok (nseq (dsize d) e)
  else if peq (vanishing_dense d) z_h then
    zh <- compute_vanishing_poly_over_coset env ext (dsize d) ;;
    Ok (batch_inversion zh)
  else
    Ok (batch_inversion (coset_fft env ext z_h)).

(** src/indexer.rs:134-240. [permute] is [should_include_in_copy]. *)
Definition index {PW PI PF} (permute : PW -> bool)
    (vos : seq (generic_vo F)) (lookups : seq (generic_lookup_vo F))
    (ws : seq (oracle PW)) (ins : seq (oracle PI)) (fs : seq (oracle PF))
    (d : domain F) (z_h : lpoly F) (info : permutation_info F) (usable_rows : nat)
  : res verifier_key :=
  quotient_degree <- compute_quotient_degree ws ins fs vos (dsize d) (pdeg z_h) ;;
  ext0 <- opt_unwrap (domain_new env quotient_degree) ;;
  if (dsize ext0 < dsize d)%N then Err QuotientTooSmall else
  let num_to_permute := count (fun o => permute (o_data o)) ws in
  s0 <- udiv (dsize ext0) (dsize d) ;;
  let s1 := if (0 < num_to_permute)%N then maxn s0 PERM_MINIMAL_SCALING_FACTOR else s0 in
  let s2 := if ~~ nilp lookups then maxn s1 LOOKUP_MINIMAL_SCALING_FACTOR else s1 in
  pa <- perm_new s2 info ;;
  ext <- opt_unwrap (domain_new env (s2 * dsize d)) ;;
  zh <- compute_zh_evals d ext z_h ;;
  Ok (VerifierKey (Index quotient_degree ext pa lookups usable_rows) zh).
End Indexer.
