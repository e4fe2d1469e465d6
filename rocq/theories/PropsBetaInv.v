(** * Accuracy of the inverse incomplete beta function (C140). *)
From Verif Require Import Base ModelBasic ModelInt ModelElem ModelSpecial ModelApi Spec SpecGamma SpecInc FltLemmas ConvLemmas BasicProofs BetaInvUnif.
From Coq Require Import Lra.
Open Scope R_scope.

(** C140: a = b = 1, the uniform distribution *)
Theorem C140_incomplete_beta_inv_uniform : forall v f (p : flt f), finite p = true -> 15 / 100 <= B2R p <= 85 / 100 ->
  exists w, rmap (AFlt _) (gcem_incomplete_beta_inv v (AFlt f (ofZ f 1)) (AFlt f (ofZ f 1)) (AFlt f p)) = Ok (AFlt f w) /\ finite w = true /\ 0 < B2R w < 1 /\
  abs_err (beta_I 1 1 (B2R w)) (B2R p) (84508 * bpow radix2 (- prec f) + bpow radix2 (-43)) /\ abs_err (B2R w) (B2R p) (84508 * bpow radix2 (- prec f) + bpow radix2 (-43)).
Proof. exact api_ibi_unif2. Qed.
Print Assumptions C140_incomplete_beta_inv_uniform.
Example C140_ex : exists w, rmap (AFlt _) (gcem_incomplete_beta_inv Cxx14 (AFlt F64 (ofZ F64 1)) (AFlt F64 (ofZ F64 1)) (AFlt F64 (half F64))) = Ok (AFlt F64 w) /\ Rabs (B2R w - / 2) <= / 10000000000.
Proof.
  destruct (half_spec F64) as (V & F). destruct (C140_incomplete_beta_inv_uniform Cxx14 F64 (half F64) F) as (w & E & _ & _ & _ & R). rewrite V; lra.
  exists w. split. exact E. unfold abs_err in R. rewrite V in R. eapply Rle_trans. exact R. change (- prec F64)%Z with (-53)%Z. change (bpow radix2 (-53)) with (/ 9007199254740992). change (bpow radix2 (-43)) with (/ 8796093022208). lra.
Qed.
