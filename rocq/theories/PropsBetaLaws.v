(** * beta and tgamma agree; incomplete_beta and its inverse (C144, C145). *)
From Verif Require Import Base ModelBasic ModelInt ModelElem ModelSpecial ModelApi Spec FltLemmas ConvLemmas BasicProofs BetaLaws BetaTrip.
From Coq Require Import Lra Lia.
Open Scope R_scope.

(** C144: beta(a, b) tgamma(a + b) = tgamma(a) tgamma(b) *)
Theorem C144_beta_tgamma : forall v n f (a b c : flt f), finite a = true -> finite b = true -> finite c = true -> / 2 <= B2R a -> / 2 <= B2R b -> B2R c = B2R a + B2R b -> B2R c <= match f with F32 => 32 | F64 => 170 | F80 => 1754 end ->
  exists w ga gb gc : flt f, rmap (AFlt _) (gcem_beta v (AFlt f a) (AFlt f b)) = Ok (AFlt f w) /\ gcem_tgamma v (S n) (AFlt f a) = Ok ga /\ gcem_tgamma v (S n) (AFlt f b) = Ok gb /\ gcem_tgamma v (S n) (AFlt f c) = Ok gc /\
  finite w = true /\ finite ga = true /\ finite gb = true /\ finite gc = true /\
  rel_err (B2R w * B2R gc) (B2R ga * B2R gb) ((66 * (B2R c * ln (B2R c + 5)) + 780) * bpow radix2 (- prec f) + (8 * B2R c + 35) * bpow radix2 (-54)).
Proof. exact beta_tgamma. Qed.
Print Assumptions C144_beta_tgamma.
Example C144_ex : exists w ga gb gc : flt F64, rmap (AFlt _) (gcem_beta Cxx11 (AFlt F64 (half F64)) (AFlt F64 (half F64))) = Ok (AFlt F64 w) /\ gcem_tgamma Cxx11 1 (AFlt F64 (half F64)) = Ok ga /\ gcem_tgamma Cxx11 1 (AFlt F64 (half F64)) = Ok gb /\ gcem_tgamma Cxx11 1 (AFlt F64 (ofZ F64 1)) = Ok gc /\
  rel_err (B2R w * B2R gc) (B2R ga * B2R gb) ((66 * (1 * ln (1 + 5)) + 780) * bpow radix2 (-53) + (8 * 1 + 35) * bpow radix2 (-54)).
Proof.
  destruct (half_spec F64) as (V & F). destruct (ofZ_small F64 1 ltac:(lia)) as (V1 & F1 & _).
  destruct (C144_beta_tgamma Cxx11 0 F64 (half F64) (half F64) (ofZ F64 1) F F F1) as (w & ga & gb & gc & E1 & E2 & E3 & E4 & _ & _ & _ & _ & B); try (rewrite ?V, ?V1; lra).
  rewrite V1 in B. exists w, ga, gb, gc. split. exact E1. split. exact E2. split. exact E3. split. exact E4. exact B.
Qed.

(** C145: incomplete_beta and incomplete_beta_inv with a = b = 1 undo each other *)
Theorem C145_incomplete_beta_of_inv : forall v f (p : flt f), finite p = true -> 15 / 100 <= B2R p <= 85 / 100 ->
  exists w q : flt f, rmap (AFlt _) (gcem_incomplete_beta_inv v (AFlt f (ofZ f 1)) (AFlt f (ofZ f 1)) (AFlt f p)) = Ok (AFlt f w) /\
  rmap (AFlt _) (gcem_incomplete_beta v (AFlt f (ofZ f 1)) (AFlt f (ofZ f 1)) (AFlt f w)) = Ok (AFlt f q) /\ finite q = true /\
  abs_err (B2R q) (B2R p) (169008 * bpow radix2 (- prec f) + bpow radix2 (-42)).
Proof. exact ib_of_inv. Qed.
Print Assumptions C145_incomplete_beta_of_inv.
Theorem C145_inv_of_incomplete_beta : forall v f (z : flt f), finite z = true -> 16 / 100 <= B2R z <= 84 / 100 ->
  exists q w : flt f, rmap (AFlt _) (gcem_incomplete_beta v (AFlt f (ofZ f 1)) (AFlt f (ofZ f 1)) (AFlt f z)) = Ok (AFlt f q) /\
  rmap (AFlt _) (gcem_incomplete_beta_inv v (AFlt f (ofZ f 1)) (AFlt f (ofZ f 1)) (AFlt f q)) = Ok (AFlt f w) /\ finite w = true /\
  abs_err (B2R w) (B2R z) (169008 * bpow radix2 (- prec f) + bpow radix2 (-42)).
Proof. exact inv_of_ib. Qed.
Print Assumptions C145_inv_of_incomplete_beta.
Example C145_ex : exists q w : flt F64, rmap (AFlt _) (gcem_incomplete_beta Cxx11 (AFlt F64 (ofZ F64 1)) (AFlt F64 (ofZ F64 1)) (AFlt F64 (half F64))) = Ok (AFlt F64 q) /\
  rmap (AFlt _) (gcem_incomplete_beta_inv Cxx11 (AFlt F64 (ofZ F64 1)) (AFlt F64 (ofZ F64 1)) (AFlt F64 q)) = Ok (AFlt F64 w) /\ Rabs (B2R w - / 2) <= / 10000000000.
Proof.
  destruct (half_spec F64) as (V & F). destruct (C145_inv_of_incomplete_beta Cxx11 F64 (half F64) F) as (q & w & E & E' & _ & B). rewrite V; lra.
  exists q, w. split. exact E. split. exact E'. unfold abs_err in B. rewrite V in B. eapply Rle_trans. exact B. change (- prec F64)%Z with (-53)%Z. change (bpow radix2 (-53)) with (/ 9007199254740992). change (bpow radix2 (-42)) with (/ 4398046511104). lra.
Qed.
