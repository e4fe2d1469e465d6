(** * exp of a sum (C159), tanh as a quotient (C160). *)
From Verif Require Import Base ModelBasic ModelInt ModelElem ModelSpecial ModelApi Spec FltLemmas ConvLemmas BasicProofs ExpSum.
From Coq Require Import Lra Lia.
From Interval Require Import Tactic.
Open Scope R_scope.

(** C159: exp x * exp y = exp (x + y), the sum being exact *)
Theorem C159_exp_sum : forall v f (x y z : flt f), finite x = true -> finite y = true -> finite z = true -> B2R z = B2R x + B2R y -> Rabs (B2R x) < 2 -> Rabs (B2R y) < 2 -> Rabs (B2R z) < 2 ->
  exists a b c : flt f, gcem_exp v (AFlt f x) = Ok a /\ gcem_exp v (AFlt f y) = Ok b /\ gcem_exp v (AFlt f z) = Ok c /\ finite a = true /\ finite b = true /\ finite c = true /\
  rel_err (B2R a * B2R b) (B2R c) (319 * bpow radix2 (- prec f) + bpow radix2 (-53)).
Proof. exact exp_sum_small. Qed.
Print Assumptions C159_exp_sum.
(** arguments not below 2, where an integral power of e is split off *)
Theorem C159_exp_sum_far : forall v f (x y z : flt f), finite x = true -> finite y = true -> finite z = true -> B2R z = B2R x + B2R y -> 2 <= B2R x -> 2 <= B2R y -> B2R z <= 10000 -> exp (B2R z + 2) <= bpow radix2 (emax f - 9) ->
  exists a b c : flt f, gcem_exp v (AFlt f x) = Ok a /\ gcem_exp v (AFlt f y) = Ok b /\ gcem_exp v (AFlt f z) = Ok c /\ finite a = true /\ finite b = true /\ finite c = true /\
  rel_err (B2R a * B2R b) (B2R c) (31 * bpow radix2 (- prec f) + bpow radix2 (-52) + (B2R z + 5) * bpow radix2 (-59)).
Proof. exact exp_sum_far. Qed.
Print Assumptions C159_exp_sum_far.
Example C159_ex : exists a b c : flt F64, gcem_exp Cxx11 (AFlt F64 (half F64)) = Ok a /\ gcem_exp Cxx11 (AFlt F64 (half F64)) = Ok b /\ gcem_exp Cxx11 (AFlt F64 (ofZ F64 1)) = Ok c /\ finite a = true /\ finite b = true /\ finite c = true /\
  rel_err (B2R a * B2R b) (B2R c) (319 * bpow radix2 (-53) + bpow radix2 (-53)).
Proof.
  destruct (half_spec F64) as (V & F). destruct (ofZ_small F64 1 ltac:(lia)) as (V1 & F1 & _).
  apply (C159_exp_sum Cxx11 F64 (half F64) (half F64) (ofZ F64 1) F F F1); rewrite ?V, ?V1, ?Rabs_pos_eq; lra.
Qed.
Example C159_far_ex : exists a b c : flt F64, gcem_exp Cxx11 (AFlt F64 (ofZ F64 2)) = Ok a /\ gcem_exp Cxx11 (AFlt F64 (ofZ F64 3)) = Ok b /\ gcem_exp Cxx11 (AFlt F64 (ofZ F64 5)) = Ok c /\ finite a = true /\ finite b = true /\ finite c = true /\
  rel_err (B2R a * B2R b) (B2R c) (31 * bpow radix2 (-53) + bpow radix2 (-52) + (B2R (ofZ F64 5) + 5) * bpow radix2 (-59)).
Proof.
  destruct (ofZ_small F64 2 ltac:(lia)) as (V2 & F2 & _). destruct (ofZ_small F64 3 ltac:(lia)) as (V3 & F3 & _). destruct (ofZ_small F64 5 ltac:(lia)) as (V5 & F5 & _).
  apply (C159_exp_sum_far Cxx11 F64 (ofZ F64 2) (ofZ F64 3) (ofZ F64 5) F2 F3 F5); rewrite ?V2, ?V3, ?V5; try lra. apply Rle_trans with (bpow radix2 20). cbn. interval. apply bpow_le. discriminate.
Qed.

(** C160: the product of the returned tanh and cosh is the returned sinh *)
Theorem C160_tanh_cosh_sinh : forall v f (x : flt f), finite x = true -> 2 <= Rabs (B2R x) <= 25 ->
  exists t c s : flt f, gcem_tanh v (AFlt f x) = Ok t /\ gcem_cosh v (AFlt f x) = Ok c /\ gcem_sinh v (AFlt f x) = Ok s /\ finite t = true /\ finite c = true /\ finite s = true /\
  rel_err (B2R t * B2R c) (B2R s) (46 * bpow radix2 (- prec f) + bpow radix2 (-51)).
Proof. exact tanh_cosh_sinh. Qed.
Print Assumptions C160_tanh_cosh_sinh.
Example C160_ex : exists t c s : flt F64, gcem_tanh Cxx11 (AFlt F64 (ofZ F64 3)) = Ok t /\ gcem_cosh Cxx11 (AFlt F64 (ofZ F64 3)) = Ok c /\ gcem_sinh Cxx11 (AFlt F64 (ofZ F64 3)) = Ok s /\ finite t = true /\ finite c = true /\ finite s = true /\
  rel_err (B2R t * B2R c) (B2R s) (46 * bpow radix2 (-53) + bpow radix2 (-51)).
Proof. destruct (ofZ_small F64 3 ltac:(lia)) as (V & F & _). apply (C160_tanh_cosh_sinh Cxx11 F64 (ofZ F64 3) F). rewrite V, Rabs_pos_eq; lra. Qed.
