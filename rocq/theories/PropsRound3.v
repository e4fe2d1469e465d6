(** * The hyperbolic functions undo their inverses (C141). *)
From Verif Require Import Base ModelBasic ModelInt ModelElem ModelSpecial ModelApi Spec FltLemmas ConvLemmas BasicProofs RoundTrip3.
From Coq Require Import Lra Lia Rtrigo_def.
Open Scope R_scope.

(** C141: cosh (acosh x), sinh (asinh x) and tanh (atanh x) give x back *)
Theorem C141_cosh_acosh : forall v f (x : flt f), finite x = true -> 2 <= B2R x <= 1000 ->
  exists a c : flt f, gcem_acosh v (AFlt f x) = Ok a /\ gcem_cosh v (AFlt f a) = Ok c /\ finite c = true /\
  rel_err (B2R c) (B2R x) (185 * bpow radix2 (- prec f) + bpow radix2 (-52)).
Proof. exact cosh_of_acosh. Qed.
Print Assumptions C141_cosh_acosh.
Theorem C141_sinh_asinh : forall v f (x : flt f), finite x = true -> 1 <= B2R x <= 1000 ->
  exists a s : flt f, gcem_asinh v (AFlt f x) = Ok a /\ gcem_sinh v (AFlt f a) = Ok s /\ finite s = true /\
  rel_err (B2R s) (B2R x) (231 * bpow radix2 (- prec f) + bpow radix2 (-52)).
Proof. exact sinh_of_asinh. Qed.
Print Assumptions C141_sinh_asinh.
Theorem C141_tanh_atanh : forall v f (x : flt f), finite x = true -> - (3 / 10) <= B2R x <= 99 / 100 -> / 100 <= Rabs (B2R x) ->
  exists a t : flt f, gcem_atanh v (AFlt f x) = Ok a /\ gcem_tanh v (AFlt f a) = Ok t /\ finite t = true /\
  abs_err (B2R t) (B2R x) (35 * bpow radix2 (- prec f) + bpow radix2 (-66)).
Proof. exact tanh_of_atanh. Qed.
Print Assumptions C141_tanh_atanh.
Example C141_ex_cosh : exists a c : flt F64, gcem_acosh Cxx11 (AFlt F64 (ofZ F64 7)) = Ok a /\ gcem_cosh Cxx11 (AFlt F64 a) = Ok c /\ Rabs (B2R c - 7) <= / 1000000000000.
Proof.
  destruct (ofZ_small F64 7 ltac:(lia)) as (V & F & _). destruct (C141_cosh_acosh Cxx11 F64 (ofZ F64 7) F) as (a & c & E & E' & _ & B). rewrite V; lra. exists a, c. split. exact E. split. exact E'. unfold rel_err in B. rewrite V, (Rabs_pos_eq 7) in B by lra. eapply Rle_trans. exact B. change (- prec F64)%Z with (-53)%Z. change (bpow radix2 (-53)) with (/ 9007199254740992). change (bpow radix2 (-52)) with (/ 4503599627370496). lra.
Qed.
Example C141_ex_sinh : exists a s : flt F32, gcem_asinh Cxx14 (AFlt F32 (ofZ F32 7)) = Ok a /\ gcem_sinh Cxx14 (AFlt F32 a) = Ok s /\ Rabs (B2R s - 7) <= / 10000.
Proof.
  destruct (ofZ_small F32 7 ltac:(lia)) as (V & F & _). destruct (C141_sinh_asinh Cxx14 F32 (ofZ F32 7) F) as (a & c & E & E' & _ & B). rewrite V; lra. exists a, c. split. exact E. split. exact E'. unfold rel_err in B. rewrite V, (Rabs_pos_eq 7) in B by lra. eapply Rle_trans. exact B. change (- prec F32)%Z with (-24)%Z. change (bpow radix2 (-24)) with (/ 16777216). change (bpow radix2 (-52)) with (/ 4503599627370496). lra.
Qed.
Example C141_ex_tanh : exists a t : flt F64, gcem_atanh Cxx11 (AFlt F64 (half F64)) = Ok a /\ gcem_tanh Cxx11 (AFlt F64 a) = Ok t /\ Rabs (B2R t - / 2) <= / 100000000000000.
Proof.
  destruct (half_spec F64) as (V & F). destruct (C141_tanh_atanh Cxx11 F64 (half F64) F) as (a & t & E & E' & _ & B). rewrite V; lra. rewrite V, Rabs_pos_eq; lra. exists a, t. split. exact E. split. exact E'. unfold abs_err in B. rewrite V in B. eapply Rle_trans. exact B. change (- prec F64)%Z with (-53)%Z. change (bpow radix2 (-53)) with (/ 9007199254740992). change (bpow radix2 (-66)) with (/ 73786976294838206464). lra.
Qed.
