(** * Laws relating log1p, expm1 and log (C142, C143). *)
From Verif Require Import Base ModelBasic ModelInt ModelElem ModelSpecial ModelApi Spec FltLemmas ConvLemmas BasicProofs LogExpLaws.
From Coq Require Import Lra Lia.
Open Scope R_scope.

(** C142: log1p and expm1 undo each other, to working precision next to zero *)
Theorem C142_expm1_log1p_small : forall v f (x : flt f), finite x = true -> bpow radix2 (4 - emax f) <= Rabs (B2R x) <= 9 / 100000 ->
  exists a m : flt f, gcem_log1p v (AFlt f x) = Ok a /\ gcem_expm1 v (AFlt f a) = Ok m /\ finite m = true /\
  rel_err (B2R m) (B2R x) (5 * bpow radix2 (- prec f)).
Proof. exact expm1_log1p_small. Qed.
Print Assumptions C142_expm1_log1p_small.
Theorem C142_log1p_expm1_small : forall v f (x : flt f), finite x = true -> bpow radix2 (4 - emax f) <= Rabs (B2R x) <= 9 / 100000 ->
  exists m a : flt f, gcem_expm1 v (AFlt f x) = Ok m /\ gcem_log1p v (AFlt f m) = Ok a /\ finite a = true /\
  rel_err (B2R a) (B2R x) (5 * bpow radix2 (- prec f)).
Proof. exact log1p_expm1_small. Qed.
Print Assumptions C142_log1p_expm1_small.
Theorem C142_expm1_log1p : forall v f (x : flt f), finite x = true -> - (39 / 100) <= B2R x <= / 2 ->
  exists a m : flt f, gcem_log1p v (AFlt f x) = Ok a /\ gcem_expm1 v (AFlt f a) = Ok m /\ finite m = true /\
  abs_err (B2R m) (B2R x) (19 * bpow radix2 (- prec f) + bpow radix2 (-54)).
Proof. exact expm1_log1p_wide. Qed.
Print Assumptions C142_expm1_log1p.
Theorem C142_log1p_expm1 : forall v f (x : flt f), finite x = true -> Rabs (B2R x) <= 2 / 5 ->
  exists m a : flt f, gcem_expm1 v (AFlt f x) = Ok m /\ gcem_log1p v (AFlt f m) = Ok a /\ finite a = true /\
  abs_err (B2R a) (B2R x) (12 * bpow radix2 (- prec f) + bpow radix2 (-54)).
Proof. exact log1p_expm1_wide. Qed.
Print Assumptions C142_log1p_expm1.
Example C142_ex_small : exists a m : flt F64, gcem_log1p Cxx11 (AFlt F64 tiny14) = Ok a /\ gcem_expm1 Cxx11 (AFlt F64 a) = Ok m /\ finite m = true /\ rel_err (B2R m) (/ 16384) (5 * bpow radix2 (-53)).
Proof.
  destruct tiny14_val as (V & F). destruct (C142_expm1_log1p_small Cxx11 F64 tiny14 F) as (a & m & E & E' & G & B). rewrite V, Rabs_pos_eq by lra. split; [|lra]. change (/ 16384) with (bpow radix2 (-14)). apply bpow_le. discriminate.
  rewrite V in B. exists a, m. split. exact E. split. exact E'. split. exact G. exact B.
Qed.
Example C142_ex : exists a m : flt F32, gcem_log1p Cxx14 (AFlt F32 (half F32)) = Ok a /\ gcem_expm1 Cxx14 (AFlt F32 a) = Ok m /\ Rabs (B2R m - / 2) <= / 100000.
Proof.
  destruct (half_spec F32) as (V & F). destruct (C142_expm1_log1p Cxx14 F32 (half F32) F) as (a & m & E & E' & _ & B). rewrite V; lra. exists a, m. split. exact E. split. exact E'. unfold abs_err in B. rewrite V in B. eapply Rle_trans. exact B. change (- prec F32)%Z with (-24)%Z. change (bpow radix2 (-24)) with (/ 16777216). change (bpow radix2 (-54)) with (/ 18014398509481984). lra.
Qed.

(** C143: log of a product is the sum of the logarithms *)
Theorem C143_log_product : forall v f (x y : flt f), finite x = true -> finite y = true -> 1 <= B2R x -> 1 <= B2R y -> B2R x * B2R y <= bpow radix2 (emax f - 1) ->
  exists wx wy w : flt f, gcem_log v (AFlt f x) = Ok wx /\ gcem_log v (AFlt f y) = Ok wy /\ gcem_log v (AFlt f (x *. y)) = Ok w /\ finite w = true /\
  abs_err (B2R w) (B2R wx + B2R wy) ((2 + 113 / 10 * ln (B2R x * B2R y)) * bpow radix2 (- prec f)).
Proof. exact log_product. Qed.
Print Assumptions C143_log_product.
Example C143_ex : exists wx wy w : flt F80, gcem_log Cxx14 (AFlt F80 (ofZ F80 3)) = Ok wx /\ gcem_log Cxx14 (AFlt F80 (ofZ F80 7)) = Ok wy /\ gcem_log Cxx14 (AFlt F80 (ofZ F80 3 *. ofZ F80 7)) = Ok w /\ finite w = true /\
  abs_err (B2R w) (B2R wx + B2R wy) ((2 + 113 / 10 * ln (3 * 7)) * bpow radix2 (-64)).
Proof.
  destruct (ofZ_small F80 3 ltac:(lia)) as (V & F & _). destruct (ofZ_small F80 7 ltac:(lia)) as (V' & F' & _). destruct (C143_log_product Cxx14 F80 (ofZ F80 3) (ofZ F80 7) F F') as (wx & wy & w & E1 & E2 & E3 & G & B). rewrite V; lra. rewrite V'; lra. rewrite V, V'. apply Rle_trans with (bpow radix2 5). change (bpow radix2 5) with 32. lra. apply bpow_le. discriminate.
  rewrite V, V' in B. exists wx, wy, w. split. exact E1. split. exact E2. split. exact E3. split. exact G. exact B.
Qed.
