(** * Accuracy of the incomplete beta function (C108 to C111). *)
From Verif Require Import Base ModelBasic ModelInt ModelElem ModelSpecial ModelApi Spec SpecGamma SpecInc FltLemmas ConvLemmas BasicProofs IncBetaApi IncBetaBad IncBetaAbs.
From Coq Require Import Lra.
Open Scope R_scope.

(** C108 *)
Theorem C108_incomplete_beta_accurate : forall v f (a b z : flt f), finite a = true -> finite b = true -> finite z = true -> / 2 <= B2R a <= 10 -> / 2 <= B2R b <= 10 -> / 8 <= B2R z <= 7 / 8 ->
  B2R z * (B2R a + B2R b + 2) <= (B2R a + 1) * (1 - 5 * bpow radix2 (- prec f)) ->
  exists w, rmap (AFlt _) (gcem_incomplete_beta v (AFlt f a) (AFlt f b) (AFlt f z)) = Ok (AFlt f w) /\ finite w = true /\
    rel_err (B2R w) (beta_I (B2R a) (B2R b) (B2R z)) (84000 * bpow radix2 (- prec f) + bpow radix2 (-43)).
Proof. exact api_ib_direct. Qed.
Print Assumptions C108_incomplete_beta_accurate.
Example C108_ex : exists w, rmap (AFlt _) (gcem_incomplete_beta Cxx11 (AFlt F64 (ofZ F64 3)) (AFlt F64 (ofZ F64 2)) (AFlt F64 (half F64))) = Ok (AFlt F64 w) /\ finite w = true /\
  rel_err (B2R w) (beta_I 3 2 (/ 2)) (85024 * bpow radix2 (-53)).
Proof.
  destruct (ofZ_small F64 3 ltac:(lia)) as (V & F & _). destruct (ofZ_small F64 2 ltac:(lia)) as (V1 & F1 & _). destruct (half_spec F64) as (Vh & Fh).
  assert (B : 0 < bpow radix2 (-53) <= / 256). { split. apply bpow_gt_0. change (/ 256) with (bpow radix2 (-8)). apply bpow_le. lia. }
  destruct (C108_incomplete_beta_accurate Cxx11 F64 (ofZ F64 3) (ofZ F64 2) (half F64) F F1 Fh) as (w & E & Fw & R). rewrite V; lra. rewrite V1; lra. rewrite Vh; lra.
  { rewrite V, V1, Vh. change (- prec F64)%Z with (-53)%Z. lra. }
  rewrite V, V1, Vh in R. exists w. split. exact E. split. exact Fw. change (- prec F64)%Z with (-53)%Z in R.
  replace (bpow radix2 (-43)) with (1024 * bpow radix2 (-53)) in R. replace (85024 * bpow radix2 (-53)) with (84000 * bpow radix2 (-53) + 1024 * bpow radix2 (-53)) by ring. exact R.
  change 1024 with (bpow radix2 10). rewrite <- bpow_plus. reflexivity.
Qed.

(** C109 *)
Theorem C109_incomplete_beta_accurate_refuted : forall v f, exists z : flt f, finite z = true /\ 0 < B2R z < / 2 /\
  exists w, rmap (AFlt _) (gcem_incomplete_beta v (AFlt f (ofZ f 2)) (AFlt f (ofZ f 2)) (AFlt f z)) = Ok (AFlt f w) /\ finite w = true /\
    98 / 100 * beta_I 2 2 (B2R z) <= Rabs (B2R w - beta_I 2 2 (B2R z)).
Proof. exact ib_ten. Qed.
Print Assumptions C109_incomplete_beta_accurate_refuted.

(** C110 *)
Theorem C110_incomplete_beta_absolute : forall v f (a b z : flt f), finite a = true -> finite b = true -> finite z = true -> / 2 <= B2R a <= 10 -> / 2 <= B2R b <= 10 -> / 8 <= B2R z <= 7 / 8 ->
  exists w, rmap (AFlt _) (gcem_incomplete_beta v (AFlt f a) (AFlt f b) (AFlt f z)) = Ok (AFlt f w) /\ finite w = true /\
    abs_err (B2R w) (beta_I (B2R a) (B2R b) (B2R z)) (84500 * bpow radix2 (- prec f) + bpow radix2 (-43)).
Proof. exact api_ib_abs. Qed.
Print Assumptions C110_incomplete_beta_absolute.
(** z = 1/2 lies above the switch at (a+1)/(a+b+2) = 3/7 *)
Example C110_ex : exists w, rmap (AFlt _) (gcem_incomplete_beta Cxx11 (AFlt F64 (ofZ F64 2)) (AFlt F64 (ofZ F64 3)) (AFlt F64 (half F64))) = Ok (AFlt F64 w) /\ finite w = true /\
  abs_err (B2R w) (beta_I 2 3 (/ 2)) (85524 * bpow radix2 (-53)).
Proof.
  destruct (ofZ_small F64 3 ltac:(lia)) as (V & F & _). destruct (ofZ_small F64 2 ltac:(lia)) as (V1 & F1 & _). destruct (half_spec F64) as (Vh & Fh).
  destruct (C110_incomplete_beta_absolute Cxx11 F64 (ofZ F64 2) (ofZ F64 3) (half F64) F1 F Fh) as (w & E & Fw & R). rewrite V1; lra. rewrite V; lra. rewrite Vh; lra.
  rewrite V, V1, Vh in R. exists w. split. exact E. split. exact Fw. change (- prec F64)%Z with (-53)%Z in R.
  replace (bpow radix2 (-43)) with (1024 * bpow radix2 (-53)) in R. replace (85524 * bpow radix2 (-53)) with (84500 * bpow radix2 (-53) + 1024 * bpow radix2 (-53)) by ring. exact R.
  change 1024 with (bpow radix2 10). rewrite <- bpow_plus. reflexivity.
Qed.

(** C111 *)
Theorem C111_incomplete_beta_nearly_monotone : forall v f (a b z z' w w' : flt f), finite a = true -> finite b = true -> finite z = true -> finite z' = true -> / 2 <= B2R a <= 10 -> / 2 <= B2R b <= 10 -> / 8 <= B2R z -> B2R z <= B2R z' -> B2R z' <= 7 / 8 ->
  rmap (AFlt _) (gcem_incomplete_beta v (AFlt f a) (AFlt f b) (AFlt f z)) = Ok (AFlt f w) -> rmap (AFlt _) (gcem_incomplete_beta v (AFlt f a) (AFlt f b) (AFlt f z')) = Ok (AFlt f w') ->
  B2R w <= B2R w' + 2 * (84500 * bpow radix2 (- prec f) + bpow radix2 (-43)).
Proof. exact api_ib_mono. Qed.
Print Assumptions C111_incomplete_beta_nearly_monotone.
(** the hypotheses hold for a = 2, b = 3 and every z in the range: the results exist *)
Example C111_ex : exists w w', rmap (AFlt _) (gcem_incomplete_beta Cxx11 (AFlt F64 (ofZ F64 2)) (AFlt F64 (ofZ F64 3)) (AFlt F64 (half F64))) = Ok (AFlt F64 w) /\
  rmap (AFlt _) (gcem_incomplete_beta Cxx11 (AFlt F64 (ofZ F64 2)) (AFlt F64 (ofZ F64 3)) (AFlt F64 (dec F64 75 2))) = Ok (AFlt F64 w') /\ B2R w <= B2R w' + / 1000000.
Proof.
  destruct (ofZ_small F64 3 ltac:(lia)) as (V & F & _). destruct (ofZ_small F64 2 ltac:(lia)) as (V1 & F1 & _). destruct (half_spec F64) as (Vh & Fh).
  assert (D : B2R (dec F64 75 2) = 3 / 4 /\ finite (dec F64 75 2) = true). { split. unfold dec. vm_compute. lra. vm_compute. reflexivity. } destruct D as (Vd & Fd).
  destruct (C110_incomplete_beta_absolute Cxx11 F64 (ofZ F64 2) (ofZ F64 3) (half F64) F1 F Fh) as (w & E & Fw & R). rewrite V1; lra. rewrite V; lra. rewrite Vh; lra.
  destruct (C110_incomplete_beta_absolute Cxx11 F64 (ofZ F64 2) (ofZ F64 3) (dec F64 75 2) F1 F Fd) as (w' & E' & Fw' & R'). rewrite V1; lra. rewrite V; lra. rewrite Vd; lra.
  exists w, w'. split. exact E. split. exact E'. eapply Rle_trans. apply (C111_incomplete_beta_nearly_monotone Cxx11 F64 (ofZ F64 2) (ofZ F64 3) (half F64) (dec F64 75 2) w w' F1 F Fh Fd); auto; rewrite ?V, ?V1, ?Vh, ?Vd; lra.
  apply Rplus_le_compat_l. change (- prec F64)%Z with (-53)%Z. cbn. lra.
Qed.
