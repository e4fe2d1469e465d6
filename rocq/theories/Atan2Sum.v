(** * atan2 under exchange of its arguments and under reflection *)
From Verif Require Import Base ModelBasic ModelInt ModelElem ModelSpecial ModelApi FltLemmas Spec IntProofs BasicProofs ConvLemmas MiscProofs ExpAcc.
From Coq Require Import Lra Psatz.
From Verif Require Import Base ModelBasic FPErr AtanAcc Atan2Acc RoundTrip2 RoundTrip3 ExpDist.
From Verif Require Import Base ModelBasic ModelInt ModelElem ModelSpecial ModelApi TotalProofs.
From Interval Require Import Tactic.
Open Scope R_scope.

Lemma atan2_swap : forall v f (y x : flt f), finite y = true -> finite x = true -> bpow radix2 (2 - emax f) <= B2R x -> bpow radix2 (2 - emax f) <= B2R y -> bpow radix2 (2 - emax f) <= B2R y / B2R x <= bpow radix2 (emax f - 2) ->
  exists a b : flt f, rmap (AFlt _) (gcem_atan2 v (AFlt f y) (AFlt f x)) = Ok (AFlt f a) /\ rmap (AFlt _) (gcem_atan2 v (AFlt f x) (AFlt f y)) = Ok (AFlt f b) /\ finite a = true /\ finite b = true /\
  abs_err (B2R a + B2R b) (PI / 2) (16 * bpow radix2 (- prec f) + bpow radix2 (-53)).
Proof.
  intros v f y x Fy Fx X Y T. assert (U0 := uf_pos f). assert (m := bpow_gt_0 radix2 (2 - emax f)). assert (ME : bpow radix2 (emax f - 2) <= bpow radix2 (emax f - 1)) by (apply bpow_le; lia).
  set (t := B2R y / B2R x) in * . assert (t0 : 0 < t) by lra. assert (TI : B2R x / B2R y = / t) by (unfold t; field; lra).
  assert (MI : bpow radix2 (emax f - 2) = / bpow radix2 (2 - emax f)) by (rewrite <- bpow_opp; f_equal; lia).
  assert (L : bpow radix2 (2 - emax f) <= / t). { rewrite <- (Rinv_involutive (bpow radix2 (2 - emax f))) by lra. rewrite <- MI. apply Rinv_le_contravar; lra. }
  assert (H : / t <= bpow radix2 (emax f - 2)) by (rewrite MI; apply Rinv_le_contravar; lra).
  assert (EA : exists w : flt f, rmap (AFlt _) (gcem_atan2 v (AFlt f y) (AFlt f x)) = Ok (AFlt f w) /\ finite w = true /\ rel_err (B2R w) (atan t) (10 * uf f + bpow radix2 (-54))) by (apply (api_atan2_right v f y x Fy Fx); fold t; rewrite ?(Rabs_pos_eq (B2R x)), ?(Rabs_pos_eq t); lra).
  assert (EB : exists w : flt f, rmap (AFlt _) (gcem_atan2 v (AFlt f x) (AFlt f y)) = Ok (AFlt f w) /\ finite w = true /\ rel_err (B2R w) (atan (/ t)) (10 * uf f + bpow radix2 (-54))) by (rewrite <- TI; apply (api_atan2_right v f x y Fx Fy); rewrite ?TI, ?(Rabs_pos_eq (B2R y)), ?(Rabs_pos_eq (/ t)); lra).
  destruct EA as (a & Ea & Fa & Ra). destruct EB as (b & Eb & Fb & Rb). exists a, b. do 4 (split; [assumption|]). change (bpow radix2 (- prec f)) with (uf f).
  assert (S := atan_rec t t0). assert (A0 : 0 < atan t) by (rewrite <- atan_0; apply atan_increasing; lra). assert (B0 : 0 < atan (/ t)) by (rewrite <- atan_0; apply atan_increasing; lra).
  unfold rel_err, abs_err in * . rewrite (Rabs_pos_eq (atan t)) in Ra by lra. rewrite (Rabs_pos_eq (atan (/ t))) in Rb by lra. assert (b0 := bpow_gt_0 radix2 (-54)). replace (bpow radix2 (-53)) with (2 * bpow radix2 (-54)) by (cbn; lra). set (q := bpow radix2 (-54)) in * .
  assert (P : PI / 2 <= 15708 / 10000) by interval. assert (K : (10 * uf f + q) * atan t + (10 * uf f + q) * atan (/ t) <= (10 * uf f + q) * (15708 / 10000)). { rewrite <- Rmult_plus_distr_l. apply Rmult_le_compat_l; lra. }
  apply Rabs_le_inv in Ra. apply Rabs_le_inv in Rb. apply Rabs_le. lra.
Qed.
Lemma atan2_mirror : forall v f (y x : flt f), finite y = true -> finite x = true -> bpow radix2 (2 - emax f) <= B2R x -> bpow radix2 (2 - emax f) <= B2R y / B2R x <= bpow radix2 (emax f - 1) ->
  exists a b : flt f, rmap (AFlt _) (gcem_atan2 v (AFlt f y) (AFlt f x)) = Ok (AFlt f a) /\ rmap (AFlt _) (gcem_atan2 v (AFlt f y) (AFlt f (-. x))) = Ok (AFlt f b) /\ finite a = true /\ finite b = true /\
  abs_err (B2R a + B2R b) PI (57 * bpow radix2 (- prec f) + bpow radix2 (-51)).
Proof.
  intros v f y x Fy Fx X T. assert (U0 := uf_pos f). assert (m := bpow_gt_0 radix2 (2 - emax f)). destruct (neg_val x) as (Vn & Fn). rewrite Fx in Fn.
  assert (Y0 : 0 <= B2R y). { replace (B2R y) with (B2R y / B2R x * B2R x) by (field; lra). apply Rmult_le_pos; lra. }
  set (t := B2R y / B2R x) in * . assert (t0 : 0 < t) by lra. assert (TI : B2R y / B2R (-. x) = - t) by (rewrite Vn; unfold t; field; lra).
  assert (EA : exists w : flt f, rmap (AFlt _) (gcem_atan2 v (AFlt f y) (AFlt f x)) = Ok (AFlt f w) /\ finite w = true /\ rel_err (B2R w) (atan t) (10 * uf f + bpow radix2 (-54))) by (apply (api_atan2_right v f y x Fy Fx); fold t; rewrite ?(Rabs_pos_eq (B2R x)), ?(Rabs_pos_eq t); lra).
  assert (EB : exists w : flt f, rmap (AFlt _) (gcem_atan2 v (AFlt f y) (AFlt f (-. x))) = Ok (AFlt f w) /\ finite w = true /\ (0 <= B2R y -> rel_err (B2R w) (atan (B2R y / B2R (-. x)) + PI) (13 * uf f + bpow radix2 (-54))) /\ (B2R y < 0 -> rel_err (B2R w) (atan (B2R y / B2R (-. x)) - PI) (13 * uf f + bpow radix2 (-54)))).
  { apply (api_atan2_left v f y (-. x) Fy Fn). rewrite Vn, Rabs_Ropp, Rabs_pos_eq; lra. rewrite TI, Rabs_Ropp, Rabs_pos_eq; lra. rewrite Vn; lra. }
  destruct EA as (a & Ea & Fa & Ra). destruct EB as (b & Eb & Fb & Rb & _). specialize (Rb Y0). rewrite TI, atan_opp in Rb. exists a, b. do 4 (split; [assumption|]). change (bpow radix2 (- prec f)) with (uf f).
  assert (A0 : 0 < atan t) by (rewrite <- atan_0; apply atan_increasing; lra). assert (A1 := atan_bound t). assert (P : PI / 2 <= 15708 / 10000) by interval.
  unfold rel_err, abs_err in * . rewrite (Rabs_pos_eq (atan t)) in Ra by lra. rewrite (Rabs_pos_eq (- atan t + PI)) in Rb by lra. assert (b0 := bpow_gt_0 radix2 (-54)). replace (bpow radix2 (-51)) with (8 * bpow radix2 (-54)) by (cbn; lra). set (q := bpow radix2 (-54)) in * .
  assert (K1 : (10 * uf f + q) * atan t <= (10 * uf f + q) * (15708 / 10000)) by (apply Rmult_le_compat_l; lra). assert (K2 : (13 * uf f + q) * (- atan t + PI) <= (13 * uf f + q) * (31416 / 10000)) by (apply Rmult_le_compat_l; lra).
  apply Rabs_le_inv in Ra. apply Rabs_le_inv in Rb. apply Rabs_le. lra.
Qed.
