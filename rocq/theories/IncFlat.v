(** * incomplete_gamma is constant in z beyond the quadrature's upper limit *)
From Verif Require Import Base FltLemmas ConvLemmas ModelBasic ModelInt ModelElem ModelSpecial ModelApi Spec BasicProofs.
From Coq Require Import Lra Psatz.
From Verif Require Import RangeProofs SinAcc SqrtSimp GammaRnd.
Open Scope R_scope.

Section F.
Variables (v : cxx) (f : fmt) (a : flt f).
Hypotheses (Fa : finite a = true) (A : 10 <= B2R a <= 50).
Local Notation u := (FPErr.uf f).
Lemma u24 : 0 < u <= / 16777216.
Proof. split. apply bpow_gt_0. change (/ 16777216) with (bpow radix2 (-24)). apply bpow_le. destruct f; discriminate. Qed.
Lemma a_cmp k : (50 <= k <= 1000)%Z -> (a >. ofZ f k) = false.
Proof.
  intros K. destruct (ofZ_small f k ltac:(destruct f; cbn; lia)) as (V & F & _). apply flt_false; auto. rewrite V. apply Rle_trans with 50. lra. apply IZR_le. lia.
Qed.
Lemma ub_mult5 : incomplete_gamma_quad_ub_mult a = 5%Z.
Proof. unfold incomplete_gamma_quad_ub_mult. rewrite !a_cmp by lia. reflexivity. Qed.
Lemma sqrt_a : exists s, sqrt_check a = Ok s /\ finite s = true /\ 0 <= B2R s <= sqrt (B2R a) * (1 + 2 * u).
Proof.
  destruct u24 as (U0 & U1). assert (P170 : bpow radix2 (-170) <= 1) by (apply (bpow_le radix2 _ 0); discriminate). assert (m1 := fm_one f).
  destruct (sqrt_check_acc f a Fa ltac:(lra) ltac:(lra)) as (s & E & Fs & Rs). destruct Rle_dec as [|N] in Rs; [|lra]. exists s. split. exact E. split. exact Fs.
  unfold rel_err in Rs. assert (S0 := sqrt_pos (B2R a)). rewrite (Rabs_pos_eq (sqrt (B2R a))) in Rs by auto. apply Rabs_le_inv in Rs. assert (0 <= sqrt (B2R a) * u) by (apply Rmult_le_pos; lra). assert (sqrt (B2R a) * u <= sqrt (B2R a) * / 16777216) by (apply Rmult_le_compat_l; lra). split; [lra|]. lra.
Qed.
Lemma ub_val : exists s, sqrt_check a = Ok s /\ finite (a +. ofZ f 5 *. s) = true /\ B2R (a +. ofZ f 5 *. s) <= B2R a + 6 * sqrt (B2R a).
Proof.
  destruct sqrt_a as (s & E & Fs & S0 & S). exists s. split; auto. destruct u24 as (U0 & U1). destruct (ofZ_small f 5 ltac:(destruct f; cbn; lia)) as (V5 & F5 & _).
  assert (Q3 : 3 <= sqrt (B2R a)). { replace 3 with (sqrt (3 * 3)) by (apply sqrt_square; lra). apply sqrt_le_1; lra. }
  assert (Q8 : sqrt (B2R a) <= 8). { replace 8 with (sqrt (8 * 8)) by (apply sqrt_square; lra). apply sqrt_le_1; lra. }
  set (q := sqrt (B2R a)) in * . assert (qu : q * u <= 8 * / 16777216) by (apply Rmult_le_compat; lra). assert (T := bpow_gt_0 radix2 (-100)). assert (T1 : bpow radix2 (-100) <= 1) by (apply (bpow_le radix2 _ 0); discriminate).
  assert (uT : u * bpow radix2 (-100) <= / 16777216 * 1) by (apply Rmult_le_compat; lra).
  destruct (op_mul (ofZ f 5) s F5 Fs) as (Fp & Vp). { rewrite V5. apply Rabs_le. lra. }
  assert (R1 := rnd_tau (f := f) (B2R (ofZ f 5) * B2R s)). rewrite <- Vp in R1. rewrite V5 in R1. rewrite (Rabs_pos_eq (5 * B2R s)) in R1 by lra. apply Rabs_le_inv in R1. assert (u * (5 * B2R s) <= / 16777216 * 45) by (apply Rmult_le_compat; lra).
  destruct (op_add a (ofZ f 5 *. s) Fa Fp) as (F & V). { apply Rabs_le. lra. }
  split; auto. assert (R2 := rnd_tau (f := f) (B2R a + B2R (ofZ f 5 *. s))). rewrite <- V in R2. apply Rabs_le_inv in R2. assert (Rabs (B2R a + B2R (ofZ f 5 *. s)) <= 100) by (apply Rabs_le; lra).
  assert (u * Rabs (B2R a + B2R (ofZ f 5 *. s)) <= / 16777216 * 100) by (apply Rmult_le_compat; try lra; apply Rabs_pos). lra.
Qed.
Lemma quad_flat z : finite z = true -> B2R a + 6 * sqrt (B2R a) <= B2R z -> B2R z <= 3 * B2R a ->
  exists lb ub, incomplete_gamma_check v a z = (let* lg := lgamma_check v a in incomplete_gamma_quad_recur v 49 lb ub a lg 0) /\
  (let* s := sqrt_check a in Ok (max (ofZ f 0) (a -. ofZ f (incomplete_gamma_quad_lb_mult a) *. s), a +. ofZ f 5 *. s)) = Ok (lb, ub).
Proof.
  intros Fz Z1 Z2. destruct ub_val as (s & E & Fu & U). assert (S0 := sqrt_pos (B2R a)). assert (m1 := fm_one f). destruct (fmin_spec f) as (Vm & Fm).
  destruct (ofZ_small f 0 ltac:(destruct f; cbn; lia)) as (V0 & F0 & _). destruct (ofZ_small f 10 ltac:(destruct f; cbn; lia)) as (V10 & F10 & _). destruct (ofZ_small f 3 ltac:(destruct f; cbn; lia)) as (V3 & F3 & _).
  exists (max (ofZ f 0) (a -. ofZ f (incomplete_gamma_quad_lb_mult a) *. s)), (a +. ofZ f 5 *. s). rewrite E. cbn [bind]. split; auto.
  unfold incomplete_gamma_check. unfold any_nan. rewrite !finite_not_nan by auto. cbn [orb].
  rewrite (flt_false a (ofZ f 0)) by (rewrite ?V0; auto; lra). rewrite (flt_false z (fmin f)) by (rewrite ?Vm; auto; lra). rewrite (flt_false a (fmin f)) by (rewrite ?Vm; auto; lra).
  rewrite (flt_false a (ofZ f 10)) by (rewrite ?V10; auto; lra). cbn [andb orb].
  assert (D : 1 <= B2R z / B2R a <= 3). { split; apply (Rmult_le_reg_r (B2R a)); try lra; unfold Rdiv; rewrite Rmult_assoc, Rinv_l; lra. }
  destruct (op_div z a Fz ltac:(lra)) as (Fd & Vd). { apply Rabs_le. lra. }
  rewrite (flt_false (ofZ f 3) (z /. a)); auto. 2:{ rewrite V3, Vd. replace 3 with (rnd f 3). apply rnd_le. lra. apply rnd_id. apply (fmt_IZR f 3). destruct f; cbn; lia. }
  unfold incomplete_gamma_quad, incomplete_gamma_quad_lb, incomplete_gamma_quad_ub. rewrite E. cbn [bind]. rewrite ub_mult5.
  unfold min at 1 2. rewrite (flt_false z a) by (auto; lra). rewrite (flt_false z (a +. ofZ f 5 *. s)) by (auto; lra). reflexivity.
Qed.
End F.

Lemma ig_flat v f (a z z' : flt f) : finite a = true -> finite z = true -> finite z' = true -> 10 <= B2R a <= 50 ->
  B2R a + 6 * sqrt (B2R a) <= B2R z <= 3 * B2R a -> B2R a + 6 * sqrt (B2R a) <= B2R z' <= 3 * B2R a ->
  gcem_incomplete_gamma v (AFlt f a) (AFlt f z) = gcem_incomplete_gamma v (AFlt f a) (AFlt f z').
Proof.
  intros Fa Fz Fz' A Z Z'. assert (E : incomplete_gamma_check v a z = incomplete_gamma_check v a z').
  { destruct (quad_flat v f a Fa A z Fz) as (lb & ub & E & B); try apply Z. destruct (quad_flat v f a Fa A z' Fz') as (lb' & ub' & E' & B'); try apply Z'. rewrite E, E'. rewrite B in B'. injection B'. intros <- <-. reflexivity. }
  unfold gcem_incomplete_gamma, lift2. destruct f; cbn [cr_fmt to_fmt fmt_max]; rewrite !conv_id; exact E.
Qed.
