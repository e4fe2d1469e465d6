(** * Accuracy of hypot *)
From Verif Require Import Base ModelBasic ModelInt ModelApi FltLemmas Spec IntProofs BasicProofs ConvLemmas ScaleProofs TotalProofs SymLemmas.
From Coq Require Import Lra Psatz.
From Verif Require Import PF FPErr CFBound SqrtAcc SqrtSimp.
From Interval Require Import Tactic.
Open Scope R_scope.

Lemma hyp_arg u t e1 e2 e3 d1 d2 : 0 < u <= / 16777216 -> Rabs e1 <= u -> Rabs e2 <= u -> Rabs e3 <= u -> Rabs d1 <= / 1000000 * u -> Rabs d2 <= / 1000000 * u ->
  Rabs ((1 + ((t * (1 + e1) + d1) * (t * (1 + e1) + d1) * (1 + e2) + d2)) * (1 + e3) - (1 + t * t)) <= 401 / 100 * u * (1 + t * t).
Proof.
  intros U H1 H2 H3 K1 K2. set (Q := 1 + t * t). assert (t2 : 0 <= t * t) by apply Rle_0_sqr. assert (Q1 : 1 <= Q) by (unfold Q; lra).
  assert (TQ : Rabs t <= Q / 2). { unfold Q. apply Rabs_le. assert (0 <= (t - 1) * (t - 1)) by apply Rle_0_sqr. assert (0 <= (t + 1) * (t + 1)) by apply Rle_0_sqr. lra. }
  set (a := t * (1 + e1) + d1). set (s := a * a * (1 + e2) + d2).
  assert (uu : 0 <= u * u <= / 16777216 * u) by (split; [apply Rmult_le_pos; lra|apply Rmult_le_compat_r; lra]).
  assert (uQ : 0 < u * Q) by (apply Rmult_lt_0_compat; lra). assert (uuQ : u * u * Q <= / 16777216 * u * Q) by (apply Rmult_le_compat_r; lra).
  assert (ut : 0 <= u * (t * t) <= u * Q) by (split; [apply Rmult_le_pos; lra|apply Rmult_le_compat_l; unfold Q; lra]).
  assert (A : Rabs (a * a - t * t) <= 2 * u * (t * t) + / 1000 * (u * Q)).
  { replace (a * a - t * t) with ((2 * e1 + e1 * e1) * (t * t) + 2 * d1 * (1 + e1) * t + d1 * d1) by (unfold a; ring).
    assert (B1 : Rabs ((2 * e1 + e1 * e1) * (t * t)) <= (2 * u + u * u) * (t * t)). { rewrite Rabs_mult, (Rabs_pos_eq (t * t)) by auto. apply Rmult_le_compat_r; auto. eapply Rle_trans. apply Rabs_triang. rewrite !Rabs_mult, (Rabs_pos_eq 2) by lra. apply Rplus_le_compat. lra. apply Rmult_le_compat; auto using Rabs_pos. }
    assert (B2 : Rabs (2 * d1 * (1 + e1) * t) <= 2 * (/ 1000000 * u) * 2 * (Q / 2)). { rewrite !Rabs_mult, (Rabs_pos_eq 2) by lra. apply Rmult_le_compat; auto using Rabs_pos. repeat (apply Rmult_le_pos; auto using Rabs_pos); lra. apply Rmult_le_compat; auto using Rabs_pos. apply Rmult_le_pos; auto using Rabs_pos; lra. apply Rmult_le_compat_l; lra. apply Rabs_le_inv in H1. apply Rabs_le; lra. }
    assert (B3 : Rabs (d1 * d1) <= / 1000000 * u * (/ 1000000 * u)) by (rewrite Rabs_mult; apply Rmult_le_compat; auto using Rabs_pos).
    eapply Rle_trans. apply Rabs_triang. apply Rle_trans with ((2 * u + u * u) * (t * t) + 2 * (/ 1000000 * u) * 2 * (Q / 2) + / 1000000 * u * (/ 1000000 * u)). apply Rplus_le_compat; auto. eapply Rle_trans. apply Rabs_triang. lra.
    assert (u * u * (t * t) <= / 16777216 * u * (t * t)) by (apply Rmult_le_compat_r; lra). assert (u * 1 <= u * Q) by (apply Rmult_le_compat_l; lra). lra. }
  assert (S : Rabs (s - t * t) <= 3 * u * (t * t) + / 500 * (u * Q)).
  { replace (s - t * t) with ((a * a - t * t) * (1 + e2) + t * t * e2 + d2) by (unfold s; ring). apply Rabs_le_inv in A, H2, K2.
    assert (B1 : Rabs ((a * a - t * t) * (1 + e2)) <= (2 * u * (t * t) + / 1000 * (u * Q)) * (1 + / 16777216)). { rewrite Rabs_mult. apply Rmult_le_compat; auto using Rabs_pos. apply Rabs_le; lra. apply Rabs_le; lra. }
    assert (B2 : Rabs (t * t * e2) <= t * t * u). { rewrite Rabs_mult, (Rabs_pos_eq (t * t)) by auto. apply Rmult_le_compat_l; auto. apply Rabs_le; lra. }
    eapply Rle_trans. apply Rabs_triang. eapply Rle_trans. apply Rplus_le_compat_r. apply Rabs_triang. assert (Rabs d2 <= / 1000000 * u) by (apply Rabs_le; lra). assert (u * 1 <= u * Q) by (apply Rmult_le_compat_l; lra). lra. }
  replace ((1 + s) * (1 + e3) - Q) with ((s - t * t) * (1 + e3) + Q * e3) by (unfold Q; ring).
  apply Rabs_le_inv in S, H3. assert (B1 : Rabs ((s - t * t) * (1 + e3)) <= (3 * u * (t * t) + / 500 * (u * Q)) * (1 + / 16777216)). { rewrite Rabs_mult. apply Rmult_le_compat; auto using Rabs_pos; apply Rabs_le; lra. }
  assert (B2 : Rabs (Q * e3) <= Q * u). { rewrite Rabs_mult, (Rabs_pos_eq Q) by lra. apply Rmult_le_compat_l. lra. apply Rabs_le; lra. }
  eapply Rle_trans. apply Rabs_triang. lra.
Qed.
Lemma sqrt_pert u z Q : 0 < u <= / 16777216 -> 1 <= Q -> Rabs (z - Q) <= 401 / 100 * u * Q -> Rabs (sqrt z - sqrt Q) <= 201 / 100 * u * sqrt Q.
Proof.
  intros U Q1 H. assert (HI := Rabs_le_inv _ _ H). assert (uQ : 0 < u * Q <= / 16777216 * Q) by (split; [apply Rmult_lt_0_compat; lra|apply Rmult_le_compat_r; lra]). assert (z0 : 0 < z) by lra.
  set (b := sqrt Q). assert (bb : b * b = Q) by (apply sqrt_sqrt; lra). set (a := sqrt z). assert (aa : a * a = z) by (apply sqrt_sqrt; lra).
  assert (b0 : 0 < b) by (apply sqrt_lt_R0; lra). assert (a0 : 0 < a) by (apply sqrt_lt_R0; lra).
  assert (AB : 999 / 1000 * b <= a). { apply Rsqr_incr_0_var; [|lra]. unfold Rsqr. rewrite aa. replace (999 / 1000 * b * (999 / 1000 * b)) with (998001 / 1000000 * (b * b)) by field. rewrite bb. lra. }
  apply Rmult_le_reg_r with (a + b). lra. rewrite <- (Rabs_pos_eq (a + b)) at 1 by lra. rewrite <- Rabs_mult. replace ((a - b) * (a + b)) with (a * a - b * b) by ring. rewrite aa, bb. apply Rle_trans with (1 := H). rewrite <- bb in * . assert (0 < u * b) by (apply Rmult_lt_0_compat; lra). assert (u * b * (999 / 1000 * b) <= u * b * a) by (apply Rmult_le_compat_l; lra). lra.
Qed.
(** Propagation to the product. *)
Lemma hyp_fin u c X a b w e d : 0 < u <= / 16777216 -> 0 <= c <= 2000 -> 0 < X -> 0 < b -> Rabs (a - b) <= 201 / 100 * u * b -> Rabs (w - a) <= c * u * Rabs a -> Rabs e <= u -> Rabs d <= u * (X * b) -> e * d = 0 -> Rabs (X * w * (1 + e) + d - X * b) <= (c + 305 / 100) * u * (X * b).
Proof.
  intros U C X0 B0 H1 H2 He Hd ED. assert (ub : 0 < u * b <= / 16777216 * b) by (split; [apply Rmult_lt_0_compat; lra|apply Rmult_le_compat_r; lra]). assert (I1 := Rabs_le_inv _ _ H1). rewrite (Rabs_pos_eq a) in H2 by lra.
  assert (cu : 0 <= c * u <= 2000 * / 16777216) by (split; [apply Rmult_le_pos; lra|apply Rmult_le_compat; lra]).
  assert (W : Rabs (w - b) <= (c + 2015 / 1000) * u * b).
  { replace (w - b) with ((w - a) + (a - b)) by ring. eapply Rle_trans. apply Rabs_triang. assert (c * u * a <= c * u * (b + 201 / 100 * (u * b))) by (apply Rmult_le_compat_l; lra). assert (c * u * (u * b) <= 2000 * / 16777216 * (u * b)) by (apply Rmult_le_compat_r; lra). lra. }
  destruct (Rmult_integral _ _ ED) as [-> | ->].
  { rewrite Rplus_0_r, Rmult_1_r. replace (X * w + d - X * b) with (X * (w - b) + d) by ring. eapply Rle_trans. apply Rabs_triang. rewrite Rabs_mult, (Rabs_pos_eq X) by lra. assert (X * Rabs (w - b) <= X * ((c + 2015 / 1000) * u * b)) by (apply Rmult_le_compat_l; lra). assert (0 < X * (u * b)) by (apply Rmult_lt_0_compat; lra). lra. }
  rewrite Rplus_0_r. replace (X * w * (1 + e) - X * b) with (X * ((w - b) * (1 + e) + b * e)) by ring. rewrite Rabs_mult, (Rabs_pos_eq X) by lra. replace ((c + 305 / 100) * u * (X * b)) with (X * ((c + 305 / 100) * u * b)) by ring. apply Rmult_le_compat_l. lra.
  assert (IE := Rabs_le_inv _ _ He). eapply Rle_trans. apply Rabs_triang. rewrite !Rabs_mult, (Rabs_pos_eq b) by lra. assert (D : Rabs (w - b) * Rabs (1 + e) <= (c + 2015 / 1000) * u * b * (1 + u)). { apply Rmult_le_compat; auto using Rabs_pos. apply Rabs_le; lra. }
  assert (b * Rabs e <= b * u) by (apply Rmult_le_compat_l; lra). assert (c * u * (u * b) <= 2000 * / 16777216 * (u * b)) by (apply Rmult_le_compat_r; lra). assert (u * (u * b) <= / 16777216 * (u * b)) by (apply Rmult_le_compat_r; lra). lra.
Qed.

Section H.
Variables (f : fmt) (x y : flt f).
Hypotheses (Fx : finite x = true) (Fy : finite y = true) (X0 : bpow radix2 (2 - emax f) <= Rabs (B2R x)) (Y0 : bpow radix2 (2 - emax f) <= Rabs (B2R y)).
Hypotheses (YX : Rabs (B2R y) <= bpow radix2 (emax f / 2 - 2) * Rabs (B2R x)) (HB : sqrt (B2R x * B2R x + B2R y * B2R y) <= bpow radix2 (emax f - 1)).
Notation u := (uf f).
Notation t := (B2R y / B2R x).
Notation Q := (1 + t * t).
Lemma em_half : (2 <= emax f / 2 /\ emax f / 2 + emax f / 2 = emax f /\ 128 <= emax f)%Z.
Proof. destruct f; cbn; lia. Qed.
Lemma hyp_z : finite (ofZ f 1 +. y /. x *. (y /. x)) = true /\ 1 <= B2R (ofZ f 1 +. y /. x *. (y /. x)) <= bpow radix2 (emax f) /\ Rabs (B2R (ofZ f 1 +. y /. x *. (y /. x)) - Q) <= 401 / 100 * u * Q.
Proof.
  assert (m0 := bpow_gt_0 radix2 (2 - emax f)). destruct (u_rng f) as (U & _). destruct (ofZ_small f 1 ltac:(lia)) as (V1 & F1 & _). change (IZR 1) with 1 in V1. destruct em_half as (EH1 & EH2 & EH3).
  assert (x0 : B2R x <> 0). { intros E. rewrite E, Rabs_R0 in X0. lra. }
  assert (T : Rabs t <= bpow radix2 (emax f / 2 - 2)). { unfold Rdiv. rewrite Rabs_mult, Rabs_inv. apply Rmult_le_reg_r with (Rabs (B2R x)). lra. rewrite Rmult_assoc, Rinv_l, Rmult_1_r by lra. exact YX. }
  assert (EM : (emin f <= 0)%Z) by (unfold emin; destruct f; discriminate).
  assert (FB : forall k, (0 <= k)%Z -> generic_format radix2 (fexpf f) (bpow radix2 k)) by (intros; apply fmt_bpow; lia).
  assert (R1 : Rabs (rnd f t) <= bpow radix2 (emax f / 2 - 2)) by (rewrite rnd_abs; apply rnd_le_fmt; auto; apply FB; lia).
  destruct (fdiv_spec y x Fy x0) as (Va & Fa). { apply Rle_lt_trans with (1 := R1). apply bpow_lt. lia. }
  set (a := y /. x) in * . rewrite <- Va in R1. assert (AA : 0 <= B2R a * B2R a <= bpow radix2 (emax f - 4)). { split. apply Rle_0_sqr. rewrite <- (Rabs_pos_eq (B2R a * B2R a)) by apply Rle_0_sqr. rewrite Rabs_mult. replace (emax f - 4)%Z with ((emax f / 2 - 2) + (emax f / 2 - 2))%Z by lia. rewrite bpow_plus. apply Rmult_le_compat; auto using Rabs_pos. }
  assert (R2 : 0 <= rnd f (B2R a * B2R a) <= bpow radix2 (emax f - 4)). { split. apply rnd_ge_0; lra. apply rnd_le_fmt; try lra. apply FB; lia. }
  destruct (fmul_spec a a Fa Fa) as (Vs & Fs). { rewrite Rabs_pos_eq by lra. apply Rle_lt_trans with (1 := proj2 R2). apply bpow_lt; lia. }
  set (s := a *. a) in * . rewrite <- Vs in R2. assert (B3 : 1 + bpow radix2 (emax f - 4) <= bpow radix2 (emax f - 3)). { replace (emax f - 3)%Z with (1 + (emax f - 4))%Z by ring. rewrite bpow_plus. change (bpow radix2 1) with 2. assert (1 <= bpow radix2 (emax f - 4)) by (apply (bpow_le radix2 0); lia). lra. }
  assert (R3 : 1 <= rnd f (1 + B2R s) <= bpow radix2 (emax f - 3)). { split. apply rnd_ge_fmt; [apply (FB 0%Z); lia|lra]. apply rnd_le_fmt. apply FB; lia. lra. }
  destruct (fadd_spec (ofZ f 1) s F1 Fs) as (Vz & Fz). { rewrite V1, Rabs_pos_eq by lra. apply Rle_lt_trans with (1 := proj2 R3). apply bpow_lt; lia. } rewrite V1 in Vz.
  split; auto. split. { rewrite Vz. split. tauto. apply Rle_trans with (1 := proj2 R3). apply bpow_le; lia. }
  destruct (rnd_err f t) as (e1 & d1 & He1 & Hd1 & _ & E1). destruct (rnd_err f (B2R a * B2R a)) as (e2 & d2 & He2 & Hd2 & _ & E2). destruct (rnd_rel f (1 + B2R s)) as (e3 & He3 & E3). { rewrite Rabs_pos_eq by lra. apply Rle_trans with 1; [|lra]. apply (bpow_le radix2 _ 0). lia. }
  assert (DS : bpow radix2 (emin f - 1) <= / 1000000 * u). { apply Rle_trans with (bpow radix2 (-20) * u). unfold uf. rewrite <- bpow_plus. apply bpow_le. unfold emin. lia. apply Rmult_le_compat_r. lra. cbn; lra. }
  rewrite Vz, E3, Vs, E2, Va, E1. apply hyp_arg; auto; lra.
Qed.
Lemma hyp_root : Rabs (B2R x) * sqrt Q = sqrt (B2R x * B2R x + B2R y * B2R y).
Proof.
  assert (m0 := bpow_gt_0 radix2 (2 - emax f)). assert (x0 : B2R x <> 0). { intros E. rewrite E, Rabs_R0 in X0. lra. }
  rewrite <- (sqrt_Rsqr_abs (B2R x)). unfold Rsqr. rewrite <- sqrt_mult. f_equal. field. auto. apply Rle_0_sqr. assert (0 <= t * t) by apply Rle_0_sqr. lra.
Qed.
Lemma hyp_acc : exists w, hypot_vals_check x y = Ok w /\ finite w = true /\
  Rabs (B2R w - sqrt (B2R x * B2R x + B2R y * B2R y)) <= ((if Rle_dec Q 99 then 17 / 10 else 401 / 100 + ln Q / 10) + 305 / 100) * u * sqrt (B2R x * B2R x + B2R y * B2R y).
Proof.
  assert (m0 := bpow_gt_0 radix2 (2 - emax f)). destruct (u_rng f) as (U & _). destruct (fmin_spec f) as (Vm & Fm). destruct em_half as (EH1 & EH2 & EH3).
  destruct hyp_z as (Fz & Z1 & Z). set (z := ofZ f 1 +. y /. x *. (y /. x)) in * . assert (t2 : 0 <= t * t) by apply Rle_0_sqr. set (q := Q) in * . assert (Q1 : 1 <= q) by (unfold q; lra).
  assert (m1 := fm_one f). assert (m2 : bpow radix2 (-170) <= 1) by (apply (bpow_le radix2 _ 0); discriminate).
  destruct (sqrt_check_acc f z Fz ltac:(lra) ltac:(lra)) as (s & Es & Fs & Rs). unfold rel_err in Rs.
  set (c := if Rle_dec (B2R z) 100 then 17 / 10 else 4 + ln (B2R z) / 10) in * .
  assert (ZI := Rabs_le_inv _ _ Z). assert (uq : 0 < u * q <= / 16777216 * q) by (split; [apply Rmult_lt_0_compat; lra|apply Rmult_le_compat_r; lra]).
  assert (LZ : 0 <= ln (B2R z) <= 16384). { split. rewrite <- ln_1. apply Rcomplements.ln_le; lra. apply Rle_trans with (ln (bpow radix2 (emax f))). apply Rcomplements.ln_le; lra. rewrite bpow_exp, ln_exp. change (IZR radix2) with 2. assert (0 < ln 2 < 1) by (split; interval). assert (E : IZR (emax f) <= 16384) by (apply IZR_le; destruct f; discriminate). assert (0 <= IZR (emax f)) by (apply IZR_le; lia). apply Rle_trans with (16384 * 1); [|lra]. apply Rmult_le_compat; lra. }
  assert (C0 : 0 <= c <= 2000) by (unfold c; destruct Rle_dec; lra).
  assert (C1 : c <= (if Rle_dec q 99 then 17 / 10 else 401 / 100 + ln q / 10)).
  { assert (LQ : ln (B2R z) <= ln q + / 100). { replace (/ 100) with (ln (exp (/ 100))) by apply ln_exp. rewrite <- ln_mult by (try apply exp_pos; lra). apply Rcomplements.ln_le. lra. assert (101 / 100 <= exp (/ 100)) by interval. assert (q * (101 / 100) <= q * exp (/ 100)) by (apply Rmult_le_compat_l; lra). lra. }
    assert (0 <= ln q) by (rewrite <- ln_1; apply Rcomplements.ln_le; lra). unfold c. destruct (Rle_dec q 99), (Rle_dec (B2R z) 100); try lra. }
  assert (b0 : 0 < sqrt q) by (apply sqrt_lt_R0; lra). assert (PB := sqrt_pert u (B2R z) q U Q1 Z). set (X := Rabs (B2R x)) in * . assert (HR := hyp_root). fold X q in HR.
  assert (MB : 0 < X * sqrt q) by (apply Rmult_lt_0_compat; lra).
  assert (HF := fun e d He Hd => hyp_fin u c X (sqrt (B2R z)) (sqrt q) (B2R s) e d U C0 ltac:(lra) b0 PB Rs He Hd).
  assert (cu : 0 <= c * u <= 2000 * / 16777216) by (split; [apply Rmult_le_pos; lra|apply Rmult_le_compat; lra]).
  assert (uM : 0 < u * (X * sqrt q)) by (apply Rmult_lt_0_compat; lra). assert (HF0 := HF 0 0 ltac:(rewrite Rabs_R0; lra) ltac:(rewrite Rabs_R0; lra) ltac:(ring)). rewrite !Rplus_0_r, Rmult_1_r in HF0. apply Rabs_le_inv in HF0.
  assert (S1 : 999 / 1000 <= B2R s). { assert (SZ : 1 <= sqrt (B2R z)) by (rewrite <- sqrt_1; apply sqrt_le_1; lra). rewrite (Rabs_pos_eq (sqrt _)) in Rs by lra. apply Rabs_le_inv in Rs. assert (c * u * sqrt (B2R z) <= 2000 * / 16777216 * sqrt (B2R z)) by (apply Rmult_le_compat_r; lra). lra. }
  assert (cuM : (c + 305 / 100) * u * (X * sqrt q) <= / 100 * (X * sqrt q)) by (apply Rmult_le_compat_r; lra).
  assert (BM : X * B2R s <= 102 / 100 * bpow radix2 (emax f - 1)). { assert (0 < bpow radix2 (emax f - 1)) by apply bpow_gt_0. lra. }
  assert (BE : bpow radix2 (emax f) = 2 * bpow radix2 (emax f - 1)). { replace (emax f) with (1 + (emax f - 1))%Z at 1 by ring. rewrite bpow_plus. reflexivity. } assert (be := bpow_gt_0 radix2 (emax f - 1)).
  unfold hypot_vals_check. assert (N : any_nan x y = false) by (unfold any_nan; rewrite !finite_not_nan by auto; reflexivity). rewrite N.
  assert (I : any_inf x y = false) by (destruct x, y; try discriminate; reflexivity). rewrite I.
  rewrite (flt_false (ModelBasic.abs x) (fmin f)). 2: rewrite abs_finite; auto. 2: auto. 2: rewrite abs_B2R, Vm; exact X0.
  rewrite (flt_false (ModelBasic.abs y) (fmin f)). 2: rewrite abs_finite; auto. 2: auto. 2: rewrite abs_B2R, Vm; exact Y0.
  unfold hypot_compute. fold z. rewrite Es. cbn [bind]. exists (ModelBasic.abs x *. s). split; auto.
  assert (XS : 998 / 1000 * bpow radix2 (2 - emax f) <= X * B2R s). { rewrite Rmult_comm. apply Rmult_le_compat; lra. }
  destruct (fmul_spec (ModelBasic.abs x) s) as (V & F); auto. rewrite abs_finite; auto. { rewrite abs_B2R. fold X. rewrite rnd_abs, Rabs_pos_eq by lra. eapply Rle_lt_trans. apply (rnd_le_fmt f _ (bpow radix2 (emax f - 1) + / 2 * bpow radix2 (emax f - 1))). 2: lra. 2: lra.
    replace (bpow radix2 (emax f - 1) + / 2 * bpow radix2 (emax f - 1)) with (F2R (Float radix2 3 (emax f - 2))). apply fmt_F2R. destruct f; reflexivity. unfold emin; destruct f; discriminate. unfold F2R. cbn [Fnum Fexp]. replace (emax f - 2)%Z with (-1 + (emax f - 1))%Z by ring. rewrite bpow_plus. change (bpow radix2 (-1)) with (/ 2). lra. }
  split; auto. rewrite V, abs_B2R. fold X. rewrite <- HR.
  destruct (rnd_err f (X * B2R s)) as (e & d & He & Hd & HZ & E). rewrite E. change (bpow radix2 (- prec f)) with u in He.
  eapply Rle_trans. apply HF; auto.
  { apply Rle_trans with (1 := Hd). replace (emin f - 1)%Z with (- prec f + (2 - emax f))%Z by (unfold emin; ring). rewrite bpow_plus. change (bpow radix2 (- prec f)) with u. apply Rmult_le_compat_l. lra. apply Rle_trans with (X * 1). lra. apply Rmult_le_compat_l. lra. rewrite <- sqrt_1. apply sqrt_le_1; lra. }
  apply Rmult_le_compat_r. lra. apply Rmult_le_compat_r; lra.
Qed.
End H.

(** ** The public function *)
Lemma hypot_same f (x y : flt f) : rmap (AFlt _) (gcem_hypot (AFlt f x) (AFlt f y)) = rmap (AFlt f) (hypot_vals_check x y).
Proof.
  assert (E : fmt_max f f = f) by (destruct f; reflexivity).
  unfold gcem_hypot, lift2. cbn [cr_fmt to_fmt]. rewrite E, !conv_id. reflexivity.
Qed.
Lemma api_hypot_any f (x y : flt f) : finite x = true -> finite y = true -> bpow radix2 (2 - emax f) <= Rabs (B2R x) -> bpow radix2 (2 - emax f) <= Rabs (B2R y) ->
  Rabs (B2R y) <= bpow radix2 (emax f / 2 - 2) * Rabs (B2R x) -> sqrt (B2R x * B2R x + B2R y * B2R y) <= bpow radix2 (emax f - 1) ->
  exists w : flt f, rmap (AFlt _) (gcem_hypot (AFlt f x) (AFlt f y)) = Ok (AFlt f w) /\ finite w = true /\
  rel_err (B2R w) (sqrt (B2R x * B2R x + B2R y * B2R y)) ((71 / 10 + ln (1 + (B2R y / B2R x) * (B2R y / B2R x)) / 10) * bpow radix2 (- prec f)).
Proof.
  intros Fx Fy X0 Y0 YX HB. destruct (hyp_acc f x y Fx Fy X0 Y0 YX HB) as (w & E & F & R). exists w. split. rewrite hypot_same, E. reflexivity. split; auto.
  unfold rel_err. rewrite (Rabs_pos_eq (sqrt _)) by apply sqrt_pos. apply Rle_trans with (1 := R). apply Rmult_le_compat_r. apply sqrt_pos. apply Rmult_le_compat_r. apply bpow_ge_0.
  set (t := B2R y / B2R x). assert (0 <= t * t) by apply Rle_0_sqr. assert (0 <= ln (1 + t * t)) by (rewrite <- ln_1; apply Rcomplements.ln_le; lra). destruct Rle_dec; lra.
Qed.
Lemma api_hypot_acc f (x y : flt f) : finite x = true -> finite y = true -> bpow radix2 (2 - emax f) <= Rabs (B2R x) -> bpow radix2 (2 - emax f) <= Rabs (B2R y) ->
  Rabs (B2R y) <= 9 * Rabs (B2R x) -> sqrt (B2R x * B2R x + B2R y * B2R y) <= bpow radix2 (emax f - 1) ->
  exists w : flt f, rmap (AFlt _) (gcem_hypot (AFlt f x) (AFlt f y)) = Ok (AFlt f w) /\ finite w = true /\
  rel_err (B2R w) (sqrt (B2R x * B2R x + B2R y * B2R y)) (48 / 10 * bpow radix2 (- prec f)).
Proof.
  intros Fx Fy X0 Y0 YX HB. assert (m0 := bpow_gt_0 radix2 (2 - emax f)). destruct (hyp_acc f x y Fx Fy X0 Y0) as (w & E & F & R); auto.
  { apply Rle_trans with (1 := YX). apply Rmult_le_compat_r. apply Rabs_pos. apply Rle_trans with (bpow radix2 10). cbn; lra. apply bpow_le. destruct f; discriminate. }
  exists w. split. rewrite hypot_same, E. reflexivity. split; auto.
  unfold rel_err. rewrite (Rabs_pos_eq (sqrt _)) by apply sqrt_pos. apply Rle_trans with (1 := R). apply Rmult_le_compat_r. apply sqrt_pos. apply Rmult_le_compat_r. apply bpow_ge_0.
  assert (T : Rabs (B2R y / B2R x) <= 9). { unfold Rdiv. rewrite Rabs_mult, Rabs_inv. apply Rmult_le_reg_r with (Rabs (B2R x)). lra. rewrite Rmult_assoc, Rinv_l, Rmult_1_r by lra. lra. }
  set (t := B2R y / B2R x) in * . assert (t * t <= 9 * 9). { rewrite <- (Rabs_pos_eq (t * t)) by apply Rle_0_sqr. rewrite Rabs_mult. apply Rmult_le_compat; auto using Rabs_pos. } destruct Rle_dec; lra.
Qed.
