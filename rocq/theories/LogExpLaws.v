(** * log1p and expm1 undo each other, and the product rule of log *)
From Verif Require Import Base ModelBasic ModelInt ModelElem ModelSpecial ModelApi FltLemmas Spec SpecGamma IntProofs BasicProofs ConvLemmas MiscProofs ExpAcc.
From Coq Require Import Lra Psatz.
From Coquelicot Require Import Coquelicot.
From Verif Require Import Base ModelBasic FPErr LogAcc LogApi Log1pAcc Expm1Acc TanhAcc PowReal SinAcc RoundTrip.
From Verif Require Import Base ModelBasic ModelInt ModelElem ModelSpecial ModelApi TotalProofs.
From Interval Require Import Tactic.
Open Scope R_scope.

Lemma uf_sm f : 0 < uf f <= / 16777216.
Proof. split. apply uf_pos. destruct f; unfold uf; cbn; lra. Qed.
Lemma b24 f : bpow radix2 (4 - emax f) = 4 * bpow radix2 (2 - emax f).
Proof. change 4 with (bpow radix2 2). rewrite <- bpow_plus. f_equal. lia. Qed.
Lemma l1p v f (x : flt f) : finite x = true -> bpow radix2 (2 - emax f) <= Rabs (B2R x) <= 9999 / 100000000 ->
  exists w : flt f, gcem_log1p v (AFlt f x) = Ok w /\ finite w = true /\ rel_err (B2R w) (ln (1 + B2R x)) (23 / 10 * uf f).
Proof. exact (api_log1p_small v f x). Qed.
Lemma l1pa v f (x : flt f) : finite x = true -> - / 2 <= B2R x ->
  exists w : flt f, gcem_log1p v (AFlt f x) = Ok w /\ finite w = true /\ Rabs (B2R w - ln (1 + B2R x)) <= 11 / 10 * uf f + 57 / 10 * uf f * Rabs (ln (1 + B2R x)).
Proof. exact (api_log1p_abs v f x). Qed.
Lemma em1 v f (x : flt f) : finite x = true -> bpow radix2 (2 - emax f) <= Rabs (B2R x) <= 9999 / 100000000 ->
  exists w : flt f, gcem_expm1 v (AFlt f x) = Ok w /\ finite w = true /\ rel_err (B2R w) (exp (B2R x) - 1) (23 / 10 * uf f).
Proof. exact (api_expm1_small v f x). Qed.
Lemma em1a v f (x : flt f) : finite x = true -> Rabs (B2R x) <= / 2 ->
  exists w : flt f, gcem_expm1 v (AFlt f x) = Ok w /\ finite w = true /\ Rabs (B2R w - (exp (B2R x) - 1)) <= (8 * uf f + bpow radix2 (-55)) * exp (B2R x).
Proof. exact (api_expm1_mid v f x). Qed.

(** ** Sharp bounds next to zero *)
Lemma ln1p_up x : Rabs x <= / 1000 -> Rabs (ln (1 + x)) <= 1002 / 1000 * Rabs x.
Proof. apply ln1p. Qed.
Lemma ln1p_tiny x : Rabs x <= / 10000 -> Rabs (ln (1 + x)) <= 10002 / 10000 * Rabs x.
Proof.
  intros H. apply Rabs_le_inv in H. destruct (Rle_or_lt 0 x) as [P|P].
  - rewrite (Rabs_pos_eq x) by lra. assert (0 <= ln (1 + x)) by (rewrite <- ln_1; apply ln_le; lra). rewrite Rabs_pos_eq by lra. assert (K := exp_ineq1_le (ln (1 + x))). rewrite exp_ln in K by lra. lra.
  - rewrite (Rabs_left x) by lra. assert (ln (1 + x) <= 0) by (rewrite <- ln_1; apply ln_le; lra). rewrite Rabs_left1 by lra. rewrite <- ln_Rinv by lra. assert (I0 : 0 < / (1 + x)) by (apply Rinv_0_lt_compat; lra). assert (K := exp_ineq1_le (ln (/ (1 + x)))). rewrite exp_ln in K by lra.
    assert (W : / (1 + x) <= 1 - 10002 / 10000 * x). { apply Rmult_le_reg_r with (1 + x). lra. rewrite Rinv_l by lra. nra. } lra.
Qed.
Lemma em1_tiny x : Rabs x <= / 10000 -> 999 / 1000 * Rabs x <= Rabs (exp x - 1) <= 10002 / 10000 * Rabs x.
Proof.
  intros H. assert (L := exp_ineq1_le x). assert (H2 := H). apply Rabs_le_inv in H2. assert (L2 := exp_ineq1_le (- x)). rewrite exp_Ropp in L2. assert (P := exp_pos x).
  assert (U : exp x <= / (1 - x)). { rewrite <- (Rinv_inv (exp x)). apply Rinv_le_contravar; lra. }
  assert (W : / (1 - x) <= 1 + x + 10002 / 10000 * (x * x)). { apply Rmult_le_reg_r with (1 - x). lra. rewrite Rinv_l by lra. nra. }
  destruct (Rle_or_lt 0 x) as [Q|Q]. rewrite (Rabs_pos_eq x), (Rabs_pos_eq (exp x - 1)) by lra. nra. rewrite (Rabs_left x) by lra. assert (exp x - 1 < 0) by nra. rewrite Rabs_left by lra. nra.
Qed.

(** ** expm1 (log1p x) and log1p (expm1 x) *)
Lemma expm1_log1p_small : forall v f (x : flt f), finite x = true -> bpow radix2 (4 - emax f) <= Rabs (B2R x) <= 9 / 100000 ->
  exists a m : flt f, gcem_log1p v (AFlt f x) = Ok a /\ gcem_expm1 v (AFlt f a) = Ok m /\ finite m = true /\
  rel_err (B2R m) (B2R x) (5 * bpow radix2 (- prec f)).
Proof.
  intros v f x Fx (X0 & X1). rewrite b24 in X0. assert (B0 := bpow_gt_0 radix2 (2 - emax f)). destruct (uf_sm f) as (U0 & U1). change (bpow radix2 (- prec f)) with (uf f).
  destruct (l1p v f x Fx ltac:(lra)) as (a & Ea & Fa & Ra). exists a. set (X := B2R x) in * . assert (LL := ln1p_low X ltac:(lra)). assert (LU := ln1p_tiny X ltac:(lra)). set (L := ln (1 + X)) in * .
  assert (XR := Rabs_le_inv _ _ X1). assert (EL : exp L = 1 + X) by (apply exp_ln; lra). unfold rel_err in Ra. set (r := Rabs X) in * .
  assert (P1 : 0 <= uf f * r) by (apply Rmult_le_pos; [lra|apply Rabs_pos]). assert (P2 : uf f * r <= / 16777216 * r) by (apply Rmult_le_compat_r; [apply Rabs_pos|lra]).
  assert (D : Rabs (B2R a - L) <= 2301 / 1000 * uf f * r). { apply Rle_trans with (1 := Ra). apply Rle_trans with (23 / 10 * uf f * (10002 / 10000 * r)). apply Rmult_le_compat_l; lra. lra. }
  assert (A : bpow radix2 (2 - emax f) <= Rabs (B2R a) <= 9999 / 100000000). { assert (T1 := Rabs_triang_inv L (L - B2R a)). assert (T2 := Rabs_triang_inv (B2R a) (B2R a - L)). replace (L - (L - B2R a)) with (B2R a) in T1 by ring. replace (B2R a - (B2R a - L)) with L in T2 by ring. rewrite (Rabs_minus_sym L) in T1. lra. }
  destruct (em1 v f a Fa A) as (m & Em & Fm & Rm). exists m. split. exact Ea. split. exact Em. split. exact Fm. unfold rel_err in * . fold r.
  assert (EX : Rabs (exp (B2R a) - (1 + X)) <= 2306 / 1000 * uf f * r).
  { assert (Q := rel_exp (B2R a) L _ D ltac:(lra)). unfold rel_err in Q. rewrite EL, (Rabs_pos_eq (1 + X)) in Q by lra. apply Rle_trans with (1 := Q). nra. }
  assert (E1 : Rabs (exp (B2R a) - 1) <= 1001 / 1000 * r). { replace (exp (B2R a) - 1) with ((exp (B2R a) - (1 + X)) + X) by ring. eapply Rle_trans. apply Rabs_triang. fold r. lra. }
  replace (B2R m - X) with ((B2R m - (exp (B2R a) - 1)) + (exp (B2R a) - (1 + X))) by ring. eapply Rle_trans. apply Rabs_triang.
  assert (23 / 10 * uf f * Rabs (exp (B2R a) - 1) <= 23 / 10 * uf f * (1001 / 1000 * r)) by (apply Rmult_le_compat_l; lra). lra.
Qed.
Lemma log1p_expm1_small : forall v f (x : flt f), finite x = true -> bpow radix2 (4 - emax f) <= Rabs (B2R x) <= 9 / 100000 ->
  exists m a : flt f, gcem_expm1 v (AFlt f x) = Ok m /\ gcem_log1p v (AFlt f m) = Ok a /\ finite a = true /\
  rel_err (B2R a) (B2R x) (5 * bpow radix2 (- prec f)).
Proof.
  intros v f x Fx (X0 & X1). rewrite b24 in X0. assert (B0 := bpow_gt_0 radix2 (2 - emax f)). destruct (uf_sm f) as (U0 & U1). change (bpow radix2 (- prec f)) with (uf f).
  destruct (em1 v f x Fx ltac:(lra)) as (m & Em & Fm & Rm). exists m. set (X := B2R x) in * . destruct (em1_tiny X ltac:(lra)) as (ML & MU). set (M := exp X - 1) in * .
  assert (XR := Rabs_le_inv _ _ X1). assert (EL : exp X = 1 + M) by (unfold M; ring). unfold rel_err in Rm. set (r := Rabs X) in * .
  assert (P1 : 0 <= uf f * r) by (apply Rmult_le_pos; [lra|apply Rabs_pos]). assert (P2 : uf f * r <= / 16777216 * r) by (apply Rmult_le_compat_r; [apply Rabs_pos|lra]).
  assert (D : Rabs (B2R m - M) <= 2301 / 1000 * uf f * r). { apply Rle_trans with (1 := Rm). apply Rle_trans with (23 / 10 * uf f * (10002 / 10000 * r)). apply Rmult_le_compat_l; lra. lra. }
  assert (A : bpow radix2 (2 - emax f) <= Rabs (B2R m) <= 9999 / 100000000). { assert (T1 := Rabs_triang_inv M (M - B2R m)). assert (T2 := Rabs_triang_inv (B2R m) (B2R m - M)). replace (M - (M - B2R m)) with (B2R m) in T1 by ring. replace (B2R m - (B2R m - M)) with M in T2 by ring. rewrite (Rabs_minus_sym M) in T1. lra. }
  destruct (l1p v f m Fm A) as (a & Ea & Fa & Ra). exists a. split. exact Em. split. exact Ea. split. exact Fa. unfold rel_err in * . fold r.
  assert (M1 : Rabs M <= / 9990) by lra. assert (M2 := Rabs_le_inv _ _ M1).
  assert (EX : Rabs (ln (1 + B2R m) - X) <= 2308 / 1000 * uf f * r).
  { set (d := (B2R m - M) / (1 + M)). assert (Dd : Rabs d <= 23013 / 10000 * uf f * r).
    { unfold d, Rdiv. rewrite Rabs_mult, Rabs_inv, (Rabs_pos_eq (1 + M)) by lra. apply Rmult_le_reg_r with (1 + M). lra. rewrite Rmult_assoc, Rinv_l by lra. assert (0 <= (M + / 9990) * (uf f * r)) by (apply Rmult_le_pos; lra). lra. }
    assert (E : ln (1 + B2R m) - X = ln (1 + d)). { assert (D1 := Rabs_le_inv _ _ Dd). replace (1 + B2R m) with (exp X * (1 + d)) by (rewrite EL; unfold d; field; lra). rewrite ln_mult, ln_exp by (try apply exp_pos; lra). ring. }
    rewrite E. apply Rle_trans with (1002 / 1000 * Rabs d). apply ln1p_up; lra. lra. }
  assert (E1 : Rabs (ln (1 + B2R m)) <= 1001 / 1000 * r). { replace (ln (1 + B2R m)) with ((ln (1 + B2R m) - X) + X) by ring. eapply Rle_trans. apply Rabs_triang. fold r. lra. }
  replace (B2R a - X) with ((B2R a - ln (1 + B2R m)) + (ln (1 + B2R m) - X)) by ring. eapply Rle_trans. apply Rabs_triang.
  assert (23 / 10 * uf f * Rabs (ln (1 + B2R m)) <= 23 / 10 * uf f * (1001 / 1000 * r)) by (apply Rmult_le_compat_l; lra). lra.
Qed.
(** ** Absolute bounds on a wider range *)
Lemma expm1_log1p_wide : forall v f (x : flt f), finite x = true -> - (39 / 100) <= B2R x <= / 2 ->
  exists a m : flt f, gcem_log1p v (AFlt f x) = Ok a /\ gcem_expm1 v (AFlt f a) = Ok m /\ finite m = true /\
  abs_err (B2R m) (B2R x) (19 * bpow radix2 (- prec f) + bpow radix2 (-54)).
Proof.
  intros v f x Fx X. destruct (uf_sm f) as (U0 & U1). change (bpow radix2 (- prec f)) with (uf f). destruct (l1pa v f x Fx ltac:(lra)) as (a & Ea & Fa & Ra). exists a.
  assert (L0 : - (4944 / 10000) <= ln (1 + B2R x)). { apply Rle_trans with (ln (61 / 100)). interval. apply ln_le; lra. } assert (L1 : ln (1 + B2R x) <= 406 / 1000). { apply Rle_trans with (ln (3 / 2)). apply ln_le; lra. interval. }
  assert (EL : exp (ln (1 + B2R x)) = 1 + B2R x) by (apply exp_ln; lra). set (L := ln (1 + B2R x)) in * . assert (LA : Rabs L <= 4944 / 10000) by (apply Rabs_le; lra).
  assert (D : Rabs (B2R a - L) <= 392 / 100 * uf f). { apply Rle_trans with (1 := Ra). assert (57 / 10 * uf f * Rabs L <= 57 / 10 * uf f * (4944 / 10000)) by (apply Rmult_le_compat_l; lra). lra. }
  assert (A : Rabs (B2R a) <= / 2). { replace (B2R a) with ((B2R a - L) + L) by ring. eapply Rle_trans. apply Rabs_triang. lra. }
  destruct (em1a v f a Fa A) as (m & Em & Fm & Rm). exists m. split. exact Ea. split. exact Em. split. exact Fm. unfold abs_err.
  assert (Q := rel_exp (B2R a) L _ D ltac:(lra)). unfold rel_err in Q. rewrite EL, (Rabs_pos_eq (1 + B2R x)) in Q by lra.
  assert (Q2 : Rabs (exp (B2R a) - (1 + B2R x)) <= 59 / 10 * uf f). { apply Rle_trans with (1 := Q). apply Rle_trans with (1002 / 1000 * (392 / 100 * uf f) * (3 / 2)). apply Rmult_le_compat_l; lra. lra. }
  assert (Q3 : exp (B2R a) <= 151 / 100). { apply Rabs_le_inv in Q2. lra. } assert (b := bpow_gt_0 radix2 (-55)). replace (bpow radix2 (-54)) with (2 * bpow radix2 (-55)) by (cbn; lra). set (e := bpow radix2 (-55)) in * .
  replace (B2R m - B2R x) with ((B2R m - (exp (B2R a) - 1)) + (exp (B2R a) - (1 + B2R x))) by ring. eapply Rle_trans. apply Rabs_triang.
  assert ((8 * uf f + e) * exp (B2R a) <= (8 * uf f + e) * (151 / 100)) by (apply Rmult_le_compat_l; lra). lra.
Qed.
Lemma log1p_expm1_wide : forall v f (x : flt f), finite x = true -> Rabs (B2R x) <= 2 / 5 ->
  exists m a : flt f, gcem_expm1 v (AFlt f x) = Ok m /\ gcem_log1p v (AFlt f m) = Ok a /\ finite a = true /\
  abs_err (B2R a) (B2R x) (12 * bpow radix2 (- prec f) + bpow radix2 (-54)).
Proof.
  intros v f x Fx X. destruct (uf_sm f) as (U0 & U1). change (bpow radix2 (- prec f)) with (uf f). destruct (em1a v f x Fx ltac:(lra)) as (m & Em & Fm & Rm). exists m. assert (XR := Rabs_le_inv _ _ X).
  assert (b := bpow_gt_0 radix2 (-55)). assert (b1 : bpow radix2 (-55) <= / 16777216) by (cbn; lra). replace (bpow radix2 (-54)) with (2 * bpow radix2 (-55)) by (cbn; lra). set (e := bpow radix2 (-55)) in * .
  assert (EP := exp_pos (B2R x)). assert (E0 : 67 / 100 <= exp (B2R x)). { apply Rle_trans with (exp (- (2 / 5))). interval. apply exp_le; lra. } assert (E1 : exp (B2R x) <= 15 / 10). { apply Rle_trans with (exp (2 / 5)). apply exp_le; lra. interval. }
  assert (ME : (8 * uf f + e) * exp (B2R x) <= (8 * uf f + e) * (15 / 10)) by (apply Rmult_le_compat_l; lra). assert (MR := Rabs_le_inv _ _ Rm).
  assert (M0 : - / 2 <= B2R m) by lra. destruct (l1pa v f m Fm M0) as (a & Ea & Fa & Ra). exists a. split. exact Em. split. exact Ea. split. exact Fa. unfold abs_err.
  set (d := (B2R m - (exp (B2R x) - 1)) / exp (B2R x)). assert (Dd : Rabs d <= 8 * uf f + e).
  { unfold d, Rdiv. rewrite Rabs_mult, Rabs_inv, (Rabs_pos_eq (exp _)) by lra. apply Rmult_le_reg_r with (exp (B2R x)). lra. rewrite Rmult_assoc, Rinv_l by lra. lra. }
  assert (E : ln (1 + B2R m) - B2R x = ln (1 + d)). { assert (D1 := Rabs_le_inv _ _ Dd). replace (1 + B2R m) with (exp (B2R x) * (1 + d)) by (unfold d; field; lra). rewrite ln_mult, ln_exp by (try apply exp_pos; lra). ring. }
  assert (EX : Rabs (ln (1 + B2R m) - B2R x) <= 1002 / 1000 * (8 * uf f + e)). { rewrite E. apply Rle_trans with (1002 / 1000 * Rabs d). apply ln1p_up; lra. lra. }
  assert (LA : Rabs (ln (1 + B2R m)) <= 401 / 1000). { replace (ln (1 + B2R m)) with ((ln (1 + B2R m) - B2R x) + B2R x) by ring. eapply Rle_trans. apply Rabs_triang. lra. }
  replace (B2R a - B2R x) with ((B2R a - ln (1 + B2R m)) + (ln (1 + B2R m) - B2R x)) by ring. eapply Rle_trans. apply Rabs_triang.
  assert (57 / 10 * uf f * Rabs (ln (1 + B2R m)) <= 57 / 10 * uf f * (401 / 1000)) by (apply Rmult_le_compat_l; lra). lra.
Qed.

(** ** log of a product *)
Lemma log_product : forall v f (x y : flt f), finite x = true -> finite y = true -> 1 <= B2R x -> 1 <= B2R y -> B2R x * B2R y <= bpow radix2 (emax f - 1) ->
  exists wx wy w : flt f, gcem_log v (AFlt f x) = Ok wx /\ gcem_log v (AFlt f y) = Ok wy /\ gcem_log v (AFlt f (x *. y)) = Ok w /\ finite w = true /\
  abs_err (B2R w) (B2R wx + B2R wy) ((2 + 113 / 10 * ln (B2R x * B2R y)) * bpow radix2 (- prec f)).
Proof.
  intros v f x y Fx Fy X Y M. destruct (uf_sm f) as (U0 & U1). change (bpow radix2 (- prec f)) with (uf f). assert (P : 1 <= B2R x * B2R y) by nra.
  destruct (FltLemmas.rnd_rel f (B2R x * B2R y)) as (d & Hd & Ed). { rewrite Rabs_pos_eq by lra. apply Rle_trans with (bpow radix2 0). apply bpow_le. destruct f; cbn; lia. cbn; lra. }
  change (bpow radix2 (- prec f)) with (uf f) in Hd. assert (D1 := Rabs_le_inv _ _ Hd). assert (BE : bpow radix2 (emax f) = 2 * bpow radix2 (emax f - 1)) by (change 2 with (bpow radix2 1) at 1; rewrite <- bpow_plus; f_equal; lia).
  set (T := B2R x * B2R y) in * . assert (dT : Rabs (d * T) <= / 16777216 * T). { rewrite Rabs_mult, (Rabs_pos_eq T) by lra. apply Rmult_le_compat_r; lra. } apply Rabs_le_inv in dT.
  assert (V : B2R (x *. y) = T * (1 + d) /\ finite (x *. y) = true). { destruct (fmul_spec x y Fx Fy) as (V & F). { fold T. rewrite Ed. apply Rabs_lt. lra. } split; auto. fold T in V. rewrite V, Ed. ring. }
  destruct V as (V & Fz). destruct (log_f v f x Fx ltac:(lra)) as (wx & Ex & Fwx & Rx). destruct (log_f v f y Fy ltac:(lra)) as (wy & Ey & Fwy & Ry). destruct (log_f v f (x *. y) Fz ltac:(rewrite V; lra)) as (w & Ew & Fw & Rw).
  exists wx, wy, w. split. exact Ex. split. exact Ey. split. exact Ew. split. exact Fw. unfold abs_err, rel_err in * . assert (L := ln_mult (B2R x) (B2R y) ltac:(lra) ltac:(lra)). fold T in L.
  assert (LX : 0 <= ln (B2R x)) by (rewrite <- ln_1; apply ln_le; lra). assert (LY : 0 <= ln (B2R y)) by (rewrite <- ln_1; apply ln_le; lra). rewrite (Rabs_pos_eq (ln (B2R x))) in Rx by lra. rewrite (Rabs_pos_eq (ln (B2R y))) in Ry by lra.
  rewrite V, ln_mult in Rw by lra. assert (LD := ln1p_up d ltac:(lra)). set (l := ln (1 + d)) in * . assert (LD2 : Rabs l <= 1002 / 1000 * uf f) by lra. assert (LD3 := Rabs_le_inv _ _ LD2).
  assert (LB : Rabs (ln T + l) <= ln T + 1002 / 1000 * uf f). { eapply Rle_trans. apply Rabs_triang. rewrite (Rabs_pos_eq (ln T)) by lra. lra. }
  assert (R2 : Rabs (B2R w - (ln T + l)) <= 56 / 10 * uf f * (ln T + 1002 / 1000 * uf f)) by (apply Rle_trans with (1 := Rw); apply Rmult_le_compat_l; lra).
  assert (uf f * uf f <= / 16777216 * uf f) by (apply Rmult_le_compat_r; lra). assert (0 <= uf f * ln T) by (apply Rmult_le_pos; lra).
  apply Rabs_le_inv in R2. apply Rabs_le_inv in Rx. apply Rabs_le_inv in Ry. apply Rabs_le.
  assert (56 / 10 * uf f * ln (B2R x) + 56 / 10 * uf f * ln (B2R y) = 56 / 10 * (uf f * ln T)) by (rewrite L; ring). lra.
Qed.
(** The argument of an example *)
Definition tiny14 : flt F64 := half F64 /. ofZ F64 8192.
Lemma tiny14_val : B2R tiny14 = / 16384 /\ finite tiny14 = true.
Proof.
  assert (E : B2SF tiny14 = SpecFloat.S754_finite false 4503599627370496 (-66)) by (vm_compute; reflexivity).
  split. rewrite <- SF2R_B2SF, E. unfold SF2R, F2R. cbn. lra. rewrite <- is_finite_SF_B2SF, E. reflexivity.
Qed.
