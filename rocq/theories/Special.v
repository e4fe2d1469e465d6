(** * Special values and totality of the remaining elementary functions *)
From Verif Require Import Base ModelBasic ModelInt ModelElem ModelSpecial ModelApi FltLemmas Spec SpecErf SpecGamma IntProofs BasicProofs ConvLemmas MiscProofs TotalProofs ExpTotal ExpAcc.
From Coq Require Import Lra Psatz.
From Coquelicot Require Import Coquelicot.
From Verif Require Import Base ModelBasic FPErr SinAcc TrigWide RoundTrip.
From Interval Require Import Tactic.
Open Scope R_scope.

(** ** Values at infinity and at zero *)
Lemma special_unary v f s : gcem_tanh v (AFlt f (B754_infinity s)) = Ok B754_nan /\ gcem_asinh v (AFlt f (B754_infinity true)) = Ok B754_nan.
Proof. split; apply ok_sf; destruct v, f, s; vm_compute; reflexivity. Qed.
Lemma special_atan2 v f s t : gcem_atan2 v (AFlt f (B754_infinity s)) (AFlt f (B754_infinity t)) = Ok B754_nan.
Proof. apply ok_sf; destruct v, f, s, t; vm_compute; reflexivity. Qed.
Lemma special_fmod a g s : gcem_fmod a (AFlt g (B754_infinity s)) = Ok B754_nan.
Proof.
  unfold gcem_fmod, lift2. set (h := cr_fmt a _). cbn [to_fmt]. rewrite conv_inf. generalize (to_fmt h a). intros x. unfold fmod_check. destruct (any_nan x _); [reflexivity|].
  replace (all_finite x (B754_infinity s)) with false. reflexivity. unfold all_finite. symmetry. rewrite andb_comm. destruct h, s; reflexivity.
Qed.
Lemma pow_nonneg v f (x y : flt f) : (x <. ofZ f 0) = false -> gcem_pow v (AFlt f x) (AFlt f y) = rmap (AFlt f) (pow_dbl v x y).
Proof. intros H. unfold gcem_pow. cbn [cr_fmt]. rewrite H. destruct f; cbn [fmt_max]; cbn [to_fmt]; rewrite !conv_id; unfold rmap, bind; destruct (pow_dbl v x y); reflexivity. Qed.
Lemma special_pow v f s t : let z := (B754_zero s : flt f) in let w := (B754_zero t : flt f) in let i := (B754_infinity t : flt f) in
  gcem_pow v (AFlt f z) (AFlt f w) = Ok (AFlt f B754_nan) /\ gcem_pow v (AFlt f (B754_infinity false)) (AFlt f w) = Ok (AFlt f B754_nan) /\ gcem_pow v (AFlt f (ofZ f 1)) (AFlt f i) = Ok (AFlt f B754_nan).
Proof.
  cbv zeta. assert (G : forall x y : flt f, (x <. ofZ f 0) = false -> pow_dbl v x y = Ok B754_nan -> gcem_pow v (AFlt f x) (AFlt f y) = Ok (AFlt f B754_nan)) by (intros x y H E; rewrite pow_nonneg, E; auto).
  repeat apply conj; apply G; try apply ok_sf; destruct v, f, s, t; vm_compute; reflexivity.
Qed.

(** ** sinh, cosh and expm1: defined exactly where exp is *)
Lemma neg_small {f} (x : flt f) : (finite x = true -> Rabs (B2R x) <= IZR (2 ^ 63 - 1)) -> finite (-. x) = true -> Rabs (B2R (-. x)) <= IZR (2 ^ 63 - 1).
Proof. intros H F. rewrite fneg_finite in F. rewrite fneg_B2R, Rabs_Ropp. auto. Qed.
Lemma hyp_ok v {f} (x : flt f) : (finite x = true -> Rabs (B2R x) <= IZR (2 ^ 63 - 1)) -> ok (gcem_sinh v (AFlt f x)) /\ ok (gcem_cosh v (AFlt f x)) /\ ok (gcem_expm1 v (AFlt f x)).
Proof.
  intros H. destruct (exp_ok v x H) as (a & Ea). destruct (exp_ok v (-. x) (neg_small x H)) as (b & Eb). unfold gcem_sinh, gcem_cosh, gcem_expm1, lift1. cbn [ret_fmt ret_val]. unfold sinh_check, cosh_compute, expm1_check. rewrite Ea, Eb. cbn [bind].
  repeat apply conj; destruct (is_nan x); try apply ok_Ok; destruct (_ <. _); apply ok_Ok.
Qed.
Lemma wide_abs {f} (x : flt f) : finite x = true -> (IZR (2 ^ 63) <= B2R x \/ B2R x < - IZR (2 ^ 63)) -> IZR (2 ^ 63) <= Rabs (B2R x).
Proof. intros F [W|W]. rewrite Rabs_pos_eq; auto. apply Rle_trans with (IZR (2 ^ 63)); auto. apply IZR_le; discriminate. rewrite Rabs_left; [lra|]. assert (0 < IZR (2 ^ 63)) by (apply IZR_lt; reflexivity). lra. Qed.
Lemma hyp_ub v {f} (x : flt f) : finite x = true -> (IZR (2 ^ 63) <= B2R x \/ B2R x < - IZR (2 ^ 63)) ->
  gcem_sinh v (AFlt f x) = Ub UbCast /\ gcem_cosh v (AFlt f x) = Ub UbCast /\ gcem_expm1 v (AFlt f x) = Ub UbCast.
Proof.
  intros F W. assert (A := wide_abs x F W). assert (E := exp_ub v x F W). destruct (fmin_spec f) as (Vm & Fm). change (IZR (2 ^ 63)) with 9223372036854775808 in * .
  assert (fm1 : bpow radix2 (2 - emax f) <= 1) by (change 1 with (bpow radix2 0); apply bpow_le; destruct f; discriminate).
  assert (N : is_nan x = false) by (apply finite_not_nan; auto). unfold gcem_sinh, gcem_cosh, gcem_expm1, lift1. cbn [ret_fmt ret_val]. unfold sinh_check, cosh_compute, expm1_check. rewrite N, E.
  rewrite (flt_false (ModelBasic.abs x) (fmin f)) by (rewrite ?abs_finite, ?abs_B2R, ?Vm; auto; lra). 
  assert (L : finite (dlit f 1 4) = true /\ B2R (dlit f 1 4) <= 1). { destruct (ofZ_small f 1 ltac:(lia)) as (V1 & F1 & _). assert (Q : finite (dlit f 1 4) = true /\ (dlit f 1 4 <. ofZ f 1) = true) by (destruct f; vm_compute; auto). destruct Q as (Q1 & Q2). split; auto. apply flt_true_inv in Q2; auto. rewrite V1 in Q2. lra. }
  rewrite (flt_true (dlit f 1 4) (ModelBasic.abs x)) by (rewrite ?abs_finite, ?abs_B2R; tauto || lra). auto.
Qed.

(** ** pow with a huge exponent *)
Lemma pow_ub v f (x y : flt f) : finite x = true -> finite y = true -> 2 <= B2R x -> bpow radix2 64 <= Rabs (B2R y) <= bpow radix2 (emax f - 16) -> gcem_pow v (AFlt f x) (AFlt f y) = Ub UbCast.
Proof.
  intros Fx Fy X Y. destruct (ofZ_small f 0 ltac:(lia)) as (V0 & F0 & _). rewrite pow_nonneg by (apply flt_false; auto; rewrite V0; lra).
  destruct (log_f v f x Fx ltac:(lra)) as (l & El & Fl & Rl). change (gcem_log v (AFlt f x)) with (log_check v x) in El. unfold pow_dbl. rewrite El. cbn [bind].
  assert (u0 := uf_small f). assert (L2 : 69 / 100 <= ln (B2R x)). { apply Rle_trans with (ln 2). interval. apply LogAcc.ln_le_le; lra. }
  assert (LM : ln (B2R x) <= bpow radix2 14).
  { apply Rle_trans with (ln (bpow radix2 (emax f))). apply LogAcc.ln_le_le. lra. apply Rle_trans with (Rabs (B2R x)). apply Rle_abs. left. apply abs_B2R_lt_emax. rewrite bpow_exp, ln_exp. change (bpow radix2 14) with 16384. change (IZR radix2) with 2. assert (IZR (emax f) <= 16384) by (apply IZR_le; destruct f; discriminate). assert (0 <= IZR (emax f)) by (apply IZR_le; destruct f; discriminate). assert (0 < ln 2 <= 1) by (split; interval). assert (IZR (emax f) * ln 2 <= 16384 * 1) by (apply Rmult_le_compat; lra). lra. }
  unfold rel_err in Rl. rewrite (Rabs_pos_eq (ln (B2R x))) in Rl by lra. apply Rabs_le_inv in Rl. assert (ul : 56 / 10 * uf f * ln (B2R x) <= / 1000 * ln (B2R x)) by (apply Rmult_le_compat_r; lra).
  assert (l0 : 68 / 100 <= B2R l <= 2 * bpow radix2 14) by (change (bpow radix2 14) with 16384 in *; lra).
  assert (PB : 68 / 100 * bpow radix2 64 <= Rabs (B2R y * B2R l) <= bpow radix2 (emax f - 1)).
  { rewrite Rabs_mult, (Rabs_pos_eq (B2R l)) by lra. assert (b64 := bpow_gt_0 radix2 64). split. rewrite (Rmult_comm (Rabs _)). apply Rmult_le_compat; lra. replace (emax f - 1)%Z with (emax f - 16 + (1 + 14))%Z by ring. rewrite !bpow_plus. change (bpow radix2 1) with 2. apply Rmult_le_compat; try apply Rabs_pos; lra. }
  assert (RO : Rabs (rnd f (B2R y * B2R l)) < bpow radix2 (emax f)). { apply rnd_lt_emax_bpow with (e := (emax f - 1)%Z). destruct f; split; reflexivity || discriminate. exact (proj2 PB). }
  destruct (fmul_spec y l Fy Fl RO) as (V & F). rewrite exp_ub; auto. rewrite V.
  assert (b64 : bpow radix2 64 = 18446744073709551616) by reflexivity. rewrite b64 in PB. change (IZR (2 ^ 63)) with 9223372036854775808.
  destruct (rnd_u f (B2R y * B2R l)) as (e & He & ->). { apply Rle_trans with 1. change 1 with (bpow radix2 0); apply bpow_le; destruct f; discriminate. lra. }
  apply Rabs_le_inv in He. set (z := B2R y * B2R l) in * . unfold Rabs in PB. destruct (Rcase_abs z) as [N|N].
  - right. assert ((- z) * (1 - / 1000) <= (- z) * (1 + e)) by (apply Rmult_le_compat_l; lra). lra.
  - left. assert (z * (1 - / 1000) <= z * (1 + e)) by (apply Rmult_le_compat_l; lra). lra.
Qed.
