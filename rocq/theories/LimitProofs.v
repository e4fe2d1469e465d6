(** * Values at infinities, at zero (and below the smallest normal number) and at one *)
From Coq Require Import Lra Psatz.
From Verif Require Import Base ModelBasic ModelInt ModelElem ModelSpecial ModelApi FltLemmas ConvLemmas Spec IntProofs BasicProofs SymLemmas ScaleProofs TotalProofs ExpTotal EdgeProofs DomainProofs.
Open Scope R_scope.

Notation inf_ f := (B754_infinity false : flt f).
Notation ninf_ f := (B754_infinity true : flt f).
Ltac conc := match goal with |- @eq (res (flt ?f)) _ _ => apply (@ok_sf f); vm_compute; reflexivity end.

Section Limits.
Context (v : cxx).
Lemma api_infinite f :
  gcem_exp v (AFlt f (ninf_ f)) = Ok (ofZ f 0) /\ gcem_exp v (AFlt f (inf_ f)) = Ok (inf_ f) /\
  gcem_expm1 v (AFlt f (ninf_ f)) = Ok (ofZ f (-1)) /\ gcem_expm1 v (AFlt f (inf_ f)) = Ok (inf_ f) /\
  gcem_log v (AFlt f (inf_ f)) = Ok (inf_ f) /\ gcem_log1p v (AFlt f (inf_ f)) = Ok (inf_ f) /\
  gcem_log2 v (AFlt f (inf_ f)) = Ok (inf_ f) /\ gcem_log10 v (AFlt f (inf_ f)) = Ok (inf_ f) /\
  gcem_sqrt (AFlt f (inf_ f)) = Ok (inf_ f) /\ gcem_inv_sqrt (AFlt f (inf_ f)) = Ok (ofZ f 0) /\
  gcem_atan v (AFlt f (inf_ f)) = Ok (conv f GCEM_HALF_PI) /\ gcem_atan v (AFlt f (ninf_ f)) = Ok (-. conv f GCEM_HALF_PI) /\
  gcem_sinh v (AFlt f (inf_ f)) = Ok (inf_ f) /\ gcem_sinh v (AFlt f (ninf_ f)) = Ok (ninf_ f) /\
  gcem_cosh v (AFlt f (inf_ f)) = Ok (inf_ f) /\ gcem_cosh v (AFlt f (ninf_ f)) = Ok (inf_ f) /\
  gcem_asinh v (AFlt f (inf_ f)) = Ok (inf_ f) /\ gcem_acosh v (AFlt f (inf_ f)) = Ok (inf_ f) /\
  gcem_erf v (AFlt f (inf_ f)) = Ok (ofZ f 1) /\ gcem_erf v (AFlt f (ninf_ f)) = Ok (ofZ f (-1)).
Proof. repeat match goal with |- _ /\ _ => split end; destruct v, f; conc. Qed.
Lemma api_hypot_inf f g s (y : flt g) : is_nan y = false ->
  gcem_hypot (AFlt f (B754_infinity s)) (AFlt g y) = Ok (inf_ _) /\ gcem_hypot (AFlt g y) (AFlt f (B754_infinity s)) = Ok (inf_ _).
Proof.
  intros N. unfold gcem_hypot, lift2. cbn [cr_fmt to_fmt]. unfold hypot_vals_check, any_nan, any_inf.
  rewrite !conv_is_nan by auto using wider_max_l, wider_max_r. rewrite N.
  change (@conv f (fmt_max f g) (B754_infinity s)) with (B754_infinity s : flt (fmt_max f g)).
  change (@conv f (fmt_max g f) (B754_infinity s)) with (B754_infinity s : flt (fmt_max g f)).
  change (@is_nan f (B754_infinity s)) with (negb (B754_infinity s ==. (B754_infinity s : flt f))).
  rewrite !is_inf_spec. replace (B754_infinity s ==. (B754_infinity s : flt f)) with true by (destruct s; reflexivity).
  cbn [negb orb]. rewrite orb_true_r. split; reflexivity.
Qed.

(** ** Arguments below the smallest normal number *)
Lemma tiny_fin {f} (x : flt f) : tiny x -> finite x = true. Proof. intros (A & _); auto. Qed.
Lemma tiny_not_inf {f} (x : flt f) : tiny x -> is_neginf x = false /\ is_posinf x = false.
Proof. intros H. split; [apply finite_not_neginf|apply finite_not_posinf]; apply tiny_fin; auto. Qed.
Lemma tiny_minus {f} (x c : flt f) : tiny x -> finite c = true -> 1/2 <= Rabs (B2R c) <= 4 ->
  (abs (x -. c) <. fmin f) = false /\ (abs (x +. c) <. fmin f) = false.
Proof.
  intros (Fx & H) Fc Hc.
  assert (M : bpow radix2 (2 - emax f) <= /8).
  { replace (/8) with (bpow radix2 (-3)) by (cbn; lra). apply bpow_le. destruct f; cbn; lia. }
  assert (A : forall y, /4 <= Rabs y <= 5 -> Rabs (rnd f y) < bpow radix2 (emax f) /\ bpow radix2 (2 - emax f) <= Rabs (rnd f y)).
  { intros y Hy. split.
    - apply rnd_lt_emax_bpow with 3%Z. destruct f; vm_compute; split; discriminate || reflexivity.
      change (bpow radix2 3) with 8. lra.
    - rewrite rnd_abs. apply rnd_ge_fmt; [apply fmt_bpow; unfold emin; destruct f; cbn; lia|lra]. }
  assert (Bm : /4 <= Rabs (B2R x - B2R c) <= 5).
  { split. apply Rle_trans with (Rabs (B2R c) - Rabs (B2R x)); [lra|]. rewrite <- (Rabs_Ropp (B2R x - B2R c)).
    replace (- (B2R x - B2R c)) with (B2R c - B2R x) by ring. apply Rabs_triang_inv.
    eapply Rle_trans; [apply Rabs_triang|]. rewrite Rabs_Ropp. lra. }
  assert (Bp : /4 <= Rabs (B2R x + B2R c) <= 5).
  { split. apply Rle_trans with (Rabs (B2R c) - Rabs (B2R x)); [lra|]. rewrite <- (Rabs_Ropp (B2R x)).
    replace (B2R x + B2R c) with (B2R c - - B2R x) by ring. apply Rabs_triang_inv.
    eapply Rle_trans; [apply Rabs_triang|]. lra. }
  destruct (A _ Bm) as [A1 A2]. destruct (A _ Bp) as [A3 A4].
  destruct (fsub_spec x c Fx Fc A1) as [E1 F1]. destruct (fadd_spec x c Fx Fc A3) as [E2 F2].
  rewrite !below_min, E1, E2 by auto. rewrite !Rlt_bool_false by auto. auto.
Qed.
Lemma tiny_one {f} (x : flt f) : tiny x -> (abs (x -. ofZ f 1) <. fmin f) = false.
Proof. intros H. destruct (one_val f) as (A & B). apply tiny_minus; auto. rewrite B, Rabs_R1. lra. Qed.
Lemma one_tiny {f} (x : flt f) : tiny x -> (abs (ofZ f 1 -. x) <. fmin f) = false.
Proof.
  intros H. replace (abs (ofZ f 1 -. x)) with (abs (x -. ofZ f 1)); [apply tiny_one; auto|].
  destruct (fsub_swap x (ofZ f 1)) as [E|(s & s' & E1 & E2)].
  - rewrite E, abs_neg. reflexivity.
  - rewrite E1. destruct (x -. ofZ f 1); try discriminate; rewrite !abs_Babs; reflexivity.
Qed.
Lemma api_tiny f (x : flt f) n : tiny x ->
  gcem_exp v (AFlt f x) = Ok (ofZ f 1) /\ gcem_cos (AFlt f x) = Ok (ofZ f 1) /\ gcem_cosh v (AFlt f x) = Ok (ofZ f 1) /\
  gcem_tan (AFlt f x) = Ok (ofZ f 0) /\ gcem_sin (AFlt f x) = Ok (ofZ f 0) /\ gcem_atan v (AFlt f x) = Ok (ofZ f 0) /\
  gcem_sinh v (AFlt f x) = Ok (ofZ f 0) /\ gcem_tanh v (AFlt f x) = Ok (ofZ f 0) /\ gcem_asinh v (AFlt f x) = Ok (ofZ f 0) /\
  gcem_erf v (AFlt f x) = Ok (ofZ f 0) /\ gcem_lgamma v (AFlt f x) = Ok (inf_ f) /\ gcem_tgamma v (S n) (AFlt f x) = Ok (inf_ f).
Proof.
  intros H. destruct (tiny_not_inf x H) as (I1 & I2). pose proof (tiny_not_nan x H) as N. pose proof (tiny_lt x H) as L.
  pose proof (tiny_lt' x H) as L'. pose proof (tiny_one x H) as O.
  repeat match goal with |- _ /\ _ => split end.
  - change (exp_check v x = Ok (ofZ f 1)). unfold exp_check. rewrite N, I1, L. reflexivity.
  - change (cos_check x = Ok (ofZ f 1)). unfold cos_check. rewrite N, L. reflexivity.
  - change (cosh_compute v x = Ok (ofZ f 1)). unfold cosh_compute. rewrite N, L. reflexivity.
  - change (tan_check x = Ok (ofZ f 0)). unfold tan_check. rewrite N, L. reflexivity.
  - change (sin_check x = Ok (ofZ f 0)). unfold sin_check. rewrite N, L. reflexivity.
  - change (atan_check v x = Ok (ofZ f 0)). unfold atan_check. rewrite N, L. reflexivity.
  - change (sinh_check v x = Ok (ofZ f 0)). unfold sinh_check. rewrite N, L. reflexivity.
  - change (tanh_check v x = Ok (ofZ f 0)). unfold tanh_check. rewrite N, L. reflexivity.
  - change (asinh_compute v x = Ok (ofZ f 0)). unfold asinh_compute. rewrite N, L. reflexivity.
  - change (erf_check v x = Ok (ofZ f 0)). unfold erf_check. rewrite N, I1, I2, L. reflexivity.
  - change (lgamma_check v x = Ok (inf_ f)). unfold lgamma_check. rewrite N, O, L'. reflexivity.
  - change (tgamma_check v (S n) x = Ok (inf_ f)). cbn [tgamma_check]. rewrite N, O, L. reflexivity.
Qed.
Lemma tiny_nonneg {f} (x : flt f) : tiny x -> 0 <= B2R x -> (x <. ofZ f 0) = false.
Proof. intros (F & _) H. apply flt_false; [auto|apply zero_val|rewrite (proj2 (zero_val f)); auto]. Qed.
Lemma api_tiny_nonneg f (x : flt f) : tiny x -> 0 <= B2R x ->
  gcem_log v (AFlt f x) = Ok (ninf_ f) /\ gcem_log2 v (AFlt f x) = Ok (ninf_ f) /\ gcem_log10 v (AFlt f x) = Ok (ninf_ f) /\
  gcem_sqrt (AFlt f x) = Ok (ofZ f 0) /\ gcem_inv_sqrt (AFlt f x) = Ok (inf_ f) /\
  gcem_asin v (AFlt f x) = Ok (ofZ f 0) /\ gcem_acos v (AFlt f (B754_zero false)) = Ok (conv f GCEM_HALF_PI).
Proof.
  intros H H0. destruct (tiny_not_inf x H) as (I1 & I2). pose proof (tiny_not_nan x H) as N. pose proof (tiny_lt x H) as L.
  pose proof (tiny_lt' x H) as L'. pose proof (tiny_one x H) as O. pose proof (one_tiny x H) as O'. pose proof (tiny_nonneg x H H0) as P.
  assert (G : log_check v x = Ok (ninf_ f)). { unfold log_check. rewrite N, P, L'. reflexivity. }
  repeat match goal with |- _ /\ _ => split end.
  - exact G.
  - change (log2_check v x = Ok (ninf_ f)). unfold log2_check. rewrite G. cbn [bind]. destruct f; reflexivity.
  - change (log10_check v x = Ok (ninf_ f)). unfold log10_check. rewrite G. cbn [bind]. destruct f; reflexivity.
  - change (sqrt_check x = Ok (ofZ f 0)). unfold sqrt_check. rewrite N, P, I2, L. reflexivity.
  - change (inv_sqrt_check x = Ok (inf_ f)). unfold inv_sqrt_check. rewrite N, P, I2, L. reflexivity.
  - change (asin_check v x = Ok (ofZ f 0)). unfold asin_check, asin_compute. rewrite N, P, O, L.
    assert (Q : (ofZ f 1 <. x) = false); [|rewrite Q; reflexivity].
    apply flt_false; [apply one_val|apply tiny_fin; auto|]. rewrite (proj2 (one_val f)).
    destruct H as (_ & H). pose proof (fmin_small f). apply Rabs_lt_inv in H. lra.
  - destruct v, f; conc.
Qed.
Lemma api_zero_tiny f (a z : flt f) : tiny z -> is_nan a = false -> (a <. ofZ f 0) = false ->
  gcem_incomplete_gamma v (AFlt f a) (AFlt f z) = Ok (ofZ _ 0).
Proof.
  intros H N P. assert (E : fmt_max f f = f) by (destruct f; reflexivity).
  unfold gcem_incomplete_gamma, lift2. cbn [cr_fmt to_fmt]. rewrite E. rewrite !conv_id.
  unfold incomplete_gamma_check, any_nan. rewrite N, (tiny_not_nan z H), P, (tiny_lt' z H). reflexivity.
Qed.
Lemma api_inverse_edges f (a b z : flt f) : is_nan a = false -> is_nan b = false ->
  (tiny z -> gcem_incomplete_gamma_inv v (AFlt f a) (AFlt f z) = Ok (ofZ _ 0) /\
             gcem_incomplete_beta v (AFlt f a) (AFlt f b) (AFlt f z) = Ok (ofZ _ 0) /\
             gcem_incomplete_beta_inv v (AFlt f a) (AFlt f b) (AFlt f z) = Ok (ofZ _ 0)) /\
  (has_val z 1 -> gcem_incomplete_gamma_inv v (AFlt f a) (AFlt f z) = Ok (inf_ _) /\
                  gcem_incomplete_beta_inv v (AFlt f a) (AFlt f b) (AFlt f z) = Ok (ofZ _ 1)).
Proof.
  intros Na Nb. assert (E : fmt_max f f = f) by (destruct f; reflexivity).
  unfold gcem_incomplete_gamma_inv, gcem_incomplete_beta, gcem_incomplete_beta_inv, lift2, lift3. cbn [cr_fmt cr_fmt3 to_fmt]. rewrite !E. rewrite !conv_id.
  unfold incomplete_gamma_inv_check, incomplete_beta_check, incomplete_beta_inv_check, any_nan, any_nan3. rewrite Na, Nb. split.
  - intros H. rewrite (tiny_not_nan z H), (tiny_lt' z H). repeat match goal with |- _ /\ _ => split end; reflexivity.
  - intros H. apply val_one in H. subst z.
    replace (is_nan (ofZ f 1)) with false by (destruct f; vm_compute; reflexivity).
    replace (ofZ f 1 <. fmin f) with false by (destruct f; vm_compute; reflexivity).
    replace (ofZ f 1 <. ofZ f 1) with false by (destruct f; vm_compute; reflexivity).
    replace (abs (ofZ f 1 -. ofZ f 1) <. fmin f) with true by (destruct f; vm_compute; reflexivity).
    split; reflexivity.
Qed.

(** ** The argument one (and minus one) *)
Lemma api_one f n :
  gcem_log v (AFlt f (ofZ f 1)) = Ok (ofZ f 0) /\ gcem_log2 v (AFlt f (ofZ f 1)) = Ok (ofZ f 0) /\ gcem_log10 v (AFlt f (ofZ f 1)) = Ok (ofZ f 0) /\
  gcem_log1p v (AFlt f (ofZ f (-1))) = Ok (ninf_ f) /\
  gcem_sqrt (AFlt f (ofZ f 1)) = Ok (ofZ f 1) /\ gcem_inv_sqrt (AFlt f (ofZ f 1)) = Ok (ofZ f 1) /\
  gcem_asin v (AFlt f (ofZ f 1)) = Ok (conv f GCEM_HALF_PI) /\ gcem_asin v (AFlt f (ofZ f (-1))) = Ok (-. conv f GCEM_HALF_PI) /\
  gcem_acos v (AFlt f (ofZ f 1)) = Ok (ofZ f 0) /\ gcem_acos v (AFlt f (ofZ f (-1))) = Ok (conv f GCEM_PI) /\
  gcem_acosh v (AFlt f (ofZ f 1)) = Ok (ofZ f 0) /\
  gcem_atanh v (AFlt f (ofZ f 1)) = Ok (inf_ f) /\ gcem_atanh v (AFlt f (ofZ f (-1))) = Ok (ninf_ f) /\
  gcem_erf_inv v (AFlt f (ofZ f 1)) = Ok (inf_ f) /\ gcem_erf_inv v (AFlt f (ofZ f (-1))) = Ok (ninf_ f) /\
  gcem_lgamma v (AFlt f (ofZ f 1)) = Ok (ofZ f 0) /\ gcem_tgamma v (S n) (AFlt f (ofZ f 1)) = Ok (ofZ f 1).
Proof. repeat match goal with |- _ /\ _ => split end; destruct v, f; conc. Qed.
End Limits.
