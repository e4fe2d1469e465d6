(** * The C++11 recursions and the C++14 loops compute the same values *)
From Coq Require Import FunctionalExtensionality.
From Verif Require Import Base ModelBasic ModelInt ModelElem ModelSpecial ModelApi FltLemmas Spec BasicProofs.
Open Scope Z_scope.

(** A loop running down from [depth] is the recursion going up to it. *)
Lemma up_rec_snoc {A} n : forall d (b : Z -> A -> A) r,
  up_rec n d b (b (d + Z.of_nat n) r) = up_rec (S n) d b r.
Proof.
  induction n as [|n IH]; intros d b r.
  - cbn. f_equal. lia.
  - change (up_rec (S (S n)) d b r) with (b d (up_rec (S n) (d + 1) b r)).
    rewrite <- (IH (d + 1) b r). cbn [up_rec]. replace (d + 1 + Z.of_nat n) with (d + Z.of_nat (S n)) by lia. reflexivity.
Qed.
Lemma down_up {A} n : forall depth (b : Z -> A -> A) r,
  down_loop n depth b r = up_rec n (depth - Z.of_nat n + 1) b r.
Proof.
  induction n as [|n IH]; intros; [reflexivity|].
  cbn [down_loop]. rewrite IH, <- up_rec_snoc.
  replace (depth - 1 - Z.of_nat n + 1) with (depth - Z.of_nat (S n) + 1) by lia.
  do 2 f_equal. lia.
Qed.
Lemma for_down_rec_up {A} hi lo (b : Z -> A -> A) r : lo <= hi + 1 ->
  for_down hi lo b r = rec_up lo (hi + 1) b r.
Proof.
  intros. unfold for_down, rec_up. rewrite down_up.
  replace (hi - lo + 1) with (hi + 1 - lo) by lia. f_equal. lia.
Qed.
Lemma up_rec_ext {A} (s s' : Z -> A -> A) n : forall d b,
  (forall k r, d <= k < d + Z.of_nat n -> s k r = s' k r) -> up_rec n d s b = up_rec n d s' b.
Proof.
  induction n as [|n IH]; intros; [reflexivity|]. cbn [up_rec].
  rewrite H by lia. f_equal. apply IH. intros. apply H. lia.
Qed.

Lemma exp_cf_11_14 f (x : flt f) : exp_cf Cxx11 x = exp_cf Cxx14 x.
Proof. unfold exp_cf, exp_cf_recur. rewrite for_down_rec_up; [reflexivity|unfold GCEM_EXP_MAX_ITER_SMALL; lia]. Qed.
Lemma log_cf_11_14 f (x : flt f) : log_cf_begin Cxx11 x = log_cf_begin Cxx14 x.
Proof. unfold log_cf_begin, log_cf_main. rewrite for_down_rec_up; [reflexivity|unfold GCEM_LOG_MAX_ITER_SMALL; lia]. Qed.
Lemma tanh_begin_11_14 f (x : flt f) : tanh_begin Cxx11 x = tanh_begin Cxx14 x.
Proof. unfold tanh_begin, tanh_cf. rewrite for_down_rec_up; [reflexivity|unfold GCEM_TANH_MAX_ITER; lia]. Qed.
Lemma atan_cf_recur_11_14 f (x : flt f) m : 1 <= m -> atan_cf_recur Cxx11 x 1 m = atan_cf_recur Cxx14 x 1 m.
Proof. intros. unfold atan_cf_recur. rewrite for_down_rec_up by lia. f_equal; [lia|f_equal; lia]. Qed.
Lemma atan_cf_main_11_14 f (x : flt f) : atan_cf_main Cxx11 x = atan_cf_main Cxx14 x.
Proof. unfold atan_cf_main. rewrite !(atan_cf_recur_11_14 f) by lia. reflexivity. Qed.
Lemma erf_large_11_14 f (x : flt f) : erf_cf_large_recur Cxx11 x 1 = erf_cf_large_recur Cxx14 x 1.
Proof. unfold erf_cf_large_recur. rewrite for_down_rec_up; [reflexivity|unfold GCEM_ERF_MAX_ITER; lia]. Qed.
Lemma small_odd f d : 1 <= d <= 100 -> ofZ f (2 * d) -. ofZ f 1 = ofZ f (2 * d - 1).
Proof.
  intros. assert (P := small_prec f).
  destruct (fsub_int (ofZ f (2 * d)) (ofZ f 1) (2 * d) 1) as [F V];
    [apply ofZ_val, P; lia|apply ofZ_val, P; lia|apply P; lia|].
  destruct (ofZ_val f (2 * d - 1)) as [F' V']; [apply P; lia|].
  apply flt_inj_nz; auto; rewrite V; auto. apply IZR_neq. lia.
Qed.
Lemma erf_small_11_14 f (x : flt f) : erf_cf_small_recur Cxx11 x 1 = erf_cf_small_recur Cxx14 x 1.
Proof.
  unfold erf_cf_small_recur. unfold GCEM_ERF_MAX_ITER. rewrite for_down_rec_up by lia.
  unfold rec_up. rewrite small_odd by lia.
  apply up_rec_ext. intros k r Hk. unfold erf_cf_small_step_11, erf_cf_small_step_14.
  rewrite small_odd; [reflexivity|]. change (Z.to_nat (60 - 1)) with 59%nat in Hk. lia.
Qed.

Ltac ext := repeat (apply functional_extensionality_dep; intro).
Lemma exp_11_14 : @exp_check Cxx11 = @exp_check Cxx14.
Proof.
  assert (M : @exp_cf Cxx11 = @exp_cf Cxx14) by (ext; apply exp_cf_11_14).
  ext. unfold exp_check, exp_split. rewrite M. reflexivity. Qed.
Lemma log_11_14 : @log_check Cxx11 = @log_check Cxx14.
Proof.
  assert (M : @log_main Cxx11 = @log_main Cxx14) by (ext; apply log_cf_11_14).
  ext. unfold log_check, log_breakup, log_mantissa. rewrite M. reflexivity. Qed.
Lemma tanh_11_14 : @tanh_check Cxx11 = @tanh_check Cxx14.
Proof. ext. unfold tanh_check. rewrite !tanh_begin_11_14. reflexivity. Qed.
Lemma erf_11_14 : @erf_check Cxx11 = @erf_check Cxx14.
Proof.
  assert (M : @erf_begin Cxx11 = @erf_begin Cxx14).
  { ext. unfold erf_begin, erf_cf_large_main, erf_cf_small_main.
    rewrite exp_11_14, erf_large_11_14, erf_small_11_14. reflexivity. }
  ext. unfold erf_check. rewrite M. reflexivity. Qed.
Ltac t11 := ext; cbv delta [expm1_check log1p_check log2_check log10_check pow_check pow_dbl sinh_check cosh_compute
  asinh_compute acosh_compute atanh_check atanh_compute lgamma_check lgamma_begin lgamma_term_1 lgamma_term_2] beta;
  rewrite ?exp_11_14, ?log_11_14; reflexivity.
Lemma expm1_11_14 : @expm1_check Cxx11 = @expm1_check Cxx14. Proof. t11. Qed.
Lemma log1p_11_14 : @log1p_check Cxx11 = @log1p_check Cxx14. Proof. t11. Qed.
Lemma pow_11_14 : @pow_check Cxx11 = @pow_check Cxx14. Proof. t11. Qed.
Lemma pow_dbl_11_14 : @pow_dbl Cxx11 = @pow_dbl Cxx14. Proof. t11. Qed.
Lemma sinh_11_14 : @sinh_check Cxx11 = @sinh_check Cxx14. Proof. t11. Qed.
Lemma cosh_11_14 : @cosh_compute Cxx11 = @cosh_compute Cxx14. Proof. t11. Qed.
Lemma asinh_11_14 : @asinh_compute Cxx11 = @asinh_compute Cxx14. Proof. t11. Qed.
Lemma acosh_11_14 : @acosh_compute Cxx11 = @acosh_compute Cxx14. Proof. t11. Qed.
Lemma atanh_11_14 : @atanh_check Cxx11 = @atanh_check Cxx14. Proof. t11. Qed.
Lemma lgamma_11_14 : @lgamma_check Cxx11 = @lgamma_check Cxx14. Proof. t11. Qed.
Lemma tgamma_11_14 : @tgamma_check Cxx11 = @tgamma_check Cxx14.
Proof.
  apply functional_extensionality_dep. intros f. apply functional_extensionality. intros n.
  induction n as [|n IH]; ext; [reflexivity|].
  cbn [tgamma_check]. rewrite IH, lgamma_11_14, exp_11_14. reflexivity.
Qed.
Lemma lmgamma_11_14 : @lmgamma_recur Cxx11 = @lmgamma_recur Cxx14.
Proof.
  apply functional_extensionality_dep. intros f. apply functional_extensionality. intros n.
  induction n as [|n IH]; ext; [reflexivity|].
  cbn [lmgamma_recur]. rewrite IH, lgamma_11_14. reflexivity.
Qed.
Lemma lbeta_11_14 : @lbeta Cxx11 = @lbeta Cxx14.
Proof. ext. unfold lbeta. rewrite lgamma_11_14. reflexivity. Qed.
Lemma lbc_11_14 : @log_binomial_coef_compute Cxx11 = @log_binomial_coef_compute Cxx14.
Proof. ext. unfold log_binomial_coef_compute. rewrite lgamma_11_14. reflexivity. Qed.
Lemma erf_inv_11_14 : @erf_inv_begin Cxx11 = @erf_inv_begin Cxx14.
Proof.
  assert (D : @erf_inv_deriv_1 Cxx11 = @erf_inv_deriv_1 Cxx14).
  { ext. unfold erf_inv_deriv_1. rewrite exp_11_14. reflexivity. }
  assert (R : @erf_inv_recur Cxx11 = @erf_inv_recur Cxx14).
  { apply functional_extensionality_dep. intros f. apply functional_extensionality. intros n.
    induction n as [|n IH]; ext; [reflexivity|].
    cbn [erf_inv_recur]. rewrite IH, D, erf_11_14. reflexivity. }
  ext. unfold erf_inv_begin, erf_inv_initial_val, erf_inv_recur_begin.
  rewrite log_11_14, D, R. reflexivity.
Qed.
Lemma ib_11_14 : @incomplete_beta_check Cxx11 = @incomplete_beta_check Cxx14.
Proof.
  assert (B : @incomplete_beta_begin Cxx11 = @incomplete_beta_begin Cxx14).
  { ext. unfold incomplete_beta_begin. rewrite log_11_14, lbeta_11_14, exp_11_14. reflexivity. }
  ext. unfold incomplete_beta_check. rewrite B. reflexivity.
Qed.
Lemma tval_11_14 : @incml_inv_t_val Cxx11 = @incml_inv_t_val Cxx14.
Proof. ext. unfold incml_inv_t_val. rewrite log_11_14. reflexivity. Qed.
Lemma ibi_11_14 : @incomplete_beta_inv_check Cxx11 = @incomplete_beta_inv_check Cxx14.
Proof.
  assert (D : @incomplete_beta_inv_deriv_1 Cxx11 = @incomplete_beta_inv_deriv_1 Cxx14).
  { ext. unfold incomplete_beta_inv_deriv_1. rewrite log_11_14, exp_11_14. reflexivity. }
  assert (I : @incomplete_beta_inv_initial_val Cxx11 = @incomplete_beta_inv_initial_val Cxx14).
  { ext. unfold incomplete_beta_inv_initial_val, incomplete_beta_inv_initial_val_1, incomplete_beta_inv_initial_val_2,
      incomplete_beta_inv_s1, incomplete_beta_inv_s2.
    rewrite tval_11_14, exp_11_14, pow_11_14. reflexivity. }
  assert (R : @incomplete_beta_inv_recur Cxx11 = @incomplete_beta_inv_recur Cxx14).
  { apply functional_extensionality_dep. intros f. apply functional_extensionality. intros n.
    induction n as [|n IH]; ext; [reflexivity|].
    cbn [incomplete_beta_inv_recur]. rewrite IH, D, ib_11_14. reflexivity. }
  ext. unfold incomplete_beta_inv_check. rewrite I, lbeta_11_14, D, R. reflexivity.
Qed.
Lemma ig_11_14 : @incomplete_gamma_check Cxx11 = @incomplete_gamma_check Cxx14.
Proof.
  assert (R : @incomplete_gamma_quad_recur Cxx11 = @incomplete_gamma_quad_recur Cxx14).
  { apply functional_extensionality_dep. intros f. apply functional_extensionality. intros n.
    induction n as [|n IH]; ext; cbn [incomplete_gamma_quad_recur]; unfold incomplete_gamma_quad_fn;
    rewrite ?IH, log_11_14, exp_11_14; reflexivity. }
  ext. unfold incomplete_gamma_check, incomplete_gamma_cf_1, incomplete_gamma_cf_2, incomplete_gamma_quad.
  rewrite R, lgamma_11_14, log_11_14, exp_11_14. reflexivity.
Qed.
Lemma igi_11_14 : @incomplete_gamma_inv_check Cxx11 = @incomplete_gamma_inv_check Cxx14.
Proof.
  assert (D : @incomplete_gamma_inv_deriv_1 Cxx11 = @incomplete_gamma_inv_deriv_1 Cxx14).
  { ext. unfold incomplete_gamma_inv_deriv_1. rewrite log_11_14, exp_11_14. reflexivity. }
  assert (I : @incomplete_gamma_inv_initial_val Cxx11 = @incomplete_gamma_inv_initial_val Cxx14).
  { ext. unfold incomplete_gamma_inv_initial_val, incomplete_gamma_inv_initial_val_2.
    rewrite tval_11_14, log_11_14, pow_11_14. reflexivity. }
  assert (R : @incomplete_gamma_inv_recur Cxx11 = @incomplete_gamma_inv_recur Cxx14).
  { apply functional_extensionality_dep. intros f. apply functional_extensionality. intros n.
    induction n as [|n IH]; ext; [reflexivity|].
    cbn [incomplete_gamma_inv_recur]. rewrite IH, D, ig_11_14. reflexivity. }
  ext. unfold incomplete_gamma_inv_check. rewrite I, lgamma_11_14, D, R. reflexivity.
Qed.

(** ** Public functions *)
Lemma api_11_14_unary a :
  gcem_exp Cxx11 a = gcem_exp Cxx14 a /\ gcem_expm1 Cxx11 a = gcem_expm1 Cxx14 a /\
  gcem_log Cxx11 a = gcem_log Cxx14 a /\ gcem_log1p Cxx11 a = gcem_log1p Cxx14 a /\
  gcem_log2 Cxx11 a = gcem_log2 Cxx14 a /\ gcem_log10 Cxx11 a = gcem_log10 Cxx14 a /\
  gcem_sinh Cxx11 a = gcem_sinh Cxx14 a /\ gcem_cosh Cxx11 a = gcem_cosh Cxx14 a /\
  gcem_tanh Cxx11 a = gcem_tanh Cxx14 a /\ gcem_asinh Cxx11 a = gcem_asinh Cxx14 a /\
  gcem_acosh Cxx11 a = gcem_acosh Cxx14 a /\ gcem_atanh Cxx11 a = gcem_atanh Cxx14 a /\
  gcem_lgamma Cxx11 a = gcem_lgamma Cxx14 a /\ (forall n, gcem_tgamma Cxx11 n a = gcem_tgamma Cxx14 n a) /\
  gcem_erf Cxx11 a = gcem_erf Cxx14 a /\ gcem_erf_inv Cxx11 a = gcem_erf_inv Cxx14 a /\
  (forall n, gcem_factorial Cxx11 n a = gcem_factorial Cxx14 n a) /\
  (forall n p, gcem_lmgamma Cxx11 n a p = gcem_lmgamma Cxx14 n a p).
Proof.
  assert (L : gcem_log Cxx11 = gcem_log Cxx14) by (ext; unfold gcem_log; rewrite log_11_14; reflexivity).
  repeat match goal with |- _ /\ _ => split end; intros; unfold gcem_exp, gcem_expm1, gcem_log1p, gcem_log2, gcem_log10, gcem_sinh, gcem_cosh,
    gcem_tanh, gcem_asinh, gcem_acosh, gcem_atanh, gcem_lgamma, gcem_tgamma, gcem_erf, gcem_erf_inv, gcem_factorial,
    factorial_flt, gcem_lmgamma;
  rewrite ?exp_11_14, ?expm1_11_14, ?log1p_11_14, ?L, ?sinh_11_14, ?cosh_11_14, ?tanh_11_14, ?asinh_11_14, ?acosh_11_14,
    ?atanh_11_14, ?lgamma_11_14, ?tgamma_11_14, ?erf_11_14, ?erf_inv_11_14, ?lmgamma_11_14; reflexivity.
Qed.
Lemma api_11_14_multi a b c :
  gcem_pow Cxx11 a b = gcem_pow Cxx14 a b /\ gcem_lbeta Cxx11 a b = gcem_lbeta Cxx14 a b /\
  gcem_beta Cxx11 a b = gcem_beta Cxx14 a b /\
  gcem_log_binomial_coef Cxx11 a b = gcem_log_binomial_coef Cxx14 a b /\
  gcem_incomplete_gamma Cxx11 a b = gcem_incomplete_gamma Cxx14 a b /\
  gcem_incomplete_gamma_inv Cxx11 a b = gcem_incomplete_gamma_inv Cxx14 a b /\
  gcem_incomplete_beta Cxx11 a b c = gcem_incomplete_beta Cxx14 a b c /\
  gcem_incomplete_beta_inv Cxx11 a b c = gcem_incomplete_beta_inv Cxx14 a b c.
Proof.
  assert (B : gcem_lbeta Cxx11 = gcem_lbeta Cxx14).
  { ext. unfold gcem_lbeta, gcem_lgamma. rewrite lgamma_11_14. reflexivity. }
  repeat match goal with |- _ /\ _ => split end; unfold gcem_pow, gcem_beta, gcem_log_binomial_coef, gcem_incomplete_gamma, gcem_incomplete_gamma_inv,
    gcem_incomplete_beta, gcem_incomplete_beta_inv;
  rewrite ?B, ?pow_dbl_11_14, ?exp_11_14, ?lbc_11_14, ?ig_11_14, ?igi_11_14, ?ib_11_14, ?ibi_11_14; reflexivity.
Qed.
Lemma api_11_14_atan f (x : flt f) : (Babs x <=. dlit f 25 1) = true ->
  gcem_atan Cxx11 (AFlt f x) = gcem_atan Cxx14 (AFlt f x).
Proof.
  intros H. change (atan_check Cxx11 x = atan_check Cxx14 x).
  assert (C : finite (dlit f 25 1) = true) by (destruct f; reflexivity).
  assert (G : forall y, (y = x \/ y = -. x) -> (dlit f 25 1 <. y) = false).
  { intros y Hy. assert (F : finite y = true).
    { assert (finite (Babs x) = true). { destruct x as [s|[]| |s m e B]; auto; destruct f; discriminate. }
      rewrite is_finite_Babs in H0. destruct Hy; subst; auto. rewrite fneg_finite. auto. }
    apply flt_false; auto.
    apply fle_true_inv in H; auto.
    - rewrite B2R_Babs in H. eapply Rle_trans; [|apply H].
      destruct Hy; subst; [|rewrite fneg_B2R, <- Rabs_Ropp]; apply Rle_abs.
    - rewrite is_finite_Babs. destruct Hy; subst; auto. rewrite fneg_finite in F. auto. }
  unfold atan_check, atan_begin. rewrite !G by auto. rewrite !atan_cf_main_11_14. reflexivity.
Qed.
