(** * NaN propagation, domain errors, limits *)
From Coq Require Import Lra Psatz.
From Verif Require Import Base ModelBasic ModelInt ModelElem ModelSpecial ModelApi FltLemmas ConvLemmas Spec IntProofs BasicProofs SymLemmas ScaleProofs TotalProofs ExpTotal.
Open Scope R_scope.

Notation nan_ f := (B754_nan : flt f).

(** ** Comparisons with constants *)
Lemma below_lt {f} (x c : flt f) : finite c = true -> below x (B2R c) -> (x <. c) = true.
Proof.
  intros Fc H. destruct x as [s|s| |s m e E]; cbn [below] in H; try tauto.
  - apply flt_true; auto.
  - subst. destruct c; try discriminate; reflexivity.
  - apply flt_true; auto.
Qed.
Lemma above_lt {f} (x c : flt f) : finite c = true -> above x (B2R c) -> (c <. x) = true.
Proof.
  intros Fc H. destruct x as [s|s| |s m e E]; cbn [above] in H; try tauto.
  - apply flt_true; auto.
  - subst. destruct c as [[]| | |[]]; try discriminate; reflexivity.
  - apply flt_true; auto.
Qed.
Lemma below_ofZ {f} (x : flt f) z : (Z.abs z <= 16777216)%Z -> below x (IZR z) -> (x <. ofZ f z) = true.
Proof. intros Hz H. apply below_lt; [apply ofZ_fin; auto|rewrite ofZ_B2R; auto]. Qed.
Lemma above_ofZ {f} (x : flt f) z : (Z.abs z <= 16777216)%Z -> above x (IZR z) -> (ofZ f z <. x) = true.
Proof. intros Hz H. apply above_lt; [apply ofZ_fin; auto|rewrite ofZ_B2R; auto]. Qed.
Lemma below_neg {f} (x : flt f) r : below x r -> above (-. x) (- r).
Proof.
  destruct x as [s|s| |s m e E]; cbn [below]; intros H; try tauto.
  - unfold fneg, Bopp, above. cbn [B2R] in * . lra.
  - subst. reflexivity.
  - unfold fneg. rewrite <- (B2R_Bopp (B754_finite s m e E)) || idtac.
    change (- r < B2R (-. (B754_finite s m e E : flt f))). rewrite fneg_B2R. lra.
Qed.
Lemma above_neg {f} (x : flt f) r : above x r -> below (-. x) (- r).
Proof.
  destruct x as [s|s| |s m e E]; cbn [above]; intros H; try tauto.
  - unfold fneg, Bopp, below. cbn [B2R] in * . lra.
  - subst. reflexivity.
  - change (B2R (-. (B754_finite s m e E : flt f)) < - r). rewrite fneg_B2R. lra.
Qed.
Lemma below_not_nan {f} (x : flt f) r : below x r -> is_nan x = false.
Proof. rewrite is_nan_spec. destruct x; cbn; tauto. Qed.
Lemma above_not_nan {f} (x : flt f) r : above x r -> is_nan x = false.
Proof. rewrite is_nan_spec. destruct x; cbn; tauto. Qed.
Lemma below_trans {f} (x : flt f) r q : below x r -> r <= q -> below x q.
Proof. destruct x; cbn [below]; intros; try tauto; eauto using Rlt_le_trans, Rle_lt_trans. Qed.
Lemma above_trans {f} (x : flt f) r q : above x r -> q <= r -> above x q.
Proof. destruct x; cbn [above]; intros; try tauto; eauto using Rlt_le_trans, Rle_lt_trans. Qed.
Lemma below_not_above {f} (x c : flt f) : finite c = true -> below x (B2R c) -> (c <. x) = false.
Proof.
  intros Fc H. destruct x as [s|s| |s m e E]; cbn [below] in H; try tauto.
  - apply flt_false; auto. apply Rlt_le, H.
  - subst. destruct c as [[]| | |[]]; try discriminate; reflexivity.
  - apply flt_false; auto. apply Rlt_le, H.
Qed.
Lemma above_not_below {f} (x c : flt f) : finite c = true -> above x (B2R c) -> (x <. c) = false.
Proof.
  intros Fc H. destruct x as [s|s| |s m e E]; cbn [above] in H; try tauto.
  - apply flt_false; auto. apply Rlt_le, H.
  - subst. destruct c as [[]| | |[]]; try discriminate; reflexivity.
  - apply flt_false; auto. apply Rlt_le, H.
Qed.
Lemma above_abs {f} (x : flt f) r : 0 <= r -> above x r \/ below x (- r) -> above (abs x) r.
Proof.
  intros Hr H. rewrite abs_Babs. destruct x as [s|s| |s m e E]; cbn [above below] in H.
  - cbn [B2R] in H. lra.
  - reflexivity.
  - tauto.
  - change (r < B2R (Babs (B754_finite s m e E : flt f))). rewrite B2R_Babs.
    destruct H; unfold Rabs; destruct (Rcase_abs _); lra.
Qed.
Lemma tiny_lt {f} (x : flt f) : tiny x -> (abs x <. fmin f) = true.
Proof. intros (F & H). rewrite below_min by auto. apply Rlt_bool_true; auto. Qed.
Lemma tiny_zero f s : tiny (B754_zero s : flt f).
Proof. split; auto. cbn. rewrite Rabs_R0. apply bpow_gt_0. Qed.
Lemma tiny_not_nan {f} (x : flt f) : tiny x -> is_nan x = false.
Proof. intros (F & _). apply finite_not_nan; auto. Qed.
Lemma tiny_lt' {f} (x : flt f) : tiny x -> (x <. fmin f) = true.
Proof.
  intros (F & H). destruct (fmin_spec f) as (E & Fm). apply flt_true; auto. rewrite E.
  apply Rle_lt_trans with (Rabs (B2R x)); auto. apply Rle_abs.
Qed.
Lemma one_val f : has_val (ofZ f 1) 1.
Proof. split; [apply ofZ_fin; lia|apply ofZ_B2R; lia]. Qed.
Lemma zero_val f : has_val (ofZ f 0) 0.
Proof. split; [apply ofZ_fin; lia|apply ofZ_B2R; lia]. Qed.
Lemma val_one {f} (x : flt f) : has_val x 1 -> x = ofZ f 1.
Proof. intros (F & E). destruct (one_val f) as (F1 & E1). apply flt_inj_nz; auto; lra. Qed.
Lemma val_ofZ {f} (x : flt f) z : (Z.abs z <= 16777216)%Z -> z <> 0%Z -> has_val x (IZR z) -> x = ofZ f z.
Proof.
  intros Hz Nz (F & E). apply flt_inj_nz; auto; [apply ofZ_fin; auto|rewrite ofZ_B2R; auto|].
  rewrite E. apply not_0_IZR. auto.
Qed.

(** ** NaN propagation *)
Ltac nant := intros; cbn; rewrite ?is_nan_nan; reflexivity.
Section Nan.
Context (v : cxx).
Lemma conv_nan f g : conv g (nan_ f) = nan_ g. Proof. reflexivity. Qed.
Lemma floor_nan f : floor_check (nan_ f) = Ok (nan_ f). Proof. unfold floor_check. rewrite (@is_nan_nan f). reflexivity. Qed.
Lemma ceil_nan f : ceil_check (nan_ f) = Ok (nan_ f). Proof. unfold ceil_check. rewrite (@is_nan_nan f). reflexivity. Qed.
Lemma trunc_nan f : trunc_check (nan_ f) = Ok (nan_ f). Proof. unfold trunc_check. rewrite (@is_nan_nan f). reflexivity. Qed.
Lemma round_nan f : round_check (nan_ f) = Ok (nan_ f). Proof. unfold round_check. rewrite (@is_nan_nan f). reflexivity. Qed.
Lemma sqrt_nan f : sqrt_check (nan_ f) = Ok (nan_ f). Proof. unfold sqrt_check. rewrite (@is_nan_nan f). reflexivity. Qed.
Lemma inv_sqrt_nan f : inv_sqrt_check (nan_ f) = Ok (nan_ f). Proof. unfold inv_sqrt_check. rewrite (@is_nan_nan f). reflexivity. Qed.
Lemma exp_nan f : exp_check v (nan_ f) = Ok (nan_ f). Proof. unfold exp_check. rewrite (@is_nan_nan f). reflexivity. Qed.
Lemma expm1_nan f : expm1_check v (nan_ f) = Ok (nan_ f). Proof. unfold expm1_check. rewrite (@is_nan_nan f). reflexivity. Qed.
Lemma log_nan f : log_check v (nan_ f) = Ok (nan_ f). Proof. unfold log_check. rewrite (@is_nan_nan f). reflexivity. Qed.
Lemma log1p_nan f : log1p_check v (nan_ f) = Ok (nan_ f). Proof. unfold log1p_check. rewrite (@is_nan_nan f). reflexivity. Qed.
Lemma tan_nan f : tan_check (nan_ f) = Ok (nan_ f). Proof. unfold tan_check. rewrite (@is_nan_nan f). reflexivity. Qed.
Lemma sin_nan f : sin_check (nan_ f) = Ok (nan_ f). Proof. unfold sin_check. rewrite (@is_nan_nan f). reflexivity. Qed.
Lemma cos_nan f : cos_check (nan_ f) = Ok (nan_ f). Proof. unfold cos_check. rewrite (@is_nan_nan f). reflexivity. Qed.
Lemma atan_nan f : atan_check v (nan_ f) = Ok (nan_ f). Proof. unfold atan_check. rewrite (@is_nan_nan f). reflexivity. Qed.
Lemma asin_nan f : asin_check v (nan_ f) = Ok (nan_ f). Proof. unfold asin_check. rewrite (@is_nan_nan f). reflexivity. Qed.
Lemma acos_nan f : acos_check v (nan_ f) = Ok (nan_ f). Proof. unfold acos_check. rewrite (@is_nan_nan f). reflexivity. Qed.
Lemma sinh_nan f : sinh_check v (nan_ f) = Ok (nan_ f). Proof. unfold sinh_check. rewrite (@is_nan_nan f). reflexivity. Qed.
Lemma cosh_nan f : cosh_compute v (nan_ f) = Ok (nan_ f). Proof. unfold cosh_compute. rewrite (@is_nan_nan f). reflexivity. Qed.
Lemma tanh_nan f : tanh_check v (nan_ f) = Ok (nan_ f). Proof. unfold tanh_check. rewrite (@is_nan_nan f). reflexivity. Qed.
Lemma asinh_nan f : asinh_compute v (nan_ f) = Ok (nan_ f). Proof. unfold asinh_compute. rewrite (@is_nan_nan f). reflexivity. Qed.
Lemma acosh_nan f : acosh_compute v (nan_ f) = Ok (nan_ f). Proof. unfold acosh_compute. rewrite (@is_nan_nan f). reflexivity. Qed.
Lemma atanh_nan f : atanh_check v (nan_ f) = Ok (nan_ f). Proof. unfold atanh_check. rewrite (@is_nan_nan f). reflexivity. Qed.
Lemma lgamma_nan f : lgamma_check v (nan_ f) = Ok (nan_ f). Proof. unfold lgamma_check. rewrite (@is_nan_nan f). reflexivity. Qed.
Lemma tgamma_nan f n : tgamma_check v (S n) (nan_ f) = Ok (nan_ f). Proof. cbn [tgamma_check]. rewrite (@is_nan_nan f). reflexivity. Qed.
Lemma erf_nan f : erf_check v (nan_ f) = Ok (nan_ f). Proof. unfold erf_check. rewrite (@is_nan_nan f). reflexivity. Qed.
Lemma erf_inv_nan f : erf_inv_begin v (nan_ f) = Ok (nan_ f). Proof. unfold erf_inv_begin. rewrite (@is_nan_nan f). reflexivity. Qed.
Lemma lmgamma_nan f n p : lmgamma_recur v (S n) (nan_ f) p = Ok (nan_ f). Proof. cbn [lmgamma_recur]. rewrite (@is_nan_nan f). reflexivity. Qed.
Lemma fmod_nan f (x : flt f) : fmod_check (nan_ f) x = Ok (nan_ f) /\ fmod_check x (nan_ f) = Ok (nan_ f).
Proof. unfold fmod_check, any_nan. rewrite (@is_nan_nan f), orb_true_r. split; reflexivity. Qed.
Lemma hypot_nan f (x : flt f) : hypot_vals_check (nan_ f) x = Ok (nan_ f) /\ hypot_vals_check x (nan_ f) = Ok (nan_ f).
Proof. unfold hypot_vals_check, any_nan. rewrite (@is_nan_nan f), orb_true_r. split; reflexivity. Qed.
Lemma atan2_nan f (x : flt f) : atan2_compute v (nan_ f) x = Ok (nan_ f) /\ atan2_compute v x (nan_ f) = Ok (nan_ f).
Proof. unfold atan2_compute, any_nan. rewrite (@is_nan_nan f), orb_true_r. split; reflexivity. Qed.
Lemma ig_nan f (x : flt f) : incomplete_gamma_check v (nan_ f) x = Ok (nan_ f) /\ incomplete_gamma_check v x (nan_ f) = Ok (nan_ f).
Proof. unfold incomplete_gamma_check, any_nan. rewrite (@is_nan_nan f), orb_true_r. split; reflexivity. Qed.
Lemma igi_nan f (x : flt f) : incomplete_gamma_inv_check v (nan_ f) x = Ok (nan_ f) /\ incomplete_gamma_inv_check v x (nan_ f) = Ok (nan_ f).
Proof. unfold incomplete_gamma_inv_check, any_nan. rewrite (@is_nan_nan f), orb_true_r. split; reflexivity. Qed.
Lemma ib_nan f (x y : flt f) : incomplete_beta_check v (nan_ f) x y = Ok (nan_ f) /\ incomplete_beta_check v x (nan_ f) y = Ok (nan_ f)
  /\ incomplete_beta_check v x y (nan_ f) = Ok (nan_ f).
Proof. unfold incomplete_beta_check, any_nan3. rewrite (@is_nan_nan f), !orb_true_r, orb_true_l. repeat split; reflexivity. Qed.
Lemma ibi_nan f (x y : flt f) : incomplete_beta_inv_check v (nan_ f) x y = Ok (nan_ f) /\ incomplete_beta_inv_check v x (nan_ f) y = Ok (nan_ f)
  /\ incomplete_beta_inv_check v x y (nan_ f) = Ok (nan_ f).
Proof. unfold incomplete_beta_inv_check, any_nan3. rewrite (@is_nan_nan f), !orb_true_r, orb_true_l. repeat split; reflexivity. Qed.
Lemma lbc_nan f (x : flt f) : log_binomial_coef_compute v (nan_ f) x = Ok (nan_ f) /\ log_binomial_coef_compute v x (nan_ f) = Ok (nan_ f).
Proof.
  unfold log_binomial_coef_compute. rewrite ?fadd_nan_l, ?fsub_nan_l, ?fsub_nan_r, ?fadd_nan_l, lgamma_nan. cbn [bind].
  split.
  - destruct (lgamma_ok v (x +. ofZ f 1)) as [w ->]. cbn [bind]. rewrite fsub_nan_l. reflexivity.
  - destruct (lgamma_ok v (x +. ofZ f 1)) as [w ->]. cbn [bind]. rewrite fadd_nan_l, fsub_nan_r. reflexivity.
Qed.
Lemma pow_dbl_nan f (x : flt f) : pow_dbl v (nan_ f) x = Ok (nan_ f) /\ pow_dbl v x (nan_ f) = Ok (nan_ f).
Proof.
  unfold pow_dbl. rewrite log_nan. destruct (log_ok v x) as [w ->]. cbn [bind].
  rewrite fmul_nan_l, fmul_nan_r, exp_nan. auto.
Qed.

Lemma api_nan_unary f n p :
  gcem_floor (AFlt f (nan_ f)) = Ok (nan_ f) /\ gcem_ceil (AFlt f (nan_ f)) = Ok (nan_ f) /\
  gcem_trunc (AFlt f (nan_ f)) = Ok (nan_ f) /\ gcem_round (AFlt f (nan_ f)) = Ok (nan_ f) /\
  gcem_sqrt (AFlt f (nan_ f)) = Ok (nan_ f) /\ gcem_inv_sqrt (AFlt f (nan_ f)) = Ok (nan_ f) /\
  gcem_exp v (AFlt f (nan_ f)) = Ok (nan_ f) /\ gcem_expm1 v (AFlt f (nan_ f)) = Ok (nan_ f) /\
  gcem_log v (AFlt f (nan_ f)) = Ok (nan_ f) /\ gcem_log1p v (AFlt f (nan_ f)) = Ok (nan_ f) /\
  gcem_log2 v (AFlt f (nan_ f)) = Ok (nan_ f) /\ gcem_log10 v (AFlt f (nan_ f)) = Ok (nan_ f) /\
  gcem_tan (AFlt f (nan_ f)) = Ok (nan_ f) /\ gcem_sin (AFlt f (nan_ f)) = Ok (nan_ f) /\ gcem_cos (AFlt f (nan_ f)) = Ok (nan_ f) /\
  gcem_atan v (AFlt f (nan_ f)) = Ok (nan_ f) /\ gcem_asin v (AFlt f (nan_ f)) = Ok (nan_ f) /\ gcem_acos v (AFlt f (nan_ f)) = Ok (nan_ f) /\
  gcem_sinh v (AFlt f (nan_ f)) = Ok (nan_ f) /\ gcem_cosh v (AFlt f (nan_ f)) = Ok (nan_ f) /\ gcem_tanh v (AFlt f (nan_ f)) = Ok (nan_ f) /\
  gcem_asinh v (AFlt f (nan_ f)) = Ok (nan_ f) /\ gcem_acosh v (AFlt f (nan_ f)) = Ok (nan_ f) /\ gcem_atanh v (AFlt f (nan_ f)) = Ok (nan_ f) /\
  gcem_lgamma v (AFlt f (nan_ f)) = Ok (nan_ f) /\ gcem_tgamma v (S n) (AFlt f (nan_ f)) = Ok (nan_ f) /\
  gcem_factorial v (S n) (AFlt f (nan_ f)) = Ok (AFlt f (nan_ f)) /\
  gcem_lmgamma v (S n) (AFlt f (nan_ f)) p = Ok (nan_ f) /\
  gcem_erf v (AFlt f (nan_ f)) = Ok (nan_ f) /\ gcem_erf_inv v (AFlt f (nan_ f)) = Ok (nan_ f).
Proof.
  repeat match goal with |- _ /\ _ => split end.
  all: first [apply floor_nan|apply ceil_nan|apply trunc_nan|apply round_nan|apply sqrt_nan|apply inv_sqrt_nan|apply exp_nan|apply expm1_nan
   |apply log_nan|apply log1p_nan|apply tan_nan|apply sin_nan|apply cos_nan|apply atan_nan|apply asin_nan|apply acos_nan|apply sinh_nan|apply cosh_nan
   |apply tanh_nan|apply asinh_nan|apply acosh_nan|apply atanh_nan|apply lgamma_nan|apply tgamma_nan|apply lmgamma_nan|apply erf_nan|apply erf_inv_nan|idtac].
  unfold gcem_factorial, factorial_flt. rewrite fadd_nan_l, tgamma_nan. reflexivity.
Qed.

Lemma to_fmt_nan f g : to_fmt g (AFlt f (nan_ f)) = nan_ g. Proof. reflexivity. Qed.
Lemma lgamma_arg_ok a : ok (gcem_lgamma v a). Proof. apply lgamma_ok. Qed.
Lemma lbeta_nan_l f (a : arg) : gcem_lbeta v (AFlt f (nan_ f)) a = Ok (nan_ _).
Proof.
  unfold gcem_lbeta. change (gcem_lgamma v (AFlt f (nan_ f))) with (lgamma_check v (nan_ f)). rewrite lgamma_nan. cbn [bind].
  destruct (lgamma_arg_ok a) as [w ->]. cbn [bind].
  assert (E : arg_add (AFlt f (nan_ f)) a = Ok (AFlt (cr_fmt (AFlt f (nan_ f)) a) (nan_ _))).
  { destruct a; unfold arg_add; rewrite to_fmt_nan, fadd_nan_l; reflexivity. }
  rewrite E. cbn [bind]. match goal with |- context[gcem_lgamma v ?q] => destruct (lgamma_arg_ok q) as [z ->] end. cbn [bind].
  try (f_equal; rewrite conv_nan, fadd_nan_l, conv_nan, fsub_nan_l; reflexivity).
Qed.
Lemma lbeta_nan_r f (a : arg) : gcem_lbeta v a (AFlt f (nan_ f)) = Ok (nan_ _).
Proof.
  unfold gcem_lbeta. destruct (lgamma_arg_ok a) as [w ->]. cbn [bind].
  change (gcem_lgamma v (AFlt f (nan_ f))) with (lgamma_check v (nan_ f)). rewrite lgamma_nan. cbn [bind].
  assert (E : arg_add a (AFlt f (nan_ f)) = Ok (AFlt (cr_fmt a (AFlt f (nan_ f))) (nan_ _))).
  { destruct a; unfold arg_add; rewrite to_fmt_nan, fadd_nan_r; reflexivity. }
  rewrite E. cbn [bind]. match goal with |- context[gcem_lgamma v ?q] => destruct (lgamma_arg_ok q) as [z ->] end. cbn [bind].
  f_equal. match goal with |- context[?p +. conv ?g ?q] => change (conv g q) with (nan_ g); rewrite (fadd_nan_r p) end. reflexivity.
Qed.
Lemma pow_arg_nan f (a : arg) : gcem_pow v a (AFlt f (nan_ f)) = Ok (AFlt _ (nan_ (cr_fmt a (AFlt f (nan_ f))))).
Proof.
  unfold gcem_pow. rewrite to_fmt_nan, (proj2 (pow_dbl_nan _ _)).
  destruct a; cbv zeta; destruct (_ : bool); reflexivity.
Qed.
Lemma pow_nan_arg f g (x : flt g) : gcem_pow v (AFlt f (nan_ f)) (AFlt g x) = Ok (AFlt _ (nan_ (fmt_max f g))).
Proof.
  unfold gcem_pow. rewrite to_fmt_nan, (proj1 (pow_dbl_nan _ _)), flt_nan_l. reflexivity.
Qed.
Lemma api_nan_multi f (a b : arg) :
  let n := AFlt f (nan_ f) in
  gcem_fmod n a = Ok (nan_ _) /\ gcem_fmod a n = Ok (nan_ _) /\
  gcem_hypot n a = Ok (nan_ _) /\ gcem_hypot a n = Ok (nan_ _) /\
  gcem_atan2 v n a = Ok (nan_ _) /\ gcem_atan2 v a n = Ok (nan_ _) /\
  gcem_lbeta v n a = Ok (nan_ _) /\ gcem_lbeta v a n = Ok (nan_ _) /\
  gcem_beta v n a = Ok (nan_ _) /\ gcem_beta v a n = Ok (nan_ _) /\
  gcem_log_binomial_coef v n a = Ok (nan_ _) /\ gcem_log_binomial_coef v a n = Ok (nan_ _) /\
  gcem_pow v a n = Ok (AFlt (cr_fmt a n) (nan_ _)) /\
  gcem_incomplete_gamma v n a = Ok (nan_ _) /\ gcem_incomplete_gamma v a n = Ok (nan_ _) /\
  gcem_incomplete_gamma_inv v n a = Ok (nan_ _) /\ gcem_incomplete_gamma_inv v a n = Ok (nan_ _) /\
  gcem_incomplete_beta v n a b = Ok (nan_ _) /\ gcem_incomplete_beta v a n b = Ok (nan_ _) /\ gcem_incomplete_beta v a b n = Ok (nan_ _) /\
  gcem_incomplete_beta_inv v n a b = Ok (nan_ _) /\ gcem_incomplete_beta_inv v a n b = Ok (nan_ _) /\ gcem_incomplete_beta_inv v a b n = Ok (nan_ _).
Proof.
  cbv zeta. repeat match goal with |- _ /\ _ => split end;
  unfold gcem_fmod, gcem_hypot, gcem_atan2, gcem_log_binomial_coef, gcem_incomplete_gamma, gcem_incomplete_gamma_inv,
    gcem_incomplete_beta, gcem_incomplete_beta_inv, lift2, lift3; rewrite ?to_fmt_nan.
  all: first [apply (fun f x => proj1 (fmod_nan f x))|apply (fun f x => proj2 (fmod_nan f x))
   |apply (fun f x => proj1 (hypot_nan f x))|apply (fun f x => proj2 (hypot_nan f x))
   |apply (fun f x => proj1 (atan2_nan f x))|apply (fun f x => proj2 (atan2_nan f x))
   |apply (fun f x => proj1 (ig_nan f x))|apply (fun f x => proj2 (ig_nan f x))
   |apply (fun f x => proj1 (igi_nan f x))|apply (fun f x => proj2 (igi_nan f x))
   |apply (fun f x => proj1 (lbc_nan f x))|apply (fun f x => proj2 (lbc_nan f x))
   |apply (fun f x y => proj1 (ib_nan f x y))|apply (fun f x y => proj1 (proj2 (ib_nan f x y)))|apply (fun f x y => proj2 (proj2 (ib_nan f x y)))
   |apply (fun f x y => proj1 (ibi_nan f x y))|apply (fun f x y => proj1 (proj2 (ibi_nan f x y)))|apply (fun f x y => proj2 (proj2 (ibi_nan f x y)))
   |apply lbeta_nan_l|apply lbeta_nan_r|apply pow_arg_nan|idtac].
  - unfold gcem_beta. rewrite lbeta_nan_l. apply exp_nan.
  - unfold gcem_beta. rewrite lbeta_nan_r. apply exp_nan.
Qed.
End Nan.
