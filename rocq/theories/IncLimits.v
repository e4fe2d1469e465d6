(** * incomplete_gamma and tgamma at large arguments *)
From Verif Require Import Base ModelBasic ModelInt ModelElem ModelSpecial ModelApi FltLemmas Spec SpecGamma IntProofs BasicProofs ConvLemmas MiscProofs EdgeProofs ExpTotal ExpAcc.
From Coq Require Import Lra Psatz.
From Coquelicot Require Import Coquelicot.
From Verif Require Import Base ModelBasic FPErr LogAcc SinAcc GammaInt GammaAcc TgammaAcc GammaApi BetaAcc RoundTrip LogExpLaws.
From Verif Require Import Base ModelBasic ModelInt ModelElem ModelSpecial ModelApi ScaleProofs EdgeProofs TotalProofs ExpTotal LimitProofs.
From Interval Require Import Tactic.
Open Scope R_scope.

(** ** z = infinity *)
Lemma ig_inf v f (a : flt f) : finite a = true -> bpow radix2 (2 - emax f) <= B2R a -> incomplete_gamma_check v a (B754_infinity false) = Ok B754_nan.
Proof.
  intros F A. assert (B0 := bpow_gt_0 radix2 (2 - emax f)). destruct (fmin_spec f) as (Vm & Fm). destruct (ofZ_small f 0 ltac:(lia)) as (V0 & F0 & _).
  assert (G1 : (a <. ofZ f 0) = false) by (apply flt_false; auto; rewrite V0; lra). assert (G2 : (a <. fmin f) = false) by (apply flt_false; auto; lra).
  assert (N : is_nan a = false) by (apply finite_not_nan; auto).
  unfold incomplete_gamma_check. unfold any_nan. rewrite N, G1, G2. 
  destruct a as [s|s| |s m e Hb]; try discriminate. { exfalso. assert (Q : B2R (B754_zero s : flt f) = 0) by reflexivity. rewrite Q in A. lra. }
  destruct s. { exfalso. assert (Q : B2R (B754_finite true m e Hb : flt f) < 0) by (apply F2R_lt_0; reflexivity). lra. }
  set (x := B754_finite false m e Hb : flt f) in * . assert (D : (B754_infinity false : flt f) -. x = B754_infinity false) by reflexivity. assert (Q : (B754_infinity false : flt f) /. x = B754_infinity false) by reflexivity. rewrite D, Q.
  assert (C1 : ((B754_infinity false : flt f) <. ofZ f 10) = false) by (destruct f; reflexivity). assert (C2 : (ofZ f 3 <. (B754_infinity false : flt f)) = true) by (destruct f; vm_compute; reflexivity). assert (C3 : ((B754_infinity false : flt f) <. fmin f) = false) by (destruct f; reflexivity). assert (C4 : is_nan (B754_infinity false : flt f) = false) by (destruct f; reflexivity). 
  rewrite C1, C2, C3, C4, andb_false_r, orb_true_r. cbn [orb]. unfold incomplete_gamma_cf_2.
  assert (L : log_check v (B754_infinity false : flt f) = Ok (B754_infinity false)) by (destruct v, f; vm_compute; reflexivity). rewrite L. cbn [bind]. destruct (lgamma_ok v x) as [lg El]. rewrite El. cbn [bind].
  assert (M : x *. (B754_infinity false : flt f) -. B754_infinity false = B754_nan) by reflexivity. rewrite M. change (B754_nan : flt f) with (nan_ f). rewrite fsub_nan_l, exp_nan. cbn [bind]. rewrite fdiv_nan_l, fsub_nan_r. reflexivity.
Qed.
Lemma api_ig_inf : forall v f (a : flt f), finite a = true -> bpow radix2 (2 - emax f) <= B2R a -> 
  rmap (AFlt _) (gcem_incomplete_gamma v (AFlt f a) (AFlt f (B754_infinity false))) = Ok (AFlt f B754_nan).
Proof. intros v f a F A. assert (E := ig_inf v f a F A). destruct f; unfold gcem_incomplete_gamma, lift2; cbn [cr_fmt to_fmt fmt_max]; rewrite !conv_id, E; reflexivity. Qed.
(** The probability 1 is mapped to infinity by the inverse, which does not come back *)
Lemma ig_inv_one : forall v f (a p : flt f), finite a = true -> bpow radix2 (2 - emax f) <= B2R a -> has_val p 1 ->
  exists w, rmap (AFlt _) (gcem_incomplete_gamma_inv v (AFlt f a) (AFlt f p)) = Ok (AFlt f w) /\ rmap (AFlt _) (gcem_incomplete_gamma v (AFlt f a) (AFlt f w)) = Ok (AFlt f B754_nan).
Proof.
  intros v f a p F A P. exists (B754_infinity false). split; [|apply api_ig_inf; auto]. assert (N : is_nan a = false) by (apply finite_not_nan; auto).
  assert (E := proj1 (proj2 (api_inverse_edges v f a a p N N) P)). destruct f; rewrite E; reflexivity.
Qed.
(** ** Large finite z *)
Lemma ig_big v f (a z : flt f) : finite a = true -> / 2 <= B2R a <= 9 -> finite z = true -> 10000000000000000000 <= B2R z <= 18000000000000000000 -> incomplete_gamma_check v a z = Ub UbCast.
Proof.
  intros Fa A Fz Z. destruct (uf_sm f) as (U0 & U1). destruct (fmin_spec f) as (Vm & Fm). assert (S := ScaleProofs.fmin_small f). destruct (ofZ_small f 0 ltac:(lia)) as (V0 & F0 & _). destruct (ofZ_small f 10 ltac:(lia)) as (V10 & F10 & _).
  destruct (log_f v f z Fz ltac:(lra)) as (l & El & Fl & Rl). assert (El' : log_check v z = Ok l) by exact El.
  assert (G : exists lg : flt f, gcem_lgamma v (AFlt f a) = Ok lg /\ finite lg = true /\ abs_err (B2R lg) (ln (Gamma (B2R a))) ((14 * B2R a * ln (B2R a + 5) + 54) * uf f + (B2R a + 3) * bpow radix2 (-54))) by (apply (api_lgamma v f a Fa); change (bpow radix2 55) with 36028797018963968; lra).
  destruct G as (lg & Eg & Fg & Rg). assert (Eg' : lgamma_check v a = Ok lg) by exact Eg.
  assert (Lz : 40 <= ln (B2R z) <= 445 / 10). { split. apply Rle_trans with (ln 10000000000000000000). interval. apply ln_le; lra. apply Rle_trans with (ln 18000000000000000000). apply ln_le; lra. interval. }
  assert (Bl : Rabs (B2R l) <= 45). { unfold rel_err in Rl. rewrite (Rabs_pos_eq (ln _)) in Rl by lra. assert (56 / 10 * uf f * ln (B2R z) <= 56 / 10 * / 16777216 * (445 / 10)) by (apply Rmult_le_compat; lra). apply Rabs_le_inv in Rl. apply Rabs_le. lra. }
  assert (Bg : Rabs (B2R lg) <= 30). { destruct (lnGamma_size (B2R a) ltac:(lra)) as (S1 & S2). assert (La : 0 <= ln (B2R a + 5) <= 27 / 10). { split. rewrite <- ln_1. apply ln_le; lra. apply Rle_trans with (ln 14). apply ln_le; lra. interval. } assert (P : 0 <= B2R a * ln (B2R a + 5) <= 243 / 10). { split. apply Rmult_le_pos; lra. apply Rle_trans with (9 * (27 / 10)). apply Rmult_le_compat; lra. lra. }
    assert (b := bpow_gt_0 radix2 (-54)). assert (b' : bpow radix2 (-54) <= / 1000000000) by (cbn; lra). assert (Q1 : (14 * B2R a * ln (B2R a + 5) + 54) * uf f <= 400 * / 16777216) by (apply Rmult_le_compat; lra). assert (Q2 : (B2R a + 3) * bpow radix2 (-54) <= 12 * / 1000000000) by (apply Rmult_le_compat; lra). unfold abs_err in Rg. apply Rabs_le_inv in Rg. apply Rabs_le. lra. }
  assert (tt := bpow_gt_0 radix2 (-100)). assert (tt' : bpow radix2 (-100) <= 1) by (change 1 with (bpow radix2 0); apply bpow_le; lia). assert (ut : uf f * bpow radix2 (-100) <= / 16777216 * 1) by (apply Rmult_le_compat; lra).
  assert (RS : forall y M, Rabs y <= M -> Rabs (rnd f y - y) <= / 16777216 * M + / 16777216). { intros y M HM. apply Rle_trans with (1 := rnd_small f y). assert (uf f * Rabs y <= / 16777216 * M) by (apply Rmult_le_compat; try lra; apply Rabs_pos). lra. }
  assert (M1 : Rabs (B2R a * B2R l) <= 405). { rewrite Rabs_mult, (Rabs_pos_eq (B2R a)) by lra. apply Rle_trans with (9 * 45). apply Rmult_le_compat; try lra. apply Rabs_pos. lra. }
  destruct (op_mul a l Fa Fl ltac:(lra)) as (F1 & V1). assert (R1 := Rabs_le_inv _ _ (RS _ _ M1)). rewrite <- V1 in R1. apply Rabs_le_inv in M1.
  assert (M2 : Rabs (B2R (a *. l) - B2R z) <= 18000000000000000500) by (apply Rabs_le; lra). destruct (op_sub (a *. l) z F1 Fz ltac:(lra)) as (F2 & V2). assert (R2 := Rabs_le_inv _ _ (RS _ _ M2)). rewrite <- V2 in R2. apply Rabs_le_inv in Bg.
  assert (M3 : Rabs (B2R (a *. l -. z) - B2R lg) <= 18100000000000000000) by (apply Rabs_le; lra). destruct (op_sub (a *. l -. z) lg F2 Fg ltac:(lra)) as (F3 & V3). assert (R3 := Rabs_le_inv _ _ (RS _ _ M3)). rewrite <- V3 in R3.
  assert (M4 : Rabs (B2R z - B2R a) <= 18000000000000000000) by (apply Rabs_le; lra). destruct (op_sub z a Fz Fa ltac:(lra)) as (F4 & V4). assert (R4 := Rabs_le_inv _ _ (RS _ _ M4)). rewrite <- V4 in R4.
  unfold incomplete_gamma_check, any_nan. rewrite !finite_not_nan by auto. cbn [orb].
  rewrite (flt_false a (ofZ f 0)) by (auto; rewrite V0; lra). rewrite (flt_false z (fmin f)) by (auto; rewrite Vm; lra). rewrite (flt_false a (fmin f)) by (auto; rewrite Vm; lra). rewrite (flt_false (z -. a) (ofZ f 10)) by (auto; rewrite V10; lra). rewrite (flt_true a (ofZ f 10)) by (auto; rewrite V10; lra). cbn [andb orb].
  unfold incomplete_gamma_cf_2. rewrite El', Eg'. cbn [bind]. rewrite exp_ub; [reflexivity|exact F3|right]. change (IZR (2 ^ 63)) with 9223372036854775808. lra.
Qed.
Lemma api_ig_big : forall v f (a z : flt f), finite a = true -> finite z = true -> / 2 <= B2R a <= 9 -> 10000000000000000000 <= B2R z <= 18000000000000000000 ->
  gcem_incomplete_gamma v (AFlt f a) (AFlt f z) = Ub UbCast.
Proof. intros v f a z Fa Fz A Z. assert (E := ig_big v f a z Fa A Fz Z). destruct f; unfold gcem_incomplete_gamma, lift2; cbn [cr_fmt to_fmt fmt_max]; rewrite !conv_id, E; reflexivity. Qed.
Lemma tgamma_big : forall v f, gcem_tgamma v 1 (AFlt f (ofZ f (10 ^ 18))) = Ub UbCast.
Proof. intros v f. destruct v, f; vm_compute; reflexivity. Qed.

(** ** tgamma above its overflow threshold *)
Definition gover (f : fmt) : R := match f with F32 => 40 | F64 => 200 | F80 => 2000 end.
Lemma lnGamma_int k : (0 <= k)%Z -> ln (Gamma (IZR k + 1)) = ln (IZR (zfact k)).
Proof. intros K. rewrite Gamma_zfact; auto. Qed.
Lemma lnGamma_step b s L c d : 0 < b -> 0 <= s -> L <= ln (Gamma b) -> c <= ln b - / b -> d <= L + s * c -> d <= ln (Gamma (b + s)).
Proof. intros B S1 HL HC HD. destruct (lnGamma_incr b s B S1) as (I & _). assert (s * c <= s * (ln b - / b)) by (apply Rmult_le_compat_l; auto). lra. Qed.
Lemma lnG25 : 54 <= ln (Gamma 25).
Proof. replace 25 with (IZR 24 + 1) by (rewrite <- plus_IZR; reflexivity). rewrite lnGamma_int by lia. replace (zfact 24) with 620448401733239439360000%Z by (vm_compute; reflexivity). interval. Qed.
Lemma lnG_over f : match f with F32 => 100 | F64 => 780 | F80 => 12000 end <= ln (Gamma (gover f)).
Proof.
  assert (A := lnG25). assert (B : 133 <= ln (Gamma 50)). { replace 50 with (25 + 25) by ring. apply (lnGamma_step 25 25 54 (317 / 100)); try lra. interval. }
  assert (C : 325 <= ln (Gamma 100)). { replace 100 with (50 + 50) by ring. apply (lnGamma_step 50 50 133 (389 / 100)); try lra. interval. }
  assert (D : 784 <= ln (Gamma 200)). { replace 200 with (100 + 100) by ring. apply (lnGamma_step 100 100 325 (4594 / 1000)); try lra. interval. }
  destruct f; unfold gover.
  - replace 40 with (IZR 39 + 1) by (rewrite <- plus_IZR; reflexivity). rewrite lnGamma_int by lia. replace (zfact 39) with 20397882081197443358640281739902897356800000000%Z by (vm_compute; reflexivity). interval.
  - lra.
  - assert (E : 1842 <= ln (Gamma 400)). { replace 400 with (200 + 200) by ring. apply (lnGamma_step 200 200 784 (5293 / 1000)); try lra. interval. }
    assert (F : 4237 <= ln (Gamma 800)). { replace 800 with (400 + 400) by ring. apply (lnGamma_step 400 400 1842 (59889 / 10000)); try lra. interval. }
    assert (G : 9583 <= ln (Gamma 1600)). { replace 1600 with (800 + 800) by ring. apply (lnGamma_step 800 800 4237 (66833 / 10000)); try lra. interval. }
    replace 2000 with (1600 + 400) by ring. apply (lnGamma_step 1600 400 9583 7); try lra. interval.
Qed.
Lemma lnGamma_quarter x : 40 <= x -> x * ln (x + 5) <= 4 * ln (Gamma x).
Proof.
  intros X. destruct (lnGamma_size (x / 2) ltac:(lra)) as (S1 & _). destruct (lnGamma_incr (x / 2) (x / 2) ltac:(lra) ltac:(lra)) as (I & _). replace (x / 2 + x / 2) with x in I by lra.
  assert (L2 : ln (x / 2) = ln x - ln 2) by (unfold Rdiv; rewrite ln_mult, ln_Rinv by lra; ring). assert (l2 : ln 2 <= 6932 / 10000) by interval. assert (Lx : 368 / 100 <= ln x). { apply Rle_trans with (ln 40). interval. apply ln_le; lra. }
  assert (L5 : ln (x + 5) <= ln x + 125 / 1000). { replace (x + 5) with (x * (1 + 5 / x)) by (field; lra). assert (0 < 5 / x) by (apply Rdiv_lt_0_compat; lra). assert (5 / x <= 5 / 40). { unfold Rdiv. apply Rmult_le_compat_l. lra. apply Rinv_le_contravar; lra. } rewrite ln_mult by lra. assert (K := exp_ineq1_le (ln (1 + 5 / x))). rewrite exp_ln in K by lra. lra. }
  assert (E : x / 2 * (ln (x / 2) - / (x / 2)) = x / 2 * ln (x / 2) - 1) by (field; lra). rewrite E, L2 in I. assert (P : x * ln (x + 5) <= x * (ln x + 125 / 1000)) by (apply Rmult_le_compat_l; lra). assert (P2 : x * (368 / 100) <= x * ln x) by (apply Rmult_le_compat_l; lra). assert (P3 : x / 2 * (ln x - 6932 / 10000) <= x / 2 * (ln x - ln 2)) by (apply Rmult_le_compat_l; lra). lra.
Qed.
Lemma tgamma_overflow : forall v n f (x : flt f), finite x = true -> match f with F32 => 40 | F64 => 200 | F80 => 2000 end <= B2R x <= bpow radix2 50 -> gcem_tgamma v (S n) (AFlt f x) = Ok (B754_infinity false).
Proof.
  intros v n f x Fx X. fold (gover f) in X. change (bpow radix2 50) with 1125899906842624 in X. assert (G40 : 40 <= gover f) by (destruct f; cbn; lra). destruct (uf_sm f) as (U0 & U1).
  assert (LM := lnGamma_mono (gover f) (B2R x) ltac:(lra) ltac:(lra)). assert (LO := lnG_over f). assert (LQ := lnGamma_quarter (B2R x) ltac:(lra)). destruct (lnGamma_size (B2R x) ltac:(lra)) as (_ & LS).
  assert (EG : exists lg : flt f, lgamma_check v x = Ok lg /\ finite lg = true /\ abs_err (B2R lg) (ln (Gamma (B2R x))) ((14 * B2R x * ln (B2R x + 5) + 54) * uf f + (B2R x + 3) * bpow radix2 (-54))) by (apply (api_lgamma v f x Fx); change (bpow radix2 55) with 36028797018963968; lra).
  destruct EG as (lg & El & Fl & Rl). unfold abs_err in Rl. set (L := ln (Gamma (B2R x))) in * . set (X' := B2R x) in * .
  assert (L5 : 1 <= ln (X' + 5) <= 36). { split. apply Rle_trans with (ln 40). interval. apply ln_le; lra. apply Rle_trans with (ln 1125899906842629). apply ln_le; lra. interval. }
  assert (XL : X' * 1 <= X' * ln (X' + 5)) by (apply Rmult_le_compat_l; lra). assert (XU : X' * ln (X' + 5) <= 1125899906842624 * 36) by (apply Rmult_le_compat; lra). assert (L100 : 100 <= L) by (apply Rle_trans with (2 := LM); apply Rle_trans with (2 := LO); destruct f; lra).
  assert (b := bpow_gt_0 radix2 (-54)). assert (b' : bpow radix2 (-54) <= / 1000000000) by (cbn; lra).
  assert (Q1 : (14 * X' * ln (X' + 5) + 54) * uf f <= (56 * L + 54) * / 16777216) by (apply Rmult_le_compat; lra). assert (Q2 : (X' + 3) * bpow radix2 (-54) <= (4 * L + 3) * / 1000000000) by (apply Rmult_le_compat; lra). apply Rabs_le_inv in Rl.
  assert (W : 9999 / 10000 * L <= B2R lg <= 2 * L) by lra.
  unfold gcem_tgamma, lift1. cbn [ret_fmt ret_val]. rewrite (tg_else v x Fx ltac:(fold X'; lra) n) by (fold X'; lra). rewrite El. cbn [bind].
  destruct (api_exp_range v f lg Fl) as (w & Ew & _ & _ & HI & _). { rewrite Rabs_pos_eq by lra. change (2 ^ 63 - 1)%Z with 9223372036854775807%Z. lra. }
  unfold gcem_exp, lift1 in Ew. cbn [ret_fmt ret_val] in Ew. rewrite Ew. f_equal. apply HI. rewrite bpow_exp. apply exp_le. change (IZR radix2) with 2. assert (ln 2 <= 69315 / 100000) by interval.
  apply Rle_trans with (IZR (emax f + 4) * (69315 / 100000)). apply Rmult_le_compat_l; auto. apply IZR_le. destruct f; discriminate. destruct f; cbv beta iota in LO; [change (emax F32 + 4)%Z with 132%Z|change (emax F64 + 4)%Z with 1028%Z|change (emax F80 + 4)%Z with 16388%Z]; lra.
Qed.
