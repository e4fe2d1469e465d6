(** * The accuracy results for atan, tan, sin, cos and tanh on the public functions *)
From Verif Require Import Base ModelBasic ModelInt ModelElem ModelApi FltLemmas Spec IntProofs BasicProofs ConvLemmas FPErr MiscProofs.
From Coq Require Import Lra Psatz.
From Verif Require Import CFAcc TanAcc SinAcc TanhAcc AtanAcc.
From Interval Require Import Tactic.
Open Scope R_scope.

(** ** atan *)
Definition at_ok {f} (r : R) (w : flt f) : Prop := finite w = true /\
  rel_err (B2R w) (atan r) (8 * uf f + bpow radix2 (if Rlt_dec (Rabs r) 2 then -57 else -54)) /\ Rabs (B2R w) <= PI / 2 + uf f.
Lemma rnd_hp f : Rabs (rnd f hp80 - PI / 2) <= uf f /\ 15 / 10 <= rnd f hp80.
Proof.
  destruct (half_pi_val f) as (_ & E). destruct hp80_near as (F & E80). assert (P : 314 / 100 < PI < 3142 / 1000) by (split; interval). assert (bpow radix2 (-64) <= / 1000) by (cbn; lra). apply Rabs_le_inv in E80.
  destruct (conv_spec f GCEM_HALF_PI F) as (V & _). { fold hp80. apply big_fin. apply Rabs_le. lra. } fold hp80 in V. unfold abs_err in E. rewrite V in E. split. exact E. assert (E' := E). apply Rabs_le_inv in E'. assert (u1 := uf_le f). change (bpow radix2 (-24)) with (/ 16777216) in u1. change (bpow radix2 (- prec f)) with (uf f) in * . lra.
Qed.
Lemma atan_begin_acc v {f} (x : flt f) : finite x = true -> bpow radix2 (2 - emax f) <= B2R x -> exists w, atan_begin v x = Ok w /\ at_ok (B2R x) w.
Proof.
  intros Fx X0. assert (x0 := bpow_gt_0 radix2 (2 - emax f)). destruct (rnd_hp f) as (RH & RH2). assert (u0 := uf_pos f). assert (u1 := uf_le f). change (bpow radix2 (-24)) with (/ 16777216) in u1. assert (P : 314 / 100 < PI < 3142 / 1000) by (split; interval).
  unfold atan_begin. rewrite (fcmp_gt x (dlit f 25 1) (5 / 2) Fx (lit25 f)). unfold at_ok, rel_err. rewrite (Rabs_pos_eq (B2R x)) by lra.
  destruct (Rlt_bool_spec (5 / 2) (B2R x)) as [C|C].
  - destruct (series_main_acc v x Fx ltac:(lra)) as (w & E & Fw & R & L). exists w. split; auto. split; auto.
    assert (A : 119 / 100 <= atan (B2R x)). { apply Rle_trans with (atan (5 / 2)). interval. left. apply atan_increasing. auto. }
    destruct Rlt_dec as [C2|C2]; [lra|]. assert (b := bpow_gt_0 radix2 (-54)). assert (b56 : bpow radix2 (-54) = 4 * bpow radix2 (-56)) by (change 4 with (bpow radix2 2); rewrite <- bpow_plus; reflexivity). assert (b1 : bpow radix2 (-56) <= / 1000) by (cbn; lra).
    rewrite (Rabs_pos_eq (atan _)) by lra. split.
    + eapply Rle_trans. exact R. apply Rle_trans with ((8 * uf f + bpow radix2 (-54)) * (119 / 100)). lra. apply Rmult_le_compat_l; lra.
    + apply Rabs_le_inv in R, RH. apply Rabs_le. lra.
  - destruct (atan_cf_acc v x Fx ltac:(lra)) as (F & R). exists (atan_cf_main v x). split; auto. split; auto. assert (AL := atan_lo (B2R x) ltac:(lra)). assert (AU : atan (B2R x) <= 12 / 10). { apply Rle_trans with (atan (5 / 2)). destruct C as [C| ->]; [left; apply atan_increasing; auto|lra]. interval. }
    rewrite (Rabs_pos_eq (atan _)) by lra. split. exact R.
    assert (b1 : 0 < bpow radix2 (if Rlt_dec (B2R x) 2 then -57 else -54) <= / 1000) by (split; [apply bpow_gt_0|destruct Rlt_dec; cbn; lra]). set (b := bpow radix2 (if Rlt_dec (B2R x) 2 then -57 else -54)) in * .
    assert ((8 * uf f + b) * atan (B2R x) <= / 500 * (12 / 10)) by (apply Rmult_le_compat; lra). apply Rabs_le_inv in R, RH. apply Rabs_le. lra.
Qed.
Lemma atan_check_acc v {f} (x : flt f) : finite x = true -> bpow radix2 (2 - emax f) <= Rabs (B2R x) -> exists w, atan_check v x = Ok w /\ at_ok (B2R x) w.
Proof.
  intros Fx X0. assert (x0 := bpow_gt_0 radix2 (2 - emax f)). unfold atan_check. rewrite finite_not_nan by auto.
  destruct (ofZ_small f 0 ltac:(lia)) as (V0 & F0 & _).
  rewrite (flt_false (ModelBasic.abs x) (fmin f)). 2: rewrite abs_finite; auto. 2: apply fmin_spec. 2: rewrite abs_B2R, (proj1 (fmin_spec f)); auto.
  destruct (x <. ofZ f 0) eqn:C; [apply flt_true_inv in C; auto|apply flt_false_inv in C; auto]; rewrite V0 in C.
  - rewrite Rabs_left in X0 by auto. destruct (atan_begin_acc v (-. x)) as (w & E & F & R & L). rewrite fneg_finite; auto. rewrite fneg_B2R; auto.
    rewrite E. exists (-. w). split; [reflexivity|]. unfold at_ok. rewrite fneg_finite, fneg_B2R, Rabs_Ropp. split; auto. split; auto. revert R. unfold rel_err. rewrite fneg_B2R, atan_opp, !Rabs_Ropp. intros R.
    replace (- B2R w - atan (B2R x)) with (- (B2R w - - atan (B2R x))) by ring. rewrite Rabs_Ropp. exact R.
  - rewrite Rabs_pos_eq in X0 by auto. apply atan_begin_acc; auto.
Qed.
Lemma api_atan v f (x : flt f) : finite x = true -> bpow radix2 (2 - emax f) <= Rabs (B2R x) -> exists w, gcem_atan v (AFlt f x) = Ok w /\ finite w = true /\
  rel_err (B2R w) (atan (B2R x)) (8 * bpow radix2 (- prec f) + bpow radix2 (-54)).
Proof.
  intros Fx X0. destruct (atan_check_acc v x Fx X0) as (w & E & F & R & _). exists w. split; [exact E|]. split; auto. eapply rel_mono; [|exact R]. apply Rplus_le_compat_l. apply bpow_le. destruct Rlt_dec; lia.
Qed.
Lemma api_atan2 v f (x : flt f) : finite x = true -> bpow radix2 (2 - emax f) <= Rabs (B2R x) < 2 -> exists w, gcem_atan v (AFlt f x) = Ok w /\ finite w = true /\
  rel_err (B2R w) (atan (B2R x)) (8 * bpow radix2 (- prec f) + bpow radix2 (-57)).
Proof.
  intros Fx X0. destruct (atan_check_acc v x Fx (proj1 X0)) as (w & E & F & R & _). exists w. split; [exact E|]. split; auto. destruct Rlt_dec; [exact R|]. destruct X0; contradiction.
Qed.
Lemma api_atan_bound v f (x : flt f) : finite x = true -> exists w, gcem_atan v (AFlt f x) = Ok w /\ finite w = true /\ Rabs (B2R w) <= PI / 2 + bpow radix2 (- prec f).
Proof.
  intros Fx. destruct (Rlt_or_le (Rabs (B2R x)) (bpow radix2 (2 - emax f))) as [L|L].
  - destruct (ofZ_small f 0 ltac:(lia)) as (V0 & F0 & _). exists (ofZ f 0). unfold gcem_atan, lift1. cbn [ret_fmt ret_val]. unfold atan_check. rewrite finite_not_nan by auto.
    rewrite (flt_true (ModelBasic.abs x) (fmin f)). 2: rewrite abs_finite; auto. 2: apply fmin_spec. 2: rewrite abs_B2R, (proj1 (fmin_spec f)); auto. split; [reflexivity|]. split; auto. rewrite V0, Rabs_R0. assert (3 < PI) by interval. assert (0 < bpow radix2 (- prec f)) by apply bpow_gt_0. lra.
  - destruct (atan_check_acc v x Fx L) as (w & E & F & _ & R). exists w. split; [exact E|]. auto.
Qed.
(** ** tan, sin, cos *)
Lemma api_tan f (x : flt f) : finite x = true -> bpow radix2 (2 - emax f) <= Rabs (B2R x) <= 1 -> exists w, gcem_tan (AFlt f x) = Ok w /\ finite w = true /\
  rel_err (B2R w) (tan (B2R x)) (4 * bpow radix2 (- prec f) + bpow radix2 (-80)).
Proof. intros Fx X. destruct (tan_check_acc x Fx ltac:(lra)) as (w & E & F & R). exists w. split; [exact E|]. split; auto. unfold tan_c in R. destruct Rle_dec; [exact R|lra]. Qed.
Lemma api_tan2 f (x : flt f) : finite x = true -> bpow radix2 (2 - emax f) <= Rabs (B2R x) <= 3 / 2 -> exists w, gcem_tan (AFlt f x) = Ok w /\ finite w = true /\
  rel_err (B2R w) (tan (B2R x)) (36 * bpow radix2 (- prec f) + bpow radix2 (-80)).
Proof. intros Fx X. destruct (tan_check_acc x Fx ltac:(lra)) as (w & E & F & R). exists w. split; [exact E|]. split; auto. eapply rel_mono; [|exact R]. apply Rplus_le_compat_r. apply Rmult_le_compat_r. apply bpow_ge_0. unfold tan_c. destruct Rle_dec; lra. Qed.
Lemma api_sin f (x : flt f) : finite x = true -> bpow radix2 (3 - emax f) <= Rabs (B2R x) <= 2 -> exists w, gcem_sin (AFlt f x) = Ok w /\ finite w = true /\
  rel_err (B2R w) (sin (B2R x)) (10 * bpow radix2 (- prec f) + bpow radix2 (-79)).
Proof. intros Fx X. destruct (sin_check_acc x Fx ltac:(lra)) as (w & E & F & R). exists w. split; [exact E|]. split; auto. unfold sin_c in R. destruct Rle_dec; [exact R|lra]. Qed.
Lemma api_sin2 f (x : flt f) : finite x = true -> bpow radix2 (3 - emax f) <= Rabs (B2R x) <= 3 -> exists w, gcem_sin (AFlt f x) = Ok w /\ finite w = true /\
  rel_err (B2R w) (sin (B2R x)) (42 * bpow radix2 (- prec f) + bpow radix2 (-79)).
Proof. intros Fx X. destruct (sin_check_acc x Fx ltac:(lra)) as (w & E & F & R). exists w. split; [exact E|]. split; auto. eapply rel_mono; [|exact R]. apply Rplus_le_compat_r. apply Rmult_le_compat_r. apply bpow_ge_0. unfold sin_c. destruct Rle_dec; lra. Qed.
Lemma api_cos f (x : flt f) : finite x = true -> Rabs (B2R x) <= 2 -> exists w, gcem_cos (AFlt f x) = Ok w /\ finite w = true /\
  abs_err (B2R w) (cos (B2R x)) (11 * bpow radix2 (- prec f) + bpow radix2 (-79)).
Proof. intros Fx X. destruct (cos_check_acc x Fx ltac:(lra)) as (w & E & F & R). exists w. split; [exact E|]. split; auto. unfold sin_c in R. destruct Rle_dec; [|lra]. replace 11 with (10 + 1) by ring. exact R. Qed.
Lemma api_cos2 f (x : flt f) : finite x = true -> Rabs (B2R x) <= 3 -> exists w, gcem_cos (AFlt f x) = Ok w /\ finite w = true /\
  abs_err (B2R w) (cos (B2R x)) (43 * bpow radix2 (- prec f) + bpow radix2 (-79)).
Proof. intros Fx X. destruct (cos_check_acc x Fx ltac:(lra)) as (w & E & F & R). exists w. split; [exact E|]. split; auto. unfold abs_err in * . eapply Rle_trans. exact R. apply Rplus_le_compat_r. apply Rmult_le_compat_r. apply bpow_ge_0. unfold sin_c. destruct Rle_dec; lra. Qed.
(** ** tanh *)
Lemma api_tanh1 v f (x : flt f) : finite x = true -> bpow radix2 (2 - emax f) <= Rabs (B2R x) <= 1 -> exists w, gcem_tanh v (AFlt f x) = Ok w /\ finite w = true /\
  rel_err (B2R w) (tanh (B2R x)) (3 * bpow radix2 (- prec f) + bpow radix2 (-96)).
Proof. intros Fx X. destruct (tanh_check_acc v x Fx ltac:(lra)) as (w & E & F & R). exists w. split; [exact E|]. split; auto. unfold tanh_b in R. destruct Rle_dec; [exact R|lra]. Qed.
Lemma api_tanh20 v f (x : flt f) : finite x = true -> bpow radix2 (2 - emax f) <= Rabs (B2R x) <= 20 -> exists w, gcem_tanh v (AFlt f x) = Ok w /\ finite w = true /\
  rel_err (B2R w) (tanh (B2R x)) (14 * bpow radix2 (- prec f) + bpow radix2 (-66)).
Proof.
  intros Fx X. destruct (tanh_check_acc v x Fx ltac:(lra)) as (w & E & F & R). exists w. split; [exact E|]. split; auto. unfold tanh_b in R. destruct Rle_dec; [|destruct Rle_dec; [exact R|lra]].
  eapply rel_mono; [|exact R]. apply Rplus_le_compat. apply Rmult_le_compat_r; [apply bpow_ge_0|lra]. apply bpow_le; lia.
Qed.
Lemma api_tanh25 v f (x : flt f) : finite x = true -> bpow radix2 (2 - emax f) <= Rabs (B2R x) <= 25 -> exists w, gcem_tanh v (AFlt f x) = Ok w /\ finite w = true /\
  rel_err (B2R w) (tanh (B2R x)) (16 * bpow radix2 (- prec f) + bpow radix2 (-54)).
Proof.
  intros Fx X. destruct (tanh_check_acc v x Fx ltac:(lra)) as (w & E & F & R). exists w. split; [exact E|]. split; auto. unfold tanh_b in R.
  eapply rel_mono; [|exact R]. destruct Rle_dec; [|destruct Rle_dec]; (apply Rplus_le_compat; [apply Rmult_le_compat_r; [apply bpow_ge_0|lra]|apply bpow_le; lia]).
Qed.
