(** * Accuracy of pow with a floating-point exponent *)
From Verif Require Import Base ModelBasic ModelInt ModelElem ModelApi FltLemmas Spec IntProofs BasicProofs ConvLemmas ExpAcc MiscProofs CxxProofs.
From Coq Require Import Lra.
From Coquelicot Require Import Coquelicot.
From Verif Require Import FPErr CFBound CFTrunc CFAcc TanAcc SinAcc TanhAcc SqrtAcc LogAcc LogApi LogBad.
From Interval Require Import Tactic.
Open Scope R_scope.

Definition exp_fit (f : fmt) (a : R) : Prop := exp a <= bpow radix2 (emax f - 9).
Lemma exp_fit_u f a : exp_fit f a -> uf f * a <= / 100000 /\ a <= 20000.
Proof.
  intros B. unfold exp_fit in B. rewrite bpow_exp in B. apply (ln_le_le _ _ (exp_pos _)) in B. rewrite !ln_exp in B. change (IZR radix2) with 2 in B. assert (l2 := ln2_rng).
  assert (0 <= IZR (emax f - 9)) by (apply (IZR_le 0); destruct f; cbn; lia). assert (H1 : a <= IZR (emax f - 9)). { apply Rle_trans with (1 := B). rewrite <- Rmult_1_r. apply Rmult_le_compat_l; lra. }
  split. apply Rle_trans with (uf f * IZR (emax f - 9)). apply Rmult_le_compat_l; auto. left; apply uf_pos. destruct f; unfold uf; cbn; lra. assert (Z : (emax f - 9 <= 16384)%Z) by (destruct f; cbn; lia). apply IZR_le in Z. lra.
Qed.
Lemma exp_all v {f} (x : flt f) : finite x = true -> exp_fit f (Rabs (B2R x) + 2) ->
  exists w, exp_check v x = Ok w /\ finite w = true /\
    ((Rabs (B2R x) <= / 2 -> rel_err (B2R w) (exp (B2R x)) (8 * uf f + bpow radix2 (-55))) /\
    (Rabs (B2R x) < 2 -> rel_err (B2R w) (exp (B2R x)) (106 * uf f + bpow radix2 (-55))) /\
    (2 <= B2R x -> rel_err (B2R w) (exp (B2R x)) (10 * uf f + bpow radix2 (-54) + (Rabs (B2R x) + 3) * bpow radix2 (-61))) /\
    (B2R x <= - 2 -> rel_err (B2R w) (exp (B2R x)) (108 * uf f + bpow radix2 (-54) + (Rabs (B2R x) + 3) * bpow radix2 (-61)))).
Proof.
  intros Fx B. assert (u0 := uf_pos f). destruct (Rlt_or_le (Rabs (B2R x)) 2) as [L|L].
  - destruct (exp_check_acc v x _ Fx L eq_refl) as (w & E & F & W). exists w. split; auto. split; auto. change (bpow radix2 (- prec f)) with (uf f) in W. split; [|split; [|split]].
    + intros H. destruct Rle_dec; [exact W|contradiction].
    + intros _. eapply rel_mono; [|exact W]. destruct Rle_dec; lra.
    + intros H. rewrite Rabs_pos_eq in L; lra.
    + intros H. rewrite Rabs_left in L; lra.
  - destruct (exp_split_acc v x _ Fx L B eq_refl) as (w & E & F & W). exists w. rewrite exp_check_split by auto. split; auto. split; auto. change (bpow radix2 (- prec f)) with (uf f) in W. split; [|split; [|split]].
    + intros H. lra.
    + intros H. lra.
    + intros H. destruct Rlt_dec; [exact W|lra].
    + intros H. destruct Rlt_dec; [lra|exact W].
Qed.
Lemma exp_near d : Rabs d <= / 1000 -> Rabs (exp d - 1) <= 1002 / 1000 * Rabs d.
Proof.
  intros H. apply (mvt0 (fun x => exp x - 1) exp).
  - intros c Hc. assert (C : Rabs c <= / 1000) by lra. apply Rabs_le_inv in C. split. auto_derive. auto. ring. interval.
  - rewrite exp_0. ring.
Qed.
(** Effect of an error in the argument of exp. *)
Lemma exp_pert w t T c d : rel_err w (exp t) c -> Rabs (t - T) <= d -> 0 <= c <= / 10000 -> d <= / 1000 -> rel_err w (exp T) (c + 1003 / 1000 * d).
Proof.
  intros H D Hc Hd. unfold rel_err in * . assert (P1 := exp_pos t). assert (P2 := exp_pos T). rewrite (Rabs_pos_eq (exp t)) in H by lra. rewrite (Rabs_pos_eq (exp T)) by lra.
  assert (N := exp_near (t - T) ltac:(lra)). assert (E : exp t = exp T * exp (t - T)) by (rewrite <- exp_plus; f_equal; ring). assert (N' := N). apply Rabs_le_inv in N'.
  assert (D0 := Rabs_pos (t - T)).
  assert (T1 : Rabs (exp t - exp T) <= 1002 / 1000 * d * exp T). { rewrite E. replace (exp T * exp (t - T) - exp T) with ((exp (t - T) - 1) * exp T) by ring. rewrite Rabs_mult, (Rabs_pos_eq (exp T)) by lra. apply Rmult_le_compat_r; lra. }
  assert (T2 := Rabs_triang (w - exp t) (exp t - exp T)). replace (w - exp t + (exp t - exp T)) with (w - exp T) in T2 by ring.
  assert (T3 : c * exp t <= c * (exp T * (1 + 1002 / 1000 * d))). { apply Rmult_le_compat_l. lra. rewrite E. apply Rmult_le_compat_l; lra. }
  assert (T4 : c * (1002 / 1000 * d * exp T) <= / 10000 * (1002 / 1000 * d * exp T)). { apply Rmult_le_compat_r. apply Rmult_le_pos; lra. lra. } assert (0 <= d * exp T) by (apply Rmult_le_pos; lra). lra.
Qed.
Definition pow_bound (f : fmt) (k T : R) : R := (k + 7 * Rabs T) * uf f + bpow radix2 (-54) + (Rabs T + 4) * bpow radix2 (-61).
Lemma pow_dbl_acc v {f} (x y : flt f) : finite x = true -> finite y = true -> / 2 <= B2R x -> exp_fit f (Rabs (B2R y * ln (B2R x)) + 3) ->
  exists w, pow_dbl v x y = Ok w /\ finite w = true /\ rel_err (B2R w) (Rpower (B2R x) (B2R y)) (pow_bound f 108 (B2R y * ln (B2R x))) /\
    ((Rabs (B2R y * ln (B2R x)) <= 49 / 100 \/ 201 / 100 <= B2R y * ln (B2R x)) -> rel_err (B2R w) (Rpower (B2R x) (B2R y)) (pow_bound f 10 (B2R y * ln (B2R x)))).
Proof.
  intros Fx Fy X B. destruct (log_check_ge v x Fx X) as (l & El & Fl & Rl). unfold pow_dbl. rewrite El. cbn [bind]. unfold Rpower. unfold rel_err in Rl. set (L := ln (B2R x)) in * . set (T := B2R y * L) in * .
  assert (u0 := uf_pos f). assert (u1 := uf_le f). change (bpow radix2 (-24)) with (/ 16777216) in u1. assert (A0 := Rabs_pos T).
  destruct (exp_fit_u f _ B) as (UT & TB). assert (uT : 0 <= uf f * Rabs T <= / 100000) by (split; [apply Rmult_le_pos; lra|assert (uf f * Rabs T <= uf f * (Rabs T + 3)) by (apply Rmult_le_compat_l; lra); lra]).
  assert (P1 : Rabs (B2R y * B2R l - T) <= 56 / 10 * uf f * Rabs T). { unfold T. rewrite <- Rmult_minus_distr_l, !Rabs_mult. apply Rle_trans with (Rabs (B2R y) * (56 / 10 * uf f * Rabs L)). apply Rmult_le_compat_l. apply Rabs_pos. exact Rl. right; ring. }
  assert (P2 : Rabs (B2R y * B2R l) <= Rabs T * (1 + / 1000)). { replace (B2R y * B2R l) with ((B2R y * B2R l - T) + T) by ring. eapply Rle_trans. apply Rabs_triang. assert (uf f * Rabs T <= / 16777216 * Rabs T) by (apply Rmult_le_compat_r; lra). lra. }
  destruct (op_mul y l Fy Fl) as (Ft & Vt). lra. set (t := y *. l) in * .
  set (fm := bpow radix2 (2 - emax f)). assert (fm0 : 0 < fm) by apply bpow_gt_0. assert (fmu : fm <= / 100000). { apply Rle_trans with (bpow radix2 (-20)). apply bpow_le. destruct f; discriminate. cbn; lra. }
  assert (D : Rabs (B2R t - T) <= 67 / 10 * uf f * Rabs T + uf f * fm). { rewrite Vt. assert (Q := rnd_fm f (B2R y * B2R l)). fold fm in Q. assert (M : Rmax (Rabs (B2R y * B2R l)) fm <= Rabs T * (1 + / 1000) + fm) by (apply Rmax_lub; lra). apply (Rmult_le_compat_l (uf f)) in M; [|lra].
    assert (T3 := Rabs_triang (rnd f (B2R y * B2R l) - B2R y * B2R l) (B2R y * B2R l - T)). replace (rnd f (B2R y * B2R l) - B2R y * B2R l + (B2R y * B2R l - T)) with (rnd f (B2R y * B2R l) - T) in T3 by ring. lra. }
  set (d := 67 / 10 * uf f * Rabs T + uf f * fm) in * . assert (ufm : 0 < uf f * fm <= / 16777216 * / 100000) by (split; [apply Rmult_lt_0_compat; lra|apply Rmult_le_compat; lra]). assert (DB : d <= 7 * / 100000) by (unfold d; lra).
  assert (TT : Rabs (Rabs (B2R t) - Rabs T) <= d) by (eapply Rle_trans; [apply Rabs_triang_inv2|exact D]). apply Rabs_le_inv in TT.
  destruct (exp_all v t Ft) as (w & Ew & Fw & W1 & W2 & W3 & W4). { unfold exp_fit in * . apply Rle_trans with (2 := B). apply exp_le. lra. }
  exists w. split; auto. split; auto. assert (D' := D). apply Rabs_le_inv in D'. assert (b1 : bpow radix2 (-54) = / 18014398509481984) by reflexivity. assert (b2 : bpow radix2 (-55) = / 36028797018963968) by reflexivity. assert (b3 : bpow radix2 (-61) = / 2305843009213693952) by reflexivity. unfold pow_bound. rewrite b1, b2, b3 in * .
  assert (uf f * fm <= uf f * / 100000) by (apply Rmult_le_compat_l; lra).
  split.
  - destruct (Rlt_or_le (Rabs (B2R t)) 2) as [C|C].
    + eapply rel_mono; [|exact (exp_pert _ _ _ _ _ (W2 C) D ltac:(lra) ltac:(lra))]. unfold d. lra.
    + destruct (Rle_or_lt 0 (B2R t)) as [S|S].
      * assert (C2 : 2 <= B2R t) by (rewrite Rabs_pos_eq in C; lra). eapply rel_mono; [|exact (exp_pert _ _ _ _ _ (W3 C2) D ltac:(lra) ltac:(lra))]. unfold d in * . lra.
      * assert (C2 : B2R t <= - 2) by (rewrite Rabs_left in C; lra). assert (TL : 1 <= Rabs T) by lra. assert (uf f * 1 <= uf f * Rabs T) by (apply Rmult_le_compat_l; lra). assert (uf f * fm <= uf f * / 100000) by (apply Rmult_le_compat_l; lra). eapply rel_mono; [|exact (exp_pert _ _ _ _ _ (W4 C2) D ltac:(lra) ltac:(lra))]. unfold d in * . lra.
  - intros [C|C].
    + eapply rel_mono; [|exact (exp_pert _ _ _ _ _ (W1 ltac:(lra)) D ltac:(lra) ltac:(lra))]. unfold d. lra.
    + assert (TL : Rabs T = T) by (apply Rabs_pos_eq; lra). assert (uf f * 1 <= uf f * Rabs T) by (apply Rmult_le_compat_l; lra). assert (uf f * fm <= uf f * / 100000) by (apply Rmult_le_compat_l; lra). eapply rel_mono; [|exact (exp_pert _ _ _ _ _ (W3 ltac:(lra)) D ltac:(lra) ltac:(lra))]. unfold d in * . lra.
Qed.

(** ** The public function *)
Lemma api_pow_real v f g (x : flt f) (y : flt g) : finite x = true -> finite y = true -> / 2 <= B2R x -> exp (Rabs (B2R y * ln (B2R x)) + 3) <= bpow radix2 (emax (fmt_max f g) - 9) ->
  exists w, gcem_pow v (AFlt f x) (AFlt g y) = Ok (AFlt (fmt_max f g) w) /\ finite w = true /\
    rel_err (B2R w) (Rpower (B2R x) (B2R y)) ((108 + 7 * Rabs (B2R y * ln (B2R x))) * bpow radix2 (- prec (fmt_max f g)) + bpow radix2 (-54) + (Rabs (B2R y * ln (B2R x)) + 4) * bpow radix2 (-61)) /\
    ((Rabs (B2R y * ln (B2R x)) <= 49 / 100 \/ 201 / 100 <= B2R y * ln (B2R x)) ->
      rel_err (B2R w) (Rpower (B2R x) (B2R y)) ((10 + 7 * Rabs (B2R y * ln (B2R x))) * bpow radix2 (- prec (fmt_max f g)) + bpow radix2 (-54) + (Rabs (B2R y * ln (B2R x)) + 4) * bpow radix2 (-61))).
Proof.
  intros Fx Fy X B. destruct (conv_exact (fmt_max f g) x (wider_max_l f g) Fx) as (Vx & Gx & _). destruct (conv_exact (fmt_max f g) y (wider_max_r f g) Fy) as (Vy & Gy & _).
  destruct (pow_dbl_acc v _ _ Gx Gy) as (w & E & Fw & W); rewrite ?Vx, ?Vy in *; auto.
  exists w. unfold gcem_pow. cbn [cr_fmt to_fmt]. destruct (ofZ_small f 0 ltac:(lia)) as (V0 & F0 & _). rewrite (flt_false x (ofZ f 0)) by (auto; rewrite V0; lra). rewrite E. cbn [bind]. auto.
Qed.
Lemma api_pow_real_int v t z g (y : flt g) : (1 <= z <= 2 ^ prec g)%Z -> finite y = true -> exp (Rabs (B2R y * ln (IZR z)) + 3) <= bpow radix2 (emax g - 9) ->
  exists w, gcem_pow v (AInt t z) (AFlt g y) = Ok (AFlt g w) /\ finite w = true /\
    rel_err (B2R w) (Rpower (IZR z) (B2R y)) ((108 + 7 * Rabs (B2R y * ln (IZR z))) * bpow radix2 (- prec g) + bpow radix2 (-54) + (Rabs (B2R y * ln (IZR z)) + 4) * bpow radix2 (-61)) /\
    ((Rabs (B2R y * ln (IZR z)) <= 49 / 100 \/ 201 / 100 <= B2R y * ln (IZR z)) ->
      rel_err (B2R w) (Rpower (IZR z) (B2R y)) ((10 + 7 * Rabs (B2R y * ln (IZR z))) * bpow radix2 (- prec g) + bpow radix2 (-54) + (Rabs (B2R y * ln (IZR z)) + 4) * bpow radix2 (-61))).
Proof.
  intros Hz Fy B. destruct (ofZ_exact g z ltac:(lia)) as (Vx & Gx & _). assert (Z1 : 1 <= IZR z) by (apply (IZR_le 1); lia).
  destruct (pow_dbl_acc v _ _ Gx Fy) as (w & E & Fw & W); rewrite ?Vx in *; auto. lra.
  exists w. unfold gcem_pow. cbn [cr_fmt to_fmt]. replace (z <? 0)%Z with false by (symmetry; apply Z.ltb_ge; lia). rewrite conv_id, E. cbn [bind]. auto.
Qed.
(** ** A base next to a power of ten *)
Definition bad_exp (f : fmt) : flt f := match f with F80 => -. dlit F80 5 1 | _ => dlit _ 5 1 end.
Definition bad_pow (f : fmt) : positive * Z := match f with F32 => (10610843%positive, -25) | F64 => (7466717015953294%positive, -71) | F80 => (11529215046068469761%positive, -60) end%Z.
Lemma api_pow_bad v f : exists x y : flt f, finite x = true /\ bpow radix2 (2 - emax f) <= B2R x < / 2 /\ Rabs (B2R y) = / 2 /\ finite y = true /\
  exists w, gcem_pow v (AFlt f x) (AFlt f y) = Ok (AFlt f w) /\ finite w = true /\ 2 * Rpower (B2R x) (B2R y) <= Rabs (B2R w - Rpower (B2R x) (B2R y)).
Proof.
  exists (bad_arg f), (bad_exp f). split. apply bad_val. split. apply bad_rng. assert (Y : finite (bad_exp f) = true /\ B2R (bad_exp f) = match f with F80 => - / 2 | _ => / 2 end).
  { destruct f; cbn [bad_exp]; rewrite ?fneg_finite, ?fneg_B2R; split; try apply lit05; try (f_equal); apply lit05. }
  destruct Y as (Fy & Vy). split. rewrite Vy. destruct f; rewrite ?Rabs_Ropp; apply Rabs_pos_eq; lra. split; auto.
  assert (E : gcem_pow v (AFlt f (bad_arg f)) (AFlt f (bad_exp f)) = gcem_pow Cxx14 (AFlt f (bad_arg f)) (AFlt f (bad_exp f))). { destruct v; [apply api_11_14_multi; exact (AInt I32 0)|reflexivity]. }
  rewrite E. assert (V : exists w, pow_dbl Cxx14 (bad_arg f) (bad_exp f) = Ok w /\ finite w = true /\ B2R w = F2R (Float radix2 (Zpos (fst (bad_pow f))) (snd (bad_pow f)))).
  { destruct f; apply (@res_val _ _ false); vm_compute; reflexivity. }
  destruct V as (w & Ew & Fw & Vw). exists w. destruct (bad_val f) as (Fx & Vx). destruct (bad_rng f) as (X0 & _). assert (x0 := bpow_gt_0 radix2 (2 - emax f)). destruct (ofZ_small f 0 ltac:(lia)) as (V0 & F0 & _). split; [|split; auto].
  - unfold gcem_pow. rewrite (flt_false (bad_arg f) (ofZ f 0)) by (auto; rewrite V0; lra). assert (M : cr_fmt (AFlt f (bad_arg f)) (AFlt f (bad_exp f)) = f) by (destruct f; reflexivity).
    destruct f; cbn [cr_fmt fmt_max to_fmt]; rewrite !conv_id, Ew; reflexivity.
  - rewrite Vw, Vx, Vy. unfold Rpower. destruct f; cbn [bad_pow bad_m fst snd]; unfold F2R; cbn; (apply Rle_trans with (2 := Rle_abs _)); interval.
Qed.
