(** * Accuracy of sqrt on all arguments; tiny arguments *)
From Verif Require Import Base ModelBasic ModelInt ModelApi FltLemmas Spec IntProofs BasicProofs ConvLemmas ScaleProofs TotalProofs.
From Coq Require Import Lra Psatz.
From Flocq Require Import Mult_error.
From Verif Require Import PF FPErr CFBound SqrtAcc.
From Interval Require Import Tactic.
Open Scope R_scope.

Lemma pow2_fmt {f} (m : flt f) k : 1 <= B2R m -> (-2 <= k)%Z -> generic_format radix2 (fexpf f) (B2R m * bpow radix2 k).
Proof.
  intros M K. apply (mult_bpow_exact_FLT radix2 (emin f) (prec f)). apply (fmt_format m).
  assert (1 <= mag radix2 (B2R m))%Z by (apply mag_ge_bpow; cbn; rewrite Rabs_pos_eq; lra). assert (emin f + prec f <= -1)%Z by (unfold emin; destruct f; cbn; lia). lia.
Qed.
Lemma dbl_exact {f} (m : flt f) : finite m = true -> 1 <= B2R m -> B2R m * 2 < bpow radix2 (emax f) -> finite (ofZ f 2 *. m) = true /\ B2R (ofZ f 2 *. m) = 2 * B2R m.
Proof.
  intros Fm M1 M2. destruct (ofZ_small f 2 ltac:(lia)) as (V2 & F2 & _). change (IZR 2) with 2 in V2.
  assert (R : rnd f (2 * B2R m) = 2 * B2R m). { apply rnd_id. replace (2 * B2R m) with (B2R m * bpow radix2 1) by (cbn; ring). apply pow2_fmt; auto. lia. }
  destruct (fmul_spec (ofZ f 2) m F2 Fm) as (V & F). rewrite V2, R, Rabs_pos_eq; lra. rewrite V, V2, R. auto.
Qed.
Lemma quarter_exact {f} (x : flt f) : finite x = true -> 4 <= B2R x -> finite (x /. ofZ f 4) = true /\ B2R (x /. ofZ f 4) = B2R x / 4.
Proof.
  intros Fx X. destruct (ofZ_small f 4 ltac:(lia)) as (V4 & F4 & _). change (IZR 4) with 4 in V4.
  assert (R : rnd f (B2R x / 4) = B2R x / 4). { apply rnd_id. replace (B2R x / 4) with (B2R x * bpow radix2 (-2)) by (cbn; lra). apply pow2_fmt; lia || lra. }
  destruct (fdiv_spec x (ofZ f 4) Fx) as (V & F). rewrite V4; lra. rewrite V4, R, Rabs_pos_eq by lra. assert (H := B2R_lt_emax x). rewrite Rabs_pos_eq in H; lra. rewrite V, V4, R. auto.
Qed.
(** The multiplier is exact (a power of two) or costs one rounding. *)
Definition mclass {f} (m : flt f) (c : R) : Prop := c = 1 \/ (c = 0 /\ exists k, (0 <= k)%Z /\ B2R m = bpow radix2 k).
Lemma fm_one f : bpow radix2 (2 - emax f) <= 1.
Proof. apply (bpow_le radix2 _ 0). destruct f; discriminate. Qed.
Section Q.
Variable f : fmt.
Notation u := (uf f).
Notation fm := (bpow radix2 (2 - emax f)).
Definition good (x m : flt f) (c : R) (r : res (flt f)) : Prop :=
  exists w, r = Ok w /\ finite w = true /\ Rabs (B2R w - B2R m * sqrt (B2R x)) <= c * u * (B2R m * sqrt (B2R x)).
Lemma tests (x : flt f) : finite x = true -> (dlit f 100000000 0 <. x) = Rlt_bool 100000000 (B2R x) /\ (dlit f 1000000 0 <. x) = Rlt_bool 1000000 (B2R x) /\
  (dlit f 10000 0 <. x) = Rlt_bool 10000 (B2R x) /\ (ofZ f 100 <. x) = Rlt_bool 100 (B2R x) /\ (ofZ f 4 <. x) = Rlt_bool 4 (B2R x).
Proof.
  intros Fx. destruct (lit_ints f) as (_ & (F4 & V4) & (F6 & V6) & (F8 & V8) & _). destruct (ofZ_small f 100 ltac:(lia)) as (V100 & F100 & _). destruct (ofZ_small f 4 ltac:(lia)) as (V4' & F4' & _).
  rewrite !flt_spec by auto. rewrite V4, V6, V8, V100, V4'. auto.
Qed.
Lemma simp4 n (x m : flt f) c : finite x = true -> fm <= B2R x -> bpow radix2 (-170) <= B2R x -> B2R x <= 4 -> finite m = true -> 1 <= B2R m -> B2R m * sqrt (B2R x) <= bpow radix2 (emax f - 2) -> mclass m c ->
  good x m (17 / 10 + c + c / 100) (sqrt_simplify (S n) x m).
Proof.
  intros Fx X0 X1 X4 Fm M1 MB MC. destruct (iter_acc f x Fx X0 X1 X4) as (r & Er & Fr & Rr). destruct (s_rng f x Fx X0 X1 X4) as (S1 & S2 & S3 & S4). destruct (u_rng f) as (U & _).
  destruct (tests x Fx) as (T8 & T6 & T4 & T2 & T0). rewrite sqrt_simplify_S, T8, T6, T4, T2, T0, !Rlt_bool_false by lra. rewrite Er. cbn [bind]. set (s := sqrt (B2R x)) in * . assert (m0 := bpow_gt_0 radix2 (2 - emax f)).
  set (M := B2R m * s) in * . assert (M0 : 0 < M) by (apply Rmult_lt_0_compat; lra).
  assert (P : Rabs (B2R m * B2R r - M) <= 17 / 10 * u * M). { unfold M. replace (B2R m * B2R r - B2R m * s) with (B2R m * (B2R r - s)) by ring. rewrite Rabs_mult, (Rabs_pos_eq (B2R m)) by lra. replace (17 / 10 * u * (B2R m * s)) with (B2R m * (17 / 10 * u * s)) by ring. apply Rmult_le_compat_l; lra. }
  assert (UM : 0 < u * M <= / 16777216 * M) by (split; [apply Rmult_lt_0_compat; lra|apply Rmult_le_compat_r; lra]).
  assert (P' := P). apply Rabs_le_inv in P'. assert (PB : fm <= Rabs (B2R m * B2R r) <= bpow radix2 (emax f - 1)).
  { rewrite Rabs_pos_eq by lra. split. apply Rle_trans with (9 / 10 * M); [|lra]. apply Rle_trans with (9 / 10 * s). assert (u * s <= / 16777216 * s) by (apply Rmult_le_compat_r; lra). lra. assert (1 * s <= M) by (apply Rmult_le_compat_r; lra). lra. apply Rle_trans with (2 * bpow radix2 (emax f - 2)). lra. change 2 with (bpow radix2 1) at 1. rewrite <- bpow_plus. apply bpow_le. lia. }
  destruct (fmul_spec m r Fm Fr) as (V & F). { apply rnd_lt_emax_bpow with (emax f - 1)%Z. split; unfold emin; destruct f; cbn; lia. apply PB. }
  exists (m *. r). split; auto. split; auto. change (B2R m * sqrt (B2R x)) with M. destruct MC as [-> | (-> & k & K0 & VK)].
  - destruct (rnd_rel f (B2R m * B2R r) (proj1 PB)) as (e & He & E). change (bpow radix2 (- prec f)) with u in He. rewrite V, E.
    replace (B2R m * B2R r * (1 + e) - M) with (B2R m * B2R r * e + (B2R m * B2R r - M)) by ring. eapply Rle_trans. apply Rabs_triang. rewrite Rabs_mult.
    assert (PP : 0 <= B2R m * B2R r <= 101 / 100 * M) by lra. rewrite (Rabs_pos_eq (B2R m * B2R r)) by lra. assert (B2R m * B2R r * Rabs e <= (101 / 100 * M) * u) by (apply Rmult_le_compat; auto using Rabs_pos; lra). lra.
  - replace (rnd f (B2R m * B2R r)) with (B2R m * B2R r) in V. rewrite V. lra. symmetry. apply rnd_id. rewrite VK, Rmult_comm. apply (mult_bpow_pos_exact_FLT radix2 (emin f) (prec f)). apply (fmt_format r). auto.
Qed.
(** Division by four and doubling are exact. *)
Lemma simp100 j : forall n (x m : flt f) c, (j < n)%nat -> finite x = true -> fm <= B2R x -> bpow radix2 (-170) <= B2R x -> B2R x <= 4 * 4 ^ j -> B2R x <= 100 -> finite m = true -> 1 <= B2R m -> B2R m * sqrt (B2R x) <= bpow radix2 (emax f - 2) -> mclass m c ->
  good x m (17 / 10 + c + c / 100) (sqrt_simplify n x m).
Proof.
  induction j as [|j IH]; intros n x m c Hn Fx X0 X1 X4 X100 Fm M1 MB MC; (destruct n as [|n]; [lia|]).
  - apply simp4; auto. cbn in X4. lra.
  - destruct (Rle_or_lt (B2R x) 4). apply simp4; auto.
    destruct (tests x Fx) as (T8 & T6 & T4 & T2 & T0). rewrite sqrt_simplify_S, T8, T6, T4, T2, T0. rewrite !Rlt_bool_false by lra. rewrite Rlt_bool_true by lra.
    destruct (quarter_exact x Fx ltac:(lra)) as (F' & V').
    assert (S2 : sqrt (B2R x) = 2 * sqrt (B2R x / 4)). { replace (B2R x) with (2 * 2 * (B2R x / 4)) at 1 by field. rewrite sqrt_mult, sqrt_square; lra. }
    assert (S3 : 1 <= sqrt (B2R x / 4)). { rewrite <- sqrt_1 at 1. apply sqrt_le_1; lra. }
    assert (B : 2 * B2R m <= bpow radix2 (emax f - 2)). { apply Rle_trans with (2 := MB). rewrite S2. replace (B2R m * (2 * sqrt (B2R x / 4))) with (2 * B2R m * sqrt (B2R x / 4)) by ring. rewrite <- (Rmult_1_r (2 * B2R m)) at 1. apply Rmult_le_compat_l; lra. }
    destruct (dbl_exact m Fm M1) as (Fm' & Vm'). { rewrite Rmult_comm. apply Rle_lt_trans with (1 := B). apply bpow_lt. lia. }
    assert (m1 := fm_one f). assert (m2 : bpow radix2 (-170) <= 1) by (apply (bpow_le radix2 _ 0); discriminate).
    assert (X4' : B2R x / 4 <= 4 * 4 ^ j) by (cbn [pow] in X4; lra). assert (MB' : 2 * B2R m * sqrt (B2R x / 4) <= bpow radix2 (emax f - 2)) by (rewrite S2 in MB; lra).
    destruct (IH n (x /. ofZ f 4) (ofZ f 2 *. m) c) as (w & E & F & R); auto; rewrite ?V', ?Vm'; try lra; try lia.
    { destruct MC as [-> | (-> & k & K & VK)]. left; auto. right. split; auto. exists (k + 1)%Z. split. lia. rewrite Vm', VK, bpow_plus. cbn; ring. }
    exists w. split; auto. split; auto. rewrite V', Vm' in R. rewrite S2. replace (B2R m * (2 * sqrt (B2R x / 4))) with (2 * B2R m * sqrt (B2R x / 4)) by ring. exact R.
Qed.
(** One inexact step. *)
Lemma kap u' e e' : 0 < u' <= / 16777216 -> Rabs e <= u' -> Rabs e' <= u' -> Rabs ((1 + e') * sqrt (1 + e) - 1) <= 151 / 100 * u'.
Proof.
  intros U H H'. apply Rabs_le_inv in H, H'. assert (uu : 0 <= u' * u' <= / 16777216 * u') by (split; [apply Rmult_le_pos; lra|apply Rmult_le_compat_r; lra]).
  assert (S : 1 - 501 / 1000 * u' <= sqrt (1 + e) <= 1 + 501 / 1000 * u'). { split. rewrite <- (sqrt_square (1 - 501 / 1000 * u')) by lra. apply sqrt_le_1. apply Rle_0_sqr. lra. lra. rewrite <- (sqrt_square (1 + 501 / 1000 * u')) by lra. apply sqrt_le_1. lra. apply Rle_0_sqr. lra. }
  assert ((1 - u') * (1 - 501 / 1000 * u') <= (1 + e') * sqrt (1 + e) <= (1 + u') * (1 + 501 / 1000 * u')) by (split; apply Rmult_le_compat; lra). apply Rabs_le. lra.
Qed.
Lemma simp_step (x m t T : flt f) tv Tv : finite x = true -> finite m = true -> has_val t tv -> has_val T Tv -> 2 <= tv <= 10000 -> Tv = tv * tv -> Tv <= B2R x -> 1 <= B2R m -> B2R m * sqrt (B2R x) <= bpow radix2 (emax f - 2) ->
  exists k, Rabs (k - 1) <= 151 / 100 * u /\ finite (x /. T) = true /\ finite (t *. m) = true /\ 1 <= B2R (x /. T) <= B2R x / Tv * (1 + u) /\ 1 <= B2R (t *. m) /\ B2R (t *. m) * sqrt (B2R (x /. T)) = k * (B2R m * sqrt (B2R x)).
Proof.
  intros Fx Fm (Ft & Vt) (FT & VT) HT1 HT2 HX M1 MB. destruct (u_rng f) as (U & _). assert (T4 : 4 <= Tv) by (rewrite HT2; nra). assert (x0 : 0 < B2R x) by lra.
  assert (Q1 : 1 <= B2R x / Tv). { apply Rmult_le_reg_r with Tv. lra. unfold Rdiv. rewrite Rmult_assoc, Rinv_l; lra. }
  assert (m1 := fm_one f).
  assert (QX : B2R x / Tv <= B2R x). { apply Rmult_le_reg_r with Tv. lra. unfold Rdiv. rewrite Rmult_assoc, Rinv_l, Rmult_1_r by lra. rewrite <- (Rmult_1_r (B2R x)) at 1. apply Rmult_le_compat_l; lra. }
  destruct (fdiv_spec x T Fx) as (V & F). rewrite VT; lra. { rewrite VT. apply Rle_lt_trans with (Rabs (rnd f (B2R x))). rewrite !rnd_abs. apply rnd_le. rewrite !Rabs_pos_eq; lra. rewrite rnd_B2R. apply B2R_lt_emax. } rewrite VT in V.
  destruct (rnd_rel f (B2R x / Tv)) as (e & He & E). rewrite Rabs_pos_eq; lra.
  assert (SX : sqrt (B2R x) = tv * sqrt (B2R x / Tv)). { replace (B2R x) with (tv * tv * (B2R x / Tv)) at 1 by (rewrite HT2; field; nra). rewrite sqrt_mult, sqrt_square; lra. }
  assert (S1 : 1 <= sqrt (B2R x / Tv)) by (rewrite <- sqrt_1 at 1; apply sqrt_le_1; lra).
  assert (TM : 1 <= tv * B2R m) by (replace 1 with (1 * 1) by ring; apply Rmult_le_compat; lra).
  assert (B : tv * B2R m <= bpow radix2 (emax f - 2)). { apply Rle_trans with (2 := MB). rewrite SX. replace (B2R m * (tv * sqrt (B2R x / Tv))) with (tv * B2R m * sqrt (B2R x / Tv)) by ring. rewrite <- (Rmult_1_r (tv * B2R m)) at 1. apply Rmult_le_compat_l; lra. }
  destruct (fmul_spec t m Ft Fm) as (V' & F'). { rewrite Vt. apply rnd_lt_emax_bpow with (emax f - 2)%Z. split; unfold emin; destruct f; cbn; lia. rewrite Rabs_pos_eq; lra. } rewrite Vt in V'.
  destruct (rnd_rel f (tv * B2R m)) as (e' & He' & E'). rewrite Rabs_pos_eq; lra.
  assert (G1 : generic_format radix2 (fexpf f) 1). { change 1 with (bpow radix2 0). apply fmt_bpow. unfold emin; destruct f; cbn; lia. }
  exists ((1 + e') * sqrt (1 + e)). split. apply kap; auto. split; auto. split; auto. split. split. rewrite V. apply rnd_ge_fmt; auto. rewrite V, E. change (bpow radix2 (- prec f)) with u in He. apply Rabs_le_inv in He. apply Rmult_le_compat_l; lra.
  split. rewrite V'. apply rnd_ge_fmt; auto.
  rewrite V, V', E, E', SX. change (bpow radix2 (- prec f)) with u in He. apply Rabs_le_inv in He. rewrite sqrt_mult by lra. ring.
Qed.
Lemma compose w M k B b : Rabs (k - 1) <= 151 / 100 * u -> 0 <= B <= 2000 -> 0 < M -> Rabs (w - k * M) <= B * u * (k * M) -> B + 152 / 100 <= b -> Rabs (w - M) <= b * u * M.
Proof.
  intros K HB M0 H Hb. destruct (u_rng f) as (U & _). apply Rabs_le_inv in K. assert (UM : 0 < u * M) by (apply Rmult_lt_0_compat; lra).
  replace (w - M) with ((w - k * M) + (k - 1) * M) by ring. eapply Rle_trans. apply Rabs_triang. rewrite (Rabs_mult (k - 1)), (Rabs_pos_eq M) by lra.
  assert (Rabs (k - 1) * M <= 151 / 100 * u * M) by (apply Rmult_le_compat_r; [lra|apply Rabs_le; lra]).
  assert (B * u * (k * M) <= B * u * ((1 + 151 / 100 * u) * M)). { apply Rmult_le_compat_l. apply Rmult_le_pos; lra. apply Rmult_le_compat_r; lra. }
  assert (B * u <= 2000 * / 16777216) by (apply Rmult_le_compat; lra). assert ((B * u) * (u * M) <= (2000 * / 16777216) * (u * M)) by (apply Rmult_le_compat_r; lra).
  assert ((B + 152 / 100) * (u * M) <= b * (u * M)) by (apply Rmult_le_compat_r; lra).
  replace (B * u * ((1 + 151 / 100 * u) * M)) with (B * (u * M) + 151 / 100 * (B * u * (u * M))) in H1 by ring. lra.
Qed.
Definition bnd (r : R) : R := 4 + Rmax 0 (ln r) / 10.
Lemma ln_emax (x : flt f) : 1 <= B2R x -> 0 <= ln (B2R x) <= 12000.
Proof.
  intros X. split. rewrite <- ln_1. destruct X as [X| <-]; [left; apply ln_increasing; lra|lra].
  assert (L := B2R_lt_emax x). rewrite Rabs_pos_eq in L by lra. apply Rle_trans with (ln (bpow radix2 (emax f))). left. apply ln_increasing; lra.
  rewrite bpow_exp, ln_exp. change (IZR radix2) with 2. assert (H : (emax f <= 16384)%Z) by (destruct f; discriminate). apply IZR_le in H. assert (0 <= IZR (emax f)) by (apply (IZR_le 0); destruct f; discriminate). assert (0 <= ln 2 <= 7 / 10) by (split; interval). apply Rle_trans with (16384 * (7 / 10)). apply Rmult_le_compat; lra. lra.
Qed.
Lemma bnd_rng (x : flt f) : 1 <= B2R x -> 4 <= bnd (B2R x) <= 2000 /\ bnd (B2R x) = 4 + ln (B2R x) / 10.
Proof. intros X. assert (L := ln_emax x X). unfold bnd. rewrite Rmax_right by lra. lra. Qed.
Lemma simp_any n : forall (x m : flt f) w, sqrt_simplify n x m = Ok w -> finite x = true -> 1 <= B2R x -> finite m = true -> 1 <= B2R m -> B2R m * sqrt (B2R x) * (1 + 2 * u) ^ n <= bpow radix2 (emax f - 2) ->
  finite w = true /\ Rabs (B2R w - B2R m * sqrt (B2R x)) <= bnd (B2R x) * u * (B2R m * sqrt (B2R x)).
Proof.
  destruct (u_rng f) as (U & _). assert (m1 := fm_one f). assert (m2 : bpow radix2 (-170) <= 1) by (apply (bpow_le radix2 _ 0); discriminate).
  assert (SM : forall n (x m : flt f) w, sqrt_simplify n x m = Ok w -> finite x = true -> 1 <= B2R x -> B2R x <= 100 -> finite m = true -> 1 <= B2R m -> B2R m * sqrt (B2R x) <= bpow radix2 (emax f - 2) ->
    finite w = true /\ Rabs (B2R w - B2R m * sqrt (B2R x)) <= 272 / 100 * u * (B2R m * sqrt (B2R x))).
  { clear n. intros n x m w E Fx X1 X2 Fm M1 MB. destruct (simp100 3 (n + 4) x m 1) as (w' & E' & F' & R'); auto; try lra; try lia. left; auto.
    assert (Ew : sqrt_simplify (n + 4) x m = Ok w) by (apply (sqrt_simplify_mono n); auto; lia). assert (w' = w) by congruence. subst w'. split; auto. apply Rle_trans with (1 := R'). apply Rmult_le_compat_r. apply Rmult_le_pos. lra. apply sqrt_pos. lra. }
  induction n as [|n IH]; intros x m w E Fx X1 Fm M1 MB. discriminate.
  assert (PW : forall k, 1 <= (1 + 2 * u) ^ k) by (intros; apply pow_R1_Rle; lra). assert (s1 : 1 <= sqrt (B2R x)) by (rewrite <- sqrt_1 at 1; apply sqrt_le_1; lra).
  set (M := B2R m * sqrt (B2R x)) in * . assert (M0 : 0 < M) by (apply Rmult_lt_0_compat; lra).
  assert (MB1 : M <= bpow radix2 (emax f - 2)). { apply Rle_trans with (2 := MB). rewrite <- (Rmult_1_r M) at 1. apply Rmult_le_compat_l. lra. apply PW. }
  assert (MK : forall k, Rabs (k - 1) <= 151 / 100 * u -> k * M * (1 + 2 * u) ^ n <= bpow radix2 (emax f - 2) /\ k * M <= bpow radix2 (emax f - 2)).
  { intros k K. apply Rabs_le_inv in K. assert (k * M * (1 + 2 * u) ^ n <= bpow radix2 (emax f - 2)). { apply Rle_trans with (2 := MB). cbn [pow]. rewrite <- (Rmult_assoc M). apply Rmult_le_compat_r. specialize (PW n); lra. rewrite (Rmult_comm M). apply Rmult_le_compat_r; lra. } split; auto.
    apply Rle_trans with (2 := H). rewrite <- (Rmult_1_r (k * M)) at 1. apply Rmult_le_compat_l. apply Rmult_le_pos; lra. apply PW. }
  destruct (bnd_rng x X1) as (B1 & B2). destruct (tests x Fx) as (T8 & T6 & T4 & T2 & T0).
  destruct (lit_ints f) as (L2 & L4 & L6 & L8 & L3). assert (L100 : has_val (ofZ f 100) 100) by (split; [apply ofZ_fin; lia|apply ofZ_B2R; lia]). assert (L10 : has_val (ofZ f 10) 10) by (split; [apply ofZ_fin; lia|apply ofZ_B2R; lia]).
  destruct (Rle_or_lt (B2R x) 100) as [C|C].
  { destruct (SM (S n) x m w) as (F & R); auto. split; auto. apply Rle_trans with (1 := R). change (B2R m * sqrt (B2R x)) with M. apply Rmult_le_compat_r. lra. apply Rmult_le_compat_r; lra. }
  rewrite sqrt_simplify_S, T8, T6, T4, T2, T0 in E.
  assert (LN : 46 / 10 <= ln (B2R x)). { apply Rle_trans with (ln 100). interval. left. apply ln_increasing; lra. }
  assert (MID : forall (t T : flt f) tv Tv, has_val t tv -> has_val T Tv -> 2 <= tv <= 10000 -> Tv = tv * tv -> Tv <= B2R x -> B2R x <= 100 * Tv -> sqrt_simplify n (x /. T) (t *. m) = Ok w -> finite w = true /\ Rabs (B2R w - M) <= bnd (B2R x) * u * M).
  { intros t T tv Tv Ht HT R1 R2 R3 R4 E'. destruct (simp_step x m t T tv Tv) as (k & K & F1 & F2 & X' & M' & EQ); auto.
    assert (XB : B2R (x /. T) <= 100). { destruct HT as (FT & VT). assert (T4' : 4 <= Tv) by (rewrite R2; nra). assert (Q : 0 <= B2R x / Tv <= 100). { split. apply Rmult_le_pos. lra. left. apply Rinv_0_lt_compat; lra. apply Rmult_le_reg_r with Tv. lra. unfold Rdiv. rewrite Rmult_assoc, Rinv_l; lra. }
      assert (B10 : 100 <= bpow radix2 120) by (cbn; lra). assert (W : Rabs (rnd f (B2R x / B2R T)) < bpow radix2 (emax f)) by (apply wide_fin; rewrite VT, Rabs_pos_eq; lra). rewrite (proj1 (fdiv_spec x T Fx ltac:(rewrite VT; lra) W)), VT. apply rnd_le_fmt. rewrite <- (proj2 L100). apply fmt_format. lra. }
    destruct (SM n (x /. T) (t *. m) w E') as (F & R); auto; try lra. rewrite EQ. apply MK; auto.
    split; auto. rewrite EQ in R. change (B2R m * sqrt (B2R x)) with M in R. apply (compose (B2R w) M k (272 / 100)); auto; lra. }
  destruct (Rlt_bool_spec 100000000 (B2R x)) as [C8|C8].
  { destruct (simp_step x m (dlit f 10000 0) (dlit f 100000000 0) 10000 100000000) as (k & K & F1 & F2 & X' & M' & EQ); auto; try lra.
    destruct (IH _ _ _ E) as (F & R); auto; try lra. rewrite EQ. apply MK; auto.
    split; auto. rewrite EQ in R. change (B2R m * sqrt (B2R x)) with M in R. destruct (bnd_rng _ (proj1 X')) as (B1' & B2').
    apply (compose (B2R w) M k (bnd (B2R (x /. dlit f 100000000 0)))); auto; try lra. rewrite B2, B2'.
    assert (ln (B2R (x /. dlit f 100000000 0)) <= ln (B2R x / 20000000)). { apply Rle_trans with (ln (B2R x / 100000000 * (1 + u))). destruct X' as (X'1 & [X'2| ->]); [left; apply ln_increasing; lra|lra]. left. apply ln_increasing. apply Rmult_lt_0_compat; lra. assert (B2R x / 100000000 * (1 + u) <= B2R x / 100000000 * 2) by (apply Rmult_le_compat_l; lra). lra. }
    replace (B2R x / 20000000) with (B2R x * / 20000000) in H by reflexivity. rewrite ln_mult in H by lra. assert (ln (/ 20000000) <= -16) by interval. lra. }
  destruct (Rlt_bool_spec 1000000 (B2R x)) as [C6|C6]. { apply (MID (dlit f 1000 0) (dlit f 1000000 0) 1000 1000000); auto; lra. }
  destruct (Rlt_bool_spec 10000 (B2R x)) as [C4|C4]. { apply (MID (dlit f 100 0) (dlit f 10000 0) 100 10000); auto; lra. }
  rewrite Rlt_bool_true in E by auto. apply (MID (ofZ f 10) (ofZ f 100) 10 100); auto; lra.
Qed.
(** sqrt *)
Lemma root_fit (x : flt f) : 1 <= B2R x -> sqrt (B2R x) * 2 <= bpow radix2 (emax f - 2).
Proof.
  intros X. assert (L := B2R_lt_emax x). rewrite Rabs_pos_eq in L by lra. apply Rle_trans with (bpow radix2 (emax f / 2) * bpow radix2 1). 2: { rewrite <- bpow_plus. apply bpow_le. destruct f; discriminate. }
  change (bpow radix2 1) with 2. apply Rmult_le_compat_r. lra. rewrite <- (sqrt_square (bpow radix2 (emax f / 2))) by apply bpow_ge_0. rewrite <- bpow_plus. apply sqrt_le_1. lra. apply bpow_ge_0. replace (emax f / 2 + emax f / 2)%Z with (emax f) by (destruct f; reflexivity). lra.
Qed.
Lemma near_one (x : flt f) : finite x = true -> 0 <= B2R x -> (ModelBasic.abs (ofZ f 1 -. x) <. fmin f) = true -> Rabs (1 - B2R x) < fm.
Proof.
  intros Fx X0 C. destruct (ofZ_small f 1 ltac:(lia)) as (V1 & F1 & _). change (IZR 1) with 1 in V1. destruct (fmin_spec f) as (Vm & Fm).
  destruct (fsub_spec (ofZ f 1) x F1 Fx) as (V & F). { rewrite V1. destruct (Rle_or_lt 1 (B2R x)). apply Rle_lt_trans with (2 := B2R_lt_emax x). rewrite <- (rnd_B2R x) at 2. rewrite !rnd_abs. apply rnd_le. apply Rle_trans with (B2R x); [apply Rabs_le; lra|apply Rle_abs].
    apply wide_fin. apply Rle_trans with 1. apply Rabs_le; lra. cbn; lra. }
  apply flt_true_inv in C; auto. 2: rewrite abs_finite; auto. rewrite abs_B2R, Vm, V, V1, rnd_abs in C.
  apply Rnot_le_lt. intros N. apply (rnd_ge_fmt f) in N. lra. rewrite <- Vm. apply fmt_format.
Qed.
Lemma sqrt_near a : 0 <= a -> Rabs (a - sqrt a) <= Rabs (1 - a) * sqrt a.
Proof.
  intros A. assert (S0 := sqrt_pos a). assert (SS := sqrt_sqrt a A). set (t := sqrt a) in * . replace (a - t) with ((t - 1) * t) by (rewrite <- SS; ring). rewrite Rabs_mult, (Rabs_pos_eq t) by auto. apply Rmult_le_compat_r; auto.
  rewrite <- SS. replace (1 - t * t) with (- ((t - 1) * (t + 1))) by ring. rewrite Rabs_Ropp, Rabs_mult, (Rabs_pos_eq (t + 1)) by lra. rewrite <- (Rmult_1_r (Rabs (t - 1))) at 1. apply Rmult_le_compat_l. apply Rabs_pos. lra.
Qed.
Lemma sqrt_check_acc (x : flt f) : finite x = true -> fm <= B2R x -> bpow radix2 (-170) <= B2R x ->
  exists w, sqrt_check x = Ok w /\ finite w = true /\ rel_err (B2R w) (sqrt (B2R x)) ((if Rle_dec (B2R x) 100 then 17 / 10 else 4 + ln (B2R x) / 10) * u).
Proof.
  intros Fx X0 X1. assert (m0 := bpow_gt_0 radix2 (2 - emax f)). destruct (u_rng f) as (U & _). assert (m1 := fm_one f).
  destruct (ofZ_small f 0 ltac:(lia)) as (V0 & F0 & _). destruct (ofZ_small f 1 ltac:(lia)) as (V1 & F1 & _). change (IZR 0) with 0 in V0. change (IZR 1) with 1 in V1. destruct (fmin_spec f) as (Vm & Fm).
  assert (s0 : 0 < sqrt (B2R x)) by (apply sqrt_lt_R0; lra).
  unfold sqrt_check, rel_err. rewrite finite_not_nan by auto. rewrite (flt_false x (ofZ f 0)) by (rewrite ?V0; auto; lra). replace (is_posinf x) with false by (destruct x; try discriminate; reflexivity).
  rewrite (flt_false (ModelBasic.abs x) (fmin f)). 2: rewrite abs_finite; auto. 2: auto. 2: rewrite abs_B2R, Vm, Rabs_pos_eq; lra. rewrite (Rabs_pos_eq (sqrt _)) by lra.
  destruct (ModelBasic.abs (ofZ f 1 -. x) <. fmin f) eqn:C.
  { exists x. split; auto. split; auto. assert (N := near_one x Fx ltac:(lra) C). assert (X100 : B2R x <= 2) by (apply Rabs_lt_inv in N; lra). destruct Rle_dec; [|lra].
    assert (M : fm <= u * / 1000000). { apply Rle_trans with (u * bpow radix2 (-20)). unfold uf. rewrite <- bpow_plus. apply bpow_le. destruct f; discriminate. apply Rmult_le_compat_l. lra. cbn; lra. }
    apply Rle_trans with (1 := sqrt_near (B2R x) ltac:(lra)). apply Rmult_le_compat_r; lra. }
  destruct (Rle_or_lt (B2R x) 100) as [H|H].
  - destruct (simp100 3 sqrt_fuel x (ofZ f 1) 0) as (w & E & F & R); auto; try lra; rewrite ?V1; try lra. vm_compute; lia. { rewrite Rmult_1_l. apply Rle_trans with (sqrt (10 * 10)). apply sqrt_le_1; lra. rewrite sqrt_square by lra. apply Rle_trans with (bpow radix2 4). cbn; lra. apply bpow_le. destruct f; discriminate. } { right. split; auto. exists 0%Z. split. lia. exact V1. }
    exists w. split; auto. split; auto. rewrite V1, !Rmult_1_l in R. destruct Rle_dec; [|lra]. replace (17 / 10 * u) with ((17 / 10 + 0 + 0 / 100) * u) by field. exact R.
  - destruct (sqrt_simplify_depth x (ofZ f 1) Fx) as (w & E'). assert (E := sqrt_simplify_mono _ _ _ _ _ (sqrt_depth_fuel f) E').
    assert (X1' : 1 <= B2R x) by lra. destruct (simp_any (sqrt_depth f + 26) x (ofZ f 1) w) as (F & R); auto; rewrite ?V1, ?Rmult_1_l in *; try lra.
    { apply Rle_trans with (2 := root_fit x X1'). apply Rmult_le_compat_l. lra. assert (P : forall k, (1 + 2 * u) ^ k <= 1 + 4 * u * INR k \/ 700 < INR k).
      { induction k. left; cbn; lra. destruct IHk as [H1|H1]. 2: right; rewrite S_INR; lra. destruct (Rle_or_lt (INR (S k)) 700). 2: right; auto. left. rewrite S_INR in * . cbn [pow]. assert (0 <= INR k) by apply pos_INR. apply Rle_trans with ((1 + 2 * u) * (1 + 4 * u * INR k)). apply Rmult_le_compat_l; lra. assert (u * INR k <= / 16777216 * 700) by (apply Rmult_le_compat; lra). assert (u * (u * INR k) <= u * (/ 16777216 * 700)) by (apply Rmult_le_compat_l; lra). lra. }
      assert (D : INR (sqrt_depth f + 26) <= 650). { rewrite INR_IZR_INZ. apply IZR_le. destruct f; vm_compute; discriminate. } destruct (P (sqrt_depth f + 26)%nat) as [H1|H1]; [|lra]. apply Rle_trans with (1 := H1). assert (u * INR (sqrt_depth f + 26) <= / 16777216 * 650) by (apply Rmult_le_compat; try lra; apply pos_INR). lra. }
    exists w. split; auto. split; auto. destruct Rle_dec; [lra|]. rewrite <- (proj2 (bnd_rng x X1')). exact R.
Qed.
End Q.

(** ** Tiny arguments: the iteration limit is reached far from the root *)
Section T.
Variables (f : fmt) (x : flt f).
Hypotheses (Fx : finite x = true) (X0 : bpow radix2 (2 - emax f) <= B2R x) (X1 : B2R x <= bpow radix2 (-210)).
Lemma tiny_emax : (212 <= emax f)%Z.
Proof. assert (H : bpow radix2 (2 - emax f) <= bpow radix2 (-210)) by lra. apply le_bpow in H. lia. Qed.
Lemma one_fmt k : (-110 <= k)%Z -> generic_format radix2 (fexpf f) (bpow radix2 k).
Proof. intros. apply fmt_bpow. assert (H1 := tiny_emax). assert (G : forall g, (212 <= emax g)%Z -> (emin g <= -110)%Z) by (intros []; unfold emin; cbn; lia). specialize (G f H1). lia. Qed.
Lemma tiny_step (xn : flt f) k : finite xn = true -> (-100 <= k <= 0)%Z -> bpow radix2 k <= B2R xn <= 8 -> let y := half f *. (xn +. x /. xn) in finite y = true /\ bpow radix2 (k - 1) <= B2R y <= 8.
Proof.
  intros Fn K N y. assert (x0 := bpow_gt_0 radix2 (2 - emax f)). assert (n0 := bpow_gt_0 radix2 k). assert (E := tiny_emax).
  assert (Q : 0 <= B2R x / B2R xn <= 1). { split. apply Rmult_le_pos. lra. left. apply Rinv_0_lt_compat. lra. apply Rmult_le_reg_r with (B2R xn). lra. unfold Rdiv. rewrite Rmult_assoc, Rinv_l, Rmult_1_r, Rmult_1_l by lra. apply Rle_trans with (1 := X1). apply Rle_trans with (2 := proj1 N). apply bpow_le. lia. }
  assert (B : 16 <= bpow radix2 120) by (cbn; lra).
  destruct (fdiv_spec x xn Fx) as (V & F). lra. apply wide_fin. rewrite Rabs_pos_eq; lra.
  assert (QR : 0 <= B2R (x /. xn) <= 1). { rewrite V. split. apply rnd_ge_0; lra. apply rnd_le_fmt; [|lra]. apply (one_fmt 0). lia. }
  destruct (fadd_spec xn (x /. xn) Fn F) as (Va & Fa). apply wide_fin. rewrite Rabs_pos_eq; lra.
  assert (A : bpow radix2 k <= B2R (xn +. x /. xn) <= 16). { rewrite Va. split. apply rnd_ge_fmt. apply one_fmt; lia. lra. apply rnd_le_fmt. apply (one_fmt 4). lia. lra. }
  destruct (half_mul (xn +. x /. xn) Fa) as (Fh & Vh). { rewrite Rabs_pos_eq by lra. apply Rle_trans with (2 := proj1 A). apply bpow_le. lia. }
  unfold y. split; auto. rewrite Vh. replace (k - 1)%Z with (k + -1)%Z by ring. rewrite bpow_plus. change (bpow radix2 (-1)) with (/ 2). lra.
Qed.
Lemma tiny_recur j : forall xn : flt f, (j <= 100)%nat -> finite xn = true -> bpow radix2 (Z.of_nat j - 100) <= B2R xn <= 8 -> exists w, sqrt_recur (S j) x xn (100 - Z.of_nat j) = Ok w /\ finite w = true /\ bpow radix2 (-100) <= B2R w <= 8.
Proof.
  induction j as [|j IH]; intros xn J Fn N.
  - cbn [sqrt_recur]. exists xn. split. destruct (_ <. _); reflexivity. auto.
  - remember (S j) as n eqn:En. cbn [sqrt_recur]. destruct (_ <. fmin f).
    + exists xn. split; auto. split; auto. split; [|lra]. apply Rle_trans with (2 := proj1 N). apply bpow_le. lia.
    + replace (100 - Z.of_nat n <? GCEM_SQRT_MAX_ITER)%Z with true by (symmetry; apply Z.ltb_lt; change GCEM_SQRT_MAX_ITER with 100%Z; lia).
      destruct (tiny_step xn (Z.of_nat n - 100) Fn ltac:(lia) N) as (F' & N'). replace (100 - Z.of_nat n + 1)%Z with (100 - Z.of_nat j)%Z by lia. subst n. apply IH; auto. lia. replace (Z.of_nat j - 100)%Z with (Z.of_nat (S j) - 100 - 1)%Z by lia. exact N'.
Qed.
Lemma tiny_iter : exists w, sqrt_recur sqrt_iter_fuel x (x /. ofZ f 2) 0 = Ok w /\ finite w = true /\ bpow radix2 (-100) <= B2R w <= 8.
Proof.
  assert (x0 := bpow_gt_0 radix2 (2 - emax f)). assert (E := tiny_emax). destruct (ofZ_small f 2 ltac:(lia)) as (V2 & F2 & _). change (IZR 2) with 2 in V2.
  assert (XS : bpow radix2 (-210) <= / 1000000) by (apply Rle_trans with (bpow radix2 (-20)); [apply bpow_le; lia|cbn; lra]).
  assert (X4 : B2R x <= 4) by lra. destruct (start_rng f x Fx X0 X4) as (Fn & N). set (xn := x /. ofZ f 2) in * .
  assert (En : exists n, n = 100%nat /\ sqrt_iter_fuel = S n) by (exists 100%nat; split; reflexivity). destruct En as (n & En & ->). cbn [sqrt_recur].
  assert (Q : 1 <= B2R x / B2R xn <= 4). { split; (apply Rmult_le_reg_r with (B2R xn); [lra|]; unfold Rdiv; rewrite Rmult_assoc, Rinv_l, Rmult_1_r by lra; lra). }
  assert (B : 16 <= bpow radix2 120) by (cbn; lra). assert (B' : 16 <= bpow radix2 119) by (cbn; lra).
  destruct (fdiv_spec x xn Fx) as (V & F). lra. apply wide_fin. rewrite Rabs_pos_eq; lra.
  assert (QR : 1 <= B2R (x /. xn) <= 4). { rewrite V. split. apply rnd_ge_fmt; [|lra]. apply (one_fmt 0). lia. apply rnd_le_fmt; [|lra]. apply (one_fmt 2). lia. }
  destruct (_ <. fmin f) eqn:C.
  - exfalso. apply exit_float in C; auto; try lra. 2: apply Rabs_le; lra. assert (M : bpow radix2 (2 - emax f) <= / 1000) by lra. assert (bpow radix2 (2 - emax f) * (1 + B2R xn) <= / 1000 * 2) by (apply Rmult_le_compat; lra). apply Rabs_le_inv in C. lra.
  - change (0 <? GCEM_SQRT_MAX_ITER)%Z with true. cbv iota. replace (0 + 1)%Z with (100 - Z.of_nat 99)%Z by reflexivity. assert (En2 : n = S 99) by exact En. clear En. rewrite En2.
    destruct (fadd_spec xn (x /. xn) Fn F) as (Va & Fa). apply wide_fin. rewrite Rabs_pos_eq; lra.
    assert (A : 1 <= B2R (xn +. x /. xn) <= 8). { rewrite Va. split. apply rnd_ge_fmt. apply (one_fmt 0); lia. lra. apply rnd_le_fmt. apply (one_fmt 3). lia. lra. }
    destruct (half_mul (xn +. x /. xn) Fa) as (Fh & Vh). { rewrite Rabs_pos_eq by lra. apply Rle_trans with (2 := proj1 A). apply (bpow_le radix2 _ 0). lia. }
    apply (tiny_recur 99); auto; try lia. rewrite Vh. replace (Z.of_nat 99 - 100)%Z with (-1)%Z by reflexivity. cbn. lra.
Qed.
Lemma sqrt_tiny : exists w, sqrt_check x = Ok w /\ finite w = true /\ 32 * sqrt (B2R x) <= B2R w.
Proof.
  assert (x0 := bpow_gt_0 radix2 (2 - emax f)). assert (E := tiny_emax). destruct tiny_iter as (r & Er & Fr & Rr). assert (XS : bpow radix2 (-210) <= / 1000000) by (apply Rle_trans with (bpow radix2 (-20)); [apply bpow_le; lia|cbn; lra]).
  destruct (ofZ_small f 0 ltac:(lia)) as (V0 & F0 & _). destruct (ofZ_small f 1 ltac:(lia)) as (V1 & F1 & _). change (IZR 0) with 0 in V0. change (IZR 1) with 1 in V1. destruct (fmin_spec f) as (Vm & Fm).
  assert (B : sqrt (B2R x) <= bpow radix2 (-105)). { rewrite <- (sqrt_square (bpow radix2 (-105))) by apply bpow_ge_0. apply sqrt_le_1. lra. apply Rle_0_sqr. rewrite <- bpow_plus. exact X1. }
  assert (B2 : 32 * bpow radix2 (-105) = bpow radix2 (-100)) by (change 32 with (bpow radix2 5); rewrite <- bpow_plus; reflexivity).
  unfold sqrt_check. rewrite finite_not_nan by auto. rewrite (flt_false x (ofZ f 0)) by (rewrite ?V0; auto; lra). replace (is_posinf x) with false by (destruct x; try discriminate; reflexivity).
  rewrite (flt_false (ModelBasic.abs x) (fmin f)). 2: rewrite abs_finite; auto. 2: auto. 2: rewrite abs_B2R, Vm, Rabs_pos_eq; lra.
  destruct (ModelBasic.abs (ofZ f 1 -. x) <. fmin f) eqn:C. { exfalso. apply near_one in C; auto; try lra. apply Rabs_lt_inv in C. lra. }
  assert (EF : exists n, sqrt_fuel = S n) by (exists (Z.to_nat 799); vm_compute; reflexivity). destruct EF as (n & ->). destruct (tests f x Fx) as (T8 & T6 & T4 & T2 & T0). rewrite sqrt_simplify_S, T8, T6, T4, T2, T0, !Rlt_bool_false by lra. rewrite Er. cbn [bind].
  exists (ofZ f 1 *. r). destruct (fmul_spec (ofZ f 1) r F1 Fr) as (V & F). rewrite V1, Rmult_1_l, rnd_B2R. apply B2R_lt_emax. split; auto. split; auto. rewrite V, V1, Rmult_1_l, rnd_B2R. lra.
Qed.
End T.

(** ** The public function *)
Lemma api_sqrt_small f (x : flt f) : finite x = true -> bpow radix2 (2 - emax f) <= B2R x -> bpow radix2 (-170) <= B2R x -> B2R x <= 100 ->
  exists w, gcem_sqrt (AFlt f x) = Ok w /\ finite w = true /\ rel_err (B2R w) (sqrt (B2R x)) (17 / 10 * bpow radix2 (- prec f)).
Proof. intros Fx X0 X1 X2. destruct (sqrt_check_acc f x Fx X0 X1) as (w & E & F & R). exists w. split; [exact E|]. split; auto. destruct Rle_dec; [exact R|lra]. Qed.
Lemma api_sqrt_large f (x : flt f) : finite x = true -> 100 < B2R x ->
  exists w, gcem_sqrt (AFlt f x) = Ok w /\ finite w = true /\ rel_err (B2R w) (sqrt (B2R x)) ((4 + ln (B2R x) / 10) * bpow radix2 (- prec f)).
Proof.
  intros Fx X. assert (m1 := fm_one f). assert (m2 : bpow radix2 (-170) <= 1) by (apply (bpow_le radix2 _ 0); discriminate).
  destruct (sqrt_check_acc f x Fx ltac:(lra) ltac:(lra)) as (w & E & F & R). exists w. split; [exact E|]. split; auto. destruct Rle_dec; [lra|exact R].
Qed.
Lemma api_sqrt_tiny f (x : flt f) : finite x = true -> bpow radix2 (2 - emax f) <= B2R x -> B2R x <= bpow radix2 (-210) ->
  exists w, gcem_sqrt (AFlt f x) = Ok w /\ finite w = true /\ 32 * sqrt (B2R x) <= B2R w.
Proof. exact (sqrt_tiny f x). Qed.
