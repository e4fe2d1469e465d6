(** * The continued fraction of erf for large arguments: truncation and
    rounding errors. *)
From Verif Require Import Base FltLemmas ConvLemmas ModelBasic ModelElem ModelSpecial BasicProofs CxxProofs Spec.
From Coq Require Import Lra Psatz.
From Coquelicot Require Import Coquelicot.
From Interval Require Import Tactic.
From Verif Require Import RangeProofs MiscProofs ExpAcc PowReal FPErr CFBound CFAcc SinAcc SqrtSimp TanhAcc ErfReal ErfBound ErfSmall SpecErf ErfAcc.
Open Scope R_scope.

(** The residual decreases when the argument grows. *)
Lemma lcf_mono n : forall d X Y, (1 <= d)%Z -> 0 < X <= Y -> X * lcf n d X <= Y * lcf n d Y /\ lcf n d Y / Y <= lcf n d X / X.
Proof.
  induction n; intros d X Y Hd H.
  - unfold lcf. cbn [up_rec]. split. apply Rmult_le_compat; lra. right. field. lra.
  - destruct (IHn (d + 1)%Z X Y ltac:(lia) H) as (H1 & H2). assert (P1 := lcf_ge n (d + 1) X ltac:(lia) ltac:(lra)). assert (P2 := lcf_ge n (d + 1) Y ltac:(lia) ltac:(lra)).
    rewrite !lcf_S. set (s := lcf n (d + 1) X) in * . set (t := lcf n (d + 1) Y) in * . assert (D : 0 < IZR (2 * d)) by (apply IZR_lt; lia). set (c := IZR (2 * d)) in * .
    assert (A : 0 < t / Y) by (apply Rdiv_lt_0_compat; lra). assert (B : 0 < X * s) by (apply Rmult_lt_0_compat; lra).
    split.
    + replace (X * (X + c / s)) with (X * X + c * / (s / X)) by (field; lra). replace (Y * (Y + c / t)) with (Y * Y + c * / (t / Y)) by (field; lra).
      apply Rplus_le_compat. apply Rmult_le_compat; lra. apply Rmult_le_compat_l. lra. apply Rinv_le_contravar; lra.
    + replace ((X + c / s) / X) with (1 + c * / (X * s)) by (field; lra). replace ((Y + c / t) / Y) with (1 + c * / (Y * t)) by (field; lra).
      apply Rplus_le_compat_l. apply Rmult_le_compat_l. lra. apply Rinv_le_contravar; lra.
Qed.
Lemma lprod_pos n : forall d X, (1 <= d)%Z -> 0 < X -> 0 <= lprod n d X.
Proof.
  induction n; intros d X Hd HX; cbn [lprod]. lra. apply Rmult_le_pos; [|apply IHn; auto; lia]. assert (P := lcf_ge n (d + 1) X ltac:(lia) HX). assert (0 < IZR (2 * d)) by (apply IZR_lt; lia).
  apply Rmult_le_pos. lra. left. apply Rinv_0_lt_compat. assert (0 < X * lcf n (d + 1) X) by (apply Rmult_lt_0_compat; lra). lra.
Qed.
Lemma lprod_dec n : forall d X Y, (1 <= d)%Z -> 0 < X <= Y -> lprod n d Y <= lprod n d X.
Proof.
  induction n; intros d X Y Hd H; cbn [lprod]. lra. assert (P := lcf_ge n (d + 1) X ltac:(lia) ltac:(lra)). assert (P' := lcf_ge n (d + 1) Y ltac:(lia) ltac:(lra)). assert (D : 0 < IZR (2 * d)) by (apply IZR_lt; lia).
  assert (Q : 0 < X * lcf n (d + 1) X) by (apply Rmult_lt_0_compat; lra). assert (Q' : 0 < Y * lcf n (d + 1) Y) by (apply Rmult_lt_0_compat; lra). destruct (lcf_mono n (d + 1) X Y ltac:(lia) H) as (M & _).
  assert (I : 0 < / (IZR (2 * d) + Y * lcf n (d + 1) Y)) by (apply Rinv_0_lt_compat; lra).
  apply Rmult_le_compat. apply Rmult_le_pos; lra. apply lprod_pos; lia || lra. apply Rmult_le_compat_l. lra. apply Rinv_le_contravar; lra. apply IHn; auto; lia.
Qed.
Definition X0 : R := 41999 / 10000.
Lemma lprod_X0 : 120 * lprod 59 1 X0 <= bpow radix2 (-55) * (X0 * lcf 59 1 X0).
Proof.
  change (bpow radix2 (-55)) with (/ 36028797018963968).
  cbv [lprod lcf up_rec lcf_step Z.add Z.mul Pos.add Pos.mul Pos.succ]. unfold X0.
  interval with (i_prec 70).
Qed.
Lemma lw_near x : 209995 / 100000 <= x -> Rabs (lw 59 x - gtail x) <= bpow radix2 (-55) * gtail x.
Proof.
  apply lw_trunc. lra. clear x. intros x Hx. set (Y := 2 * x). assert (HY : 0 < X0 <= Y) by (unfold X0, Y; lra).
  assert (P := lcf_ge 59 1 Y ltac:(lia) ltac:(lra)). assert (P0 := lcf_ge 59 1 X0 ltac:(lia) ltac:(lra)). assert (Q := lres_prod 59 1 Y ltac:(lia) ltac:(lra)). change (IZR (2 * (1 + Z.of_nat 59))) with 120 in Q.
  destruct (lcf_mono 59 1 X0 Y ltac:(lia) HY) as (M & _). assert (D := lprod_dec 59 1 X0 Y ltac:(lia) HY). assert (B := lprod_X0).
  set (c := lcf 59 1 Y) in * . set (c0 := lcf 59 1 X0) in * .
  assert (C : 0 < Y * c) by (apply Rmult_lt_0_compat; lra).
  replace (lres 59 1 Y / (c * c)) with (lres 59 1 Y * Y / (Y * c * c)) by (field; lra). rewrite Q.
  replace (120 * lprod 59 1 Y * c / (Y * c * c)) with (120 * lprod 59 1 Y / (Y * c)) by (field; lra).
  apply Rle_div_l. auto. apply Rle_trans with (120 * lprod 59 1 X0). apply Rmult_le_compat_l; lra. eapply Rle_trans. exact B. apply Rmult_le_compat_l. apply bpow_ge_0. exact M.
Qed.

(** The floating-point continued fraction. *)
Definition lsf_step {f} (x : flt f) (k : Z) (r : flt f) : flt f := x +. ofZ f (2 * k) /. r.
Definition lsf {f} (x : flt f) (n : nat) (d : Z) : flt f := up_rec n d (lsf_step x) x.
Lemma lcf_le n : forall d X, (1 <= d)%Z -> 4 <= X -> lcf n d X <= X + IZR d.
Proof.
  intros d X Hd HX. destruct n. unfold lcf. cbn [up_rec]. assert (0 <= IZR d) by (apply IZR_le; lia). lra. rewrite lcf_S. assert (P := lcf_ge n (d + 1) X ltac:(lia) ltac:(lra)). set (t := lcf n (d + 1) X) in * .
  apply Rplus_le_compat_l. rewrite mult_IZR. assert (0 <= IZR d) by (apply IZR_le; lia). apply Rle_div_l. lra. rewrite (Rmult_comm 2). apply Rmult_le_compat_l; lra.
Qed.
Lemma lsf_acc {f} (x : flt f) : finite x = true -> 4 <= B2R x <= bpow radix2 40 -> forall n d, (1 <= d)%Z -> (d + Z.of_nat n <= 1000)%Z -> (Z.of_nat n <= 100)%Z ->
  finite (lsf x n d) = true /\ Rabs (B2R (lsf x n d) - lcf n d (B2R x)) <= 21 / 10 * INR n * uf f * lcf n d (B2R x).
Proof.
  intros Fx X. assert (u0 := uf_pos f). assert (u1 : uf f <= / 16777216) by (change (/ 16777216) with (bpow radix2 (-24)); apply uf_le). change (bpow radix2 40) with 1099511627776 in X. set (a := B2R x) in * .
  induction n; intros d Hd Hn Hm.
  - unfold lsf, lcf. cbn [up_rec]. split; auto. fold a. rewrite Rminus_diag_eq, Rabs_R0 by auto. cbn [INR]. right. ring.
  - destruct (IHn (d + 1)%Z ltac:(lia) ltac:(lia) ltac:(lia)) as (Fr & Er). assert (P := lcf_ge n (d + 1) a ltac:(lia) ltac:(lra)). assert (U := lcf_le n (d + 1) a ltac:(lia) ltac:(lra)). assert (d + 1 <= 1001)%Z by lia. assert (IZR (d + 1) <= 1001) by (apply IZR_le; lia).
    change (lsf x (S n) d) with (x +. ofZ f (2 * d) /. lsf x n (d + 1)). rewrite lcf_S. set (r := lsf x n (d + 1)) in * . set (t := lcf n (d + 1) a) in * .
    assert (N0 : 0 <= INR n <= 100). { split. apply pos_INR. rewrite INR_IZR_INZ. apply IZR_le. lia. } rewrite S_INR. set (N := INR n) in * .
    destruct (fac_of _ t _ ltac:(lra) Er) as (k & Ek & Hk). assert (C0 : 0 <= 21 / 10 * N * uf f <= / 70000). { split. apply Rmult_le_pos; lra. apply Rle_trans with (21 / 10 * 100 * / 16777216). apply Rmult_le_compat; lra. lra. }
    set (c := 21 / 10 * N * uf f) in * . assert (K := Hk). apply Rabs_le_inv in K.
    destruct (ofZ_small f (2 * d)) as (Vd & Fd & _). lia.
    assert (D : 2 <= IZR (2 * d) <= 2002) by (split; apply IZR_le; lia). set (b := IZR (2 * d)) in * .
    assert (Kr : 0 < t * k) by (apply Rmult_lt_0_compat; lra). assert (Kl : 3 <= t * k) by (apply Rle_trans with (4 * (9 / 10)); [lra|apply Rmult_le_compat; lra]). assert (Ku : t * k <= 2199023255552) by (apply Rle_trans with (1099511629000 * (11 / 10)); [apply Rmult_le_compat; lra|lra]).
    assert (Ki := fac_inv k c Hk ltac:(lra)). assert (Kc : c / (1 - c) <= c * (60001 / 60000)).
    { apply Rle_div_l. lra. replace (c * (60001 / 60000) * (1 - c)) with (c * (60001 / 60000 * (1 - c))) by ring. replace c with (c * 1) at 1 by ring. apply Rmult_le_compat_l; lra. }
    assert (Cu : c <= 210 * uf f) by (unfold c; apply Rmult_le_compat_r; lra).
    assert (Bd : 1 / 2199023255552 <= b / (t * k) <= 2002). { split. apply Rmult_le_compat; try lra. apply Rinv_le_contravar; lra. apply Rle_div_l. auto. apply Rle_trans with (2002 * 3). lra. apply Rmult_le_compat_l; lra. }
    assert (fm60 : bpow radix2 (2 - emax f) <= 1 / 2199023255552). { apply Rle_trans with (bpow radix2 (-41)). apply bpow_le. destruct f; discriminate. cbn; lra. }
    destruct (op_div (ofZ f (2 * d)) r Fd) as (Fq & Vq). rewrite Ek. lra. rewrite Ek, Vd. fold b. rewrite Rabs_pos_eq; lra. rewrite Ek, Vd in Vq. fold b in Vq.
    destruct (rnd_fac f (b / (t * k))) as (j & Ej & Hj). lra. lra. rewrite Ej in Vq.
    assert (Hm1 := fac _ _ _ _ Ki Hj ltac:(lra)). assert (M1 : Rabs (/ k * j - 1) <= c + 1004 / 1000 * uf f).
    { eapply Rle_trans. exact Hm1. assert (uf f * (1 + c / (1 - c)) <= uf f * (10001 / 10000)) by (apply Rmult_le_compat_l; lra). lra. } clear Hm1.
    set (m := / k * j) in * . assert (M1' := M1). apply Rabs_le_inv in M1'.
    assert (Vq' : B2R (ofZ f (2 * d) /. r) = b / t * m). { rewrite Vq. unfold m. field. lra. }
    assert (BT : 0 < b / t <= 501). { split. apply Rdiv_lt_0_compat; lra. apply Rle_div_l; lra. } 
    assert (S0 : 0 < a + b / t) by lra. assert (SM : Rabs ((a + b / t * m) - (a + b / t)) <= (c + 1004 / 1000 * uf f) * (a + b / t)).
    { replace (a + b / t * m - (a + b / t)) with ((m - 1) * (b / t)) by ring. rewrite Rabs_mult, (Rabs_pos_eq (b / t)) by lra. apply Rmult_le_compat; try lra. apply Rabs_pos. }
    destruct (fac_of _ _ _ S0 SM) as (m2 & Em2 & Hm2). assert (Hm2' := Hm2). apply Rabs_le_inv in Hm2'.
    assert (B1 : 4 <= a + b / t * m <= 1099511700000). { assert (0 <= b / t * m <= 501 * (11 / 10)). { split. apply Rmult_le_pos; lra. apply Rmult_le_compat; lra. } lra. }
    destruct (op_add x (ofZ f (2 * d) /. r) Fx Fq) as (Fs & Vs). { rewrite Vq'. fold a. rewrite Rabs_pos_eq; lra. } rewrite Vq' in Vs. fold a in Vs.
    destruct (rnd_fac f (a + b / t * m)) as (l & El & Hl). lra. lra. split; auto. rewrite Vs, El, Em2.
    apply of_fac with (m2 * l); auto. ring. eapply Rle_trans. apply (fac _ _ _ _ Hm2 Hl). lra.
    assert (uf f * (1 + (c + 1004 / 1000 * uf f)) <= uf f * (10001 / 10000)) by (apply Rmult_le_compat_l; lra). replace (21 / 10 * (N + 1) * uf f) with (c + 21 / 10 * uf f) by (unfold c; ring). lra.
Qed.

Section Comp.
Variable f : fmt.
Notation u := (uf f).
Let u0 : 0 < u := uf_pos f.
Let u1 : u <= / 16777216.
Proof. change (/ 16777216) with (bpow radix2 (-24)). apply uf_le. Qed.
Notation sp := (conv f GCEM_SQRT_PI).
Lemma large_comp (e r : flt f) g t A B : finite e = true -> finite r = true ->
  bpow radix2 (-90) <= g <= 1 -> Rabs (B2R e - g) <= A * g -> 0 <= A <= / 1000 -> 4 <= t <= 100 -> Rabs (B2R r - t) <= B * t -> 0 <= B <= / 1000 ->
  let z := ofZ f 2 *. (e /. sp) /. r in let Z := 2 / sqrt PI * (g / t) in
  finite z = true /\ 0 < Z /\ Rabs (B2R z - Z) <= 1005 / 1000 * (A + B + 3 * u) * Z.
Proof.
  intros Fe Fr Hg He HA Ht Hr HB. cbv zeta. destruct (over_sp f e g A Fe ltac:(lra) He HA) as (F1 & a & E1 & Ha). assert (g0 := bpow_gt_0 radix2 (-90)).
  assert (SP := sqrt_pi_rng). assert (IP : 56 / 100 < / sqrt PI < 1). { split. replace (56 / 100) with (/ (100 / 56)) by lra. apply Rinv_lt_contravar; lra. rewrite <- Rinv_1. apply Rinv_lt_contravar; lra. }
  destruct (ofZ_small f 2 ltac:(lia)) as (V2 & F2 & _). assert (A1 := Ha). apply Rabs_le_inv in A1. set (ip := / sqrt PI) in * .
  assert (GP : bpow radix2 (-90) * (56 / 100) <= g / sqrt PI <= 1). { unfold Rdiv. fold ip. split. apply Rmult_le_compat; lra. rewrite <- (Rmult_1_l 1). apply Rmult_le_compat; lra. }
  assert (GA := prod_rng (bpow radix2 (-90) * (56 / 100)) 1 (99 / 100) (101 / 100) (g / sqrt PI) a ltac:(lra) ltac:(lra) GP ltac:(lra)).
  assert (D2 : finite (ofZ f 2 *. (e /. sp)) = true /\ B2R (ofZ f 2 *. (e /. sp)) = 2 * (g / sqrt PI * a)).
  { destruct (op_mul (ofZ f 2) (e /. sp) F2 F1) as (F & V). rewrite V2, E1, Rabs_pos_eq; lra. split; auto. rewrite V, V2, <- E1. apply double_val. rewrite E1, Rabs_pos_eq by lra. apply Rle_lt_trans with 3. lra.
    apply Rlt_le_trans with (bpow radix2 3). cbn; lra. apply bpow_le. destruct f; discriminate. }
  destruct D2 as (FD & VD).
  destruct (fac_of _ t B ltac:(lra) Hr) as (c & Ec & Hc). assert (C1 := Hc). apply Rabs_le_inv in C1. assert (Hci := fac_inv c _ Hc ltac:(lra)).
  assert (QC := fac _ _ _ _ Ha Hci ltac:(lra)). set (k := a * / c) in * .
  assert (Bi : B / (1 - B) <= 1002 / 1000 * B). { apply Rmult_le_reg_r with (1 - B). lra. replace (B / (1 - B) * (1 - B)) with B by (field; lra). assert (B * B <= B * / 1000) by (apply Rmult_le_compat_l; lra). lra. }
  assert (Bi0 : 0 <= B / (1 - B)) by (apply Rmult_le_pos; [lra|left; apply Rinv_0_lt_compat; lra]).
  assert (K : Rabs (k - 1) <= A + 1004 / 1000 * B + 17 / 10 * u).
  { eapply Rle_trans. exact QC. assert (B / (1 - B) * (1 + (A + 17 / 10 * u)) <= 1002 / 1000 * B * (10015 / 10000)) by (apply Rmult_le_compat; lra). lra. }
  assert (K1 := K). apply Rabs_le_inv in K1.
  set (Z := 2 / sqrt PI * (g / t)). assert (gt : bpow radix2 (-90) * / 100 <= g / t <= 1). { split. apply Rmult_le_compat; try lra. apply Rinv_le_contravar; lra. apply Rle_div_l; lra. }
  assert (ZE : Z = 2 * ip * (g / t)) by (unfold Z, ip, Rdiv; ring). assert (ZR : 112 / 100 * (bpow radix2 (-90) * / 100) <= Z <= 2 * 1). { rewrite ZE. apply prod_rng; lra. }
  assert (Z0 : 0 < Z) by lra.
  assert (E4 : 2 * (g / sqrt PI * a) / B2R r = Z * k). { rewrite Ec, ZE. unfold k, ip. field. repeat split; lra. }
  assert (GF : bpow radix2 (2 - emax f) <= / 200 * bpow radix2 (-90)). { apply Rle_trans with (bpow radix2 (-100)). apply bpow_le. destruct f; discriminate. cbn; lra. }
  assert (Zk := prod_rng (112 / 100 * (bpow radix2 (-90) * / 100)) 2 (99 / 100) (101 / 100) Z k ltac:(lra) ltac:(lra) ltac:(lra) ltac:(lra)).
  assert (r0 : B2R r <> 0) by (rewrite Ec; apply Rmult_integral_contrapositive; split; lra).
  destruct (op_div (ofZ f 2 *. (e /. sp)) r FD r0) as (F4 & V4). rewrite VD, E4, Rabs_pos_eq; lra.
  rewrite VD, E4 in V4. destruct (rnd_fac f (Z * k)) as (d & Ed & Hd). lra. lra. rewrite Ed in V4.
  split; auto. split; auto. apply of_fac with (k * d); auto. rewrite V4. ring. eapply Rle_trans. apply (fac _ _ _ _ K Hd). lra. assert (u * (A + 1004 / 1000 * B + 17 / 10 * u) <= u * / 100) by (apply Rmult_le_compat_l; lra). lra.
Qed.
End Comp.
Lemma erf_gtail x : erf_real x = 1 - 2 / sqrt PI * gtail x.
Proof. unfold erf_real, gtail, gint. assert (S := sqrt_pi_rng). change (fun t => exp (- (t * t))) with gau. field. lra. Qed.
Lemma large_recur v {f} (x : flt f) : erf_cf_large_recur v x 1 = lsf x 59 1.
Proof.
  replace (erf_cf_large_recur v x 1) with (erf_cf_large_recur Cxx14 x 1) by (destruct v; [symmetry; apply erf_large_11_14|reflexivity] || (destruct v; [reflexivity|symmetry; apply erf_large_11_14])).
  unfold erf_cf_large_recur. unfold GCEM_ERF_MAX_ITER. rewrite for_down_rec_up by lia. reflexivity.
Qed.
Lemma gau_hi x : 2099999 / 1000000 <= x -> gau x <= 12163 / 1000000.
Proof. intros H. eapply Rle_trans. apply gau_dec with (a := 2099999 / 1000000). lra. unfold gau. interval. Qed.
(** The subtracted part for moderate arguments. *)
Lemma large_mid v {f} (x : flt f) : finite x = true -> 2099999 / 1000000 <= B2R x <= 29 / 4 -> let T := 2 / sqrt PI * gtail (B2R x) in
  exists e, exp_check v (-. x *. x) = Ok e /\ let q := ofZ f 2 *. (e /. conv f GCEM_SQRT_PI) /. lsf (ofZ f 2 *. x) 59 1 in
    finite q = true /\ 0 <= B2R q <= 4 / 1000 /\ Rabs (B2R q - T) <= 97 / 100 * uf f + bpow radix2 (-60).
Proof.
  intros Fx X T. assert (u0 := uf_pos f). assert (u1 : uf f <= / 16777216) by (change (/ 16777216) with (bpow radix2 (-24)); apply uf_le). set (a := B2R x) in * .
  assert (X2 : 4 <= a * a <= 841 / 16). { split. apply Rle_trans with (2 * 2). lra. apply Rmult_le_compat; lra. apply Rle_trans with (29 / 4 * (29 / 4)). apply Rmult_le_compat; lra. lra. }
  destruct (op_mul (-. x) x) as (F' & V'). rewrite fneg_finite; auto. auto. { rewrite fneg_B2R. fold a. replace (- a * a) with (- (a * a)) by ring. rewrite Rabs_Ropp, Rabs_pos_eq; lra. }
  rewrite fneg_B2R in V'. fold a in V'. replace (- a * a) with (- (a * a)) in V' by ring. rewrite rnd_opp in V'.
  destruct (rnd_fac f (a * a)) as (y & Ey & Hy). lra. { apply Rle_trans with 4. apply Rle_trans with (bpow radix2 0). apply bpow_le. destruct f; discriminate. cbn; lra. lra. }
  assert (YB : Rabs (rnd f (a * a) - a * a) <= uf f * (841 / 16)). { rewrite Ey. replace (a * a * y - a * a) with ((y - 1) * (a * a)) by ring. rewrite Rabs_mult, (Rabs_pos_eq (a * a)) by lra. apply Rmult_le_compat; auto using Rabs_pos; lra. }
  assert (YB' := YB). apply Rabs_le_inv in YB'. clear y Ey Hy. set (y := rnd f (a * a)) in * .
  destruct (exp_all v (-. x *. x) F') as (e & Ee & Fe & (_ & _ & _ & R4)). { rewrite V', Rabs_Ropp, Rabs_pos_eq by lra. apply exp_fit_le with 55. lra. unfold exp_fit. apply Rle_trans with (bpow radix2 100). cbn. interval. apply bpow_le. destruct f; discriminate. }
  rewrite V', Rabs_Ropp, (Rabs_pos_eq y) in R4 by lra. specialize (R4 ltac:(lra)).
  assert (b61 := bpow_gt_0 radix2 (-61)). assert (b54 : bpow radix2 (-54) = 128 * bpow radix2 (-61)) by (cbn; lra). assert (b53 : bpow radix2 (-53) = 256 * bpow radix2 (-61)) by (cbn; lra). assert (b60 : bpow radix2 (-60) = 2 * bpow radix2 (-61)) by (cbn; lra). assert (b61s : bpow radix2 (-61) <= / 1000000000) by (cbn; lra).
  assert (yb : (y + 3) * bpow radix2 (-61) <= 56 * bpow radix2 (-61)) by (apply Rmult_le_compat_r; lra).
  assert (R5 := exp_pert _ _ (- (a * a)) _ (uf f * (841 / 16)) R4). destruct (Rlt_or_le 0 1) as [_|]; [|lra].
  assert (y0 : 0 <= (y + 3) * bpow radix2 (-61)) by (apply Rmult_le_pos; lra).
  assert (EA : Rabs (B2R e - gau a) <= (161 * uf f + bpow radix2 (-53)) * gau a).
  { unfold rel_err in R5. fold (gau a) in R5. assert (G0 := gau_pos a). rewrite (Rabs_pos_eq (gau a)) in R5 by lra. eapply Rle_trans. apply R5. replace (- y - - (a * a)) with (- (y - a * a)) by ring. rewrite Rabs_Ropp. exact YB. lra. lra. apply Rmult_le_compat_r; lra. }
  exists e. split. exact Ee. cbv zeta.
  destruct (ofZ_small f 2 ltac:(lia)) as (V2 & F2 & _).
  assert (D2 : finite (ofZ f 2 *. x) = true /\ B2R (ofZ f 2 *. x) = 2 * a).
  { destruct (op_mul (ofZ f 2) x F2 Fx) as (F & V). rewrite V2. fold a. rewrite Rabs_pos_eq; lra. split; auto. rewrite V, V2. fold a. apply double_val. fold a. rewrite Rabs_pos_eq by lra. apply Rle_lt_trans with 15. lra.
    apply Rlt_le_trans with (bpow radix2 4). cbn; lra. apply bpow_le. destruct f; discriminate. }
  destruct D2 as (FD & VD). destruct (lsf_acc (ofZ f 2 *. x) FD) with (n := 59%nat) (d := 1%Z) as (Fr & Er); try lia. { rewrite VD. change (bpow radix2 40) with 1099511627776. lra. }
  rewrite VD in Er. replace (21 / 10 * INR 59) with (1239 / 10) in Er by (rewrite INR_IZR_INZ; cbn; lra). assert (L1 := lcf_ge 59 1 (2 * a) ltac:(lia) ltac:(lra)). assert (L2 := lcf_le 59 1 (2 * a) ltac:(lia) ltac:(lra)).
  assert (G1 := gau_hi a ltac:(lra)). assert (GL : bpow radix2 (-90) <= gau a). { apply Rle_trans with (gau (29 / 4)). unfold gau. cbn. interval. apply gau_dec. lra. }
  destruct (large_comp f e (lsf (ofZ f 2 *. x) 59 1) (gau a) (lcf 59 1 (2 * a)) (161 * uf f + bpow radix2 (-53)) (1239 / 10 * uf f) Fe Fr ltac:(lra) EA ltac:(lra) ltac:(lra) Er ltac:(lra)) as (Fz & Z0 & Hz).
  set (q := ofZ f 2 *. (e /. conv f GCEM_SQRT_PI) /. lsf (ofZ f 2 *. x) 59 1) in * .
  fold (lw 59 a) in Z0, Hz. assert (N := lw_near a ltac:(lra)). assert (SP := sqrt_pi_rng). assert (IP : 2 / 2 < 2 / sqrt PI < 200 / 177). { unfold Rdiv. split. apply Rmult_lt_compat_l. lra. apply Rinv_lt_contravar; lra. replace (200 * / 177) with (2 * / (177 / 100)) by lra. apply Rmult_lt_compat_l. lra. apply Rinv_lt_contravar; lra. }
  assert (WH : 0 < lw 59 a <= 2896 / 1000000). { assert (G0 := gau_pos a). unfold lw. split. apply Rdiv_lt_0_compat; lra. apply Rle_div_l. lra. apply Rle_trans with (2896 / 1000000 * (4199998 / 1000000)). lra. apply Rmult_le_compat_l; lra. }
  assert (b55 : bpow radix2 (-55) = 64 * bpow radix2 (-61)) by (cbn; lra).
  assert (GT : gtail a <= 2897 / 1000000). { apply Rabs_le_inv in N. assert (gtail a * (1 - bpow radix2 (-55)) <= 2896 / 1000000) by lra. assert (gtail a * (1 - bpow radix2 (-55)) >= gtail a * (99999 / 100000)). { apply Rle_ge. apply Rmult_le_compat_l. apply (gtail_bnd a). lra. lra. } lra. }
  assert (QH : 2 / sqrt PI * lw 59 a <= 3273 / 1000000). { apply Rle_trans with (200 / 177 * (2896 / 1000000)). apply Rmult_le_compat; lra. lra. }
  set (Q := 2 / sqrt PI * lw 59 a) in * .
  assert (E1 : Rabs (Q - T) <= 200 / 177 * (64 * bpow radix2 (-61) * (2897 / 1000000))).
  { unfold Q, T. rewrite <- Rmult_minus_distr_l, Rabs_mult, (Rabs_pos_eq (2 / sqrt PI)) by lra. apply Rmult_le_compat. lra. apply Rabs_pos. lra. eapply Rle_trans. exact N. rewrite b55. apply Rmult_le_compat_l. lra. auto. }
  assert (E2 : Rabs (B2R q - Q) <= 1005 / 1000 * (161 * uf f + bpow radix2 (-53) + 1239 / 10 * uf f + 3 * uf f) * (3273 / 1000000)) by (eapply Rle_trans; [exact Hz|]; apply Rmult_le_compat_l; lra).
  split. auto. assert (SM : 1005 / 1000 * (161 * uf f + bpow radix2 (-53) + 1239 / 10 * uf f + 3 * uf f) <= / 10000) by lra.
  assert (Hz' : Rabs (B2R q - Q) <= / 10000 * Q). { eapply Rle_trans. exact Hz. apply Rmult_le_compat_r; lra. } apply Rabs_le_inv in Hz'. split. lra.
  replace (B2R q - T) with ((B2R q - Q) + (Q - T)) by ring. eapply Rle_trans. apply Rabs_triang. lra.
Qed.
(** The subtracted part is nothing for larger arguments. *)
Lemma rnd_pow_le f z k : (emin f <= k)%Z -> 0 <= z <= bpow radix2 k -> 0 <= rnd f z <= bpow radix2 k.
Proof.
  intros Hk H. split. replace 0 with (rnd f 0) by (apply round_0; typeclasses eauto). apply rnd_le; lra.
  replace (bpow radix2 k) with (rnd f (bpow radix2 k)). apply rnd_le; lra. apply round_generic. typeclasses eauto. apply generic_format_FLT_bpow; [typeclasses eauto|exact Hk].
Qed.
Lemma gau_far x : 29 / 4 <= x -> gau x <= bpow radix2 (-75).
Proof. intros H. eapply Rle_trans. apply gau_dec with (a := 29 / 4). lra. unfold gau. cbn. interval. Qed.
Lemma large_far v {f} (x : flt f) : finite x = true -> 29 / 4 <= B2R x <= 3000000000 -> let T := 2 / sqrt PI * gtail (B2R x) in
  exists e, exp_check v (-. x *. x) = Ok e /\ let q := ofZ f 2 *. (e /. conv f GCEM_SQRT_PI) /. lsf (ofZ f 2 *. x) 59 1 in
    finite q = true /\ 0 <= B2R q <= 4 / 1000 /\ Rabs (B2R q - T) <= 97 / 100 * uf f + bpow radix2 (-60).
Proof.
  intros Fx X T. assert (u0 := uf_pos f). assert (u1 : uf f <= / 16777216) by (change (/ 16777216) with (bpow radix2 (-24)); apply uf_le). set (a := B2R x) in * .
  assert (X2 : 841 / 16 <= a * a <= 9000000000000000000). { split. apply Rle_trans with (29 / 4 * (29 / 4)). lra. apply Rmult_le_compat; lra. apply Rle_trans with (3000000000 * 3000000000). apply Rmult_le_compat; lra. lra. }
  destruct (op_mul (-. x) x) as (F' & V'). rewrite fneg_finite; auto. auto. { rewrite fneg_B2R. fold a. replace (- a * a) with (- (a * a)) by ring. rewrite Rabs_Ropp, Rabs_pos_eq; lra. }
  rewrite fneg_B2R in V'. fold a in V'. replace (- a * a) with (- (a * a)) in V' by ring. rewrite rnd_opp in V'.
  destruct (rnd_fac f (a * a)) as (y & Ey & Hy). lra. { apply Rle_trans with 4. apply Rle_trans with (bpow radix2 0). apply bpow_le. destruct f; discriminate. cbn; lra. lra. }
  apply Rabs_le_inv in Hy. assert (YB := prod_rng (841 / 16) 9000000000000000000 (999999 / 1000000) (1000001 / 1000000) (a * a) y ltac:(lra) ltac:(lra) ltac:(lra) ltac:(lra)). rewrite <- Ey in YB. clear y Ey Hy. set (y := rnd f (a * a)) in * .
  destruct (exp_check_range v (-. x *. x) F') as (e & Ee & Ne & _ & R). { rewrite V', Rabs_Ropp, Rabs_pos_eq by lra. change (2 ^ 63 - 1)%Z with 9223372036854775807%Z. lra. }
  rewrite V' in R. destruct (R ltac:(lra)) as (Fe & Re). clear R. exists e. split; auto. cbv zeta.
  assert (E0 : 0 <= B2R e). { destruct e; try discriminate; cbn; try lra. destruct Ne as (_ & Ne). cbn in Ne. subst. apply F2R_ge_0; cbn; lia. }
  assert (E1 : B2R e <= bpow radix2 (-72)).
  { eapply Rle_trans. exact Re. assert (exp (- y) <= bpow radix2 (-75)). { apply Rle_trans with (exp (- (525 / 10))). apply Raux.exp_le. lra. cbn. interval. }
    assert (bpow radix2 (emin f + 5) <= bpow radix2 (-75)) by (apply bpow_le; destruct f; discriminate). assert (bpow radix2 (-72) = 8 * bpow radix2 (-75)) by (cbn; lra). assert (0 < bpow radix2 (-75)) by apply bpow_gt_0. lra. }
  destruct (sqrt_pi_val f) as (Fs & Vs). assert (SP := sqrt_pi_rng). apply Rabs_le_inv in Vs. assert (SV : 1 <= B2R (conv f GCEM_SQRT_PI) <= 2) by lra.
  assert (b72 := bpow_gt_0 radix2 (-72)). assert (b72s : bpow radix2 (-72) <= / 1000000000) by (cbn; lra). assert (b71 : bpow radix2 (-71) = 2 * bpow radix2 (-72)) by (cbn; lra). assert (b60 : bpow radix2 (-60) = 4096 * bpow radix2 (-72)) by (cbn; lra).
  destruct (ofZ_small f 2 ltac:(lia)) as (V2 & F2 & _).
  assert (Q1 : 0 <= B2R e / B2R (conv f GCEM_SQRT_PI) <= bpow radix2 (-72)). { split. apply Rdiv_le_0_compat; lra. apply Rle_div_l. lra. rewrite <- (Rmult_1_r (B2R e)). apply Rmult_le_compat; lra. }
  destruct (op_div e (conv f GCEM_SQRT_PI) Fe) as (F1 & W1). lra. rewrite Rabs_pos_eq; lra. assert (H1 := rnd_pow_le f _ (-72) ltac:(destruct f; discriminate) Q1). rewrite <- W1 in H1.
  destruct (op_mul (ofZ f 2) (e /. conv f GCEM_SQRT_PI) F2 F1) as (FM & WM). rewrite V2, Rabs_pos_eq; lra. rewrite V2 in WM.
  assert (HM := rnd_pow_le f (2 * B2R (e /. conv f GCEM_SQRT_PI)) (-71) ltac:(destruct f; discriminate) ltac:(lra)). rewrite <- WM in HM.
  assert (D2 : finite (ofZ f 2 *. x) = true /\ B2R (ofZ f 2 *. x) = 2 * a).
  { destruct (op_mul (ofZ f 2) x F2 Fx) as (F & V). rewrite V2. fold a. rewrite Rabs_pos_eq; lra. split; auto. rewrite V, V2. fold a. apply double_val. fold a. rewrite Rabs_pos_eq by lra. apply Rle_lt_trans with 6000000000. lra.
    apply Rlt_le_trans with (bpow radix2 40). cbn; lra. apply bpow_le. destruct f; discriminate. }
  destruct D2 as (FD & VD). destruct (lsf_acc (ofZ f 2 *. x) FD) with (n := 59%nat) (d := 1%Z) as (Fr & Er); try lia. { rewrite VD. change (bpow radix2 40) with 1099511627776. lra. }
  rewrite VD in Er. replace (21 / 10 * INR 59) with (1239 / 10) in Er by (rewrite INR_IZR_INZ; cbn; lra). assert (L1 := lcf_ge 59 1 (2 * a) ltac:(lia) ltac:(lra)).
  assert (R1 : 1 <= B2R (lsf (ofZ f 2 *. x) 59 1)). { apply Rabs_le_inv in Er. set (l := lcf 59 1 (2 * a)) in * . assert (1239 / 10 * uf f * l <= / 2 * l) by (apply Rmult_le_compat_r; lra). lra. }
  set (r := lsf (ofZ f 2 *. x) 59 1) in * . set (m := ofZ f 2 *. (e /. conv f GCEM_SQRT_PI)) in * .
  assert (Q2 : 0 <= B2R m / B2R r <= bpow radix2 (-71)). { split. apply Rdiv_le_0_compat; lra. apply Rle_div_l. lra. rewrite <- (Rmult_1_r (B2R m)). apply Rmult_le_compat; lra. }
  destruct (op_div m r FM) as (Fq & Wq). lra. rewrite Rabs_pos_eq; lra. assert (Hq := rnd_pow_le f _ (-71) ltac:(destruct f; discriminate) Q2). rewrite <- Wq in Hq.
  split; auto. split. lra. assert (GB := gtail_bnd a ltac:(lra)). assert (GF := gau_far a ltac:(lra)). assert (b75 : bpow radix2 (-72) = 8 * bpow radix2 (-75)) by (cbn; lra).
  assert (IP : 0 < 2 / sqrt PI < 2). { split. apply Rdiv_lt_0_compat; lra. unfold Rdiv. rewrite <- (Rmult_1_r 2) at 2. apply Rmult_lt_compat_l. lra. rewrite <- Rinv_1. apply Rinv_lt_contravar; lra. }
  assert (TB : 0 <= T <= 2 * (2 * gau a)). { unfold T. split. apply Rmult_le_pos; lra. apply Rmult_le_compat; lra. }
  apply Rabs_le. lra.
Qed.
Lemma erf_large_acc v {f} (x : flt f) : finite x = true -> 2099999 / 1000000 <= B2R x <= 3000000000 ->
  exists w, erf_cf_large_main v x = Ok w /\ finite w = true /\ 99 / 100 <= B2R w <= 1 /\ Rabs (B2R w - erf_real (B2R x)) <= 2 * uf f + bpow radix2 (-60).
Proof.
  intros Fx X. assert (u0 := uf_pos f). assert (u1 : uf f <= / 16777216) by (change (/ 16777216) with (bpow radix2 (-24)); apply uf_le).
  assert (H : let T := 2 / sqrt PI * gtail (B2R x) in
  exists e, exp_check v (-. x *. x) = Ok e /\ let q := ofZ f 2 *. (e /. conv f GCEM_SQRT_PI) /. lsf (ofZ f 2 *. x) 59 1 in
    finite q = true /\ 0 <= B2R q <= 4 / 1000 /\ Rabs (B2R q - T) <= 97 / 100 * uf f + bpow radix2 (-60)).
  { destruct (Rle_or_lt (B2R x) (29 / 4)). apply large_mid; auto; lra. apply large_far; auto; lra. }
  cbv zeta in H. destruct H as (e & Ee & Fq & Q & D). unfold erf_cf_large_main. rewrite Ee, large_recur. cbn [bind]. set (q := ofZ f 2 *. (e /. conv f GCEM_SQRT_PI) /. lsf (ofZ f 2 *. x) 59 1) in * .
  destruct (ofZ_small f 1 ltac:(lia)) as (V1 & F1 & _). destruct (op_sub (ofZ f 1) q F1 Fq) as (Fw & Vw). rewrite V1, Rabs_pos_eq; lra. rewrite V1 in Vw. eexists. split. reflexivity. split; auto.
  destruct (rnd_fac f (1 - B2R q)) as (k & Ek & Hk). lra. { apply Rle_trans with (bpow radix2 (-1)). apply bpow_le. destruct f; discriminate. cbn; lra. } rewrite Ek in Vw.
  assert (E : Rabs (B2R (ofZ f 1 -. q) - (1 - B2R q)) <= uf f). { rewrite Vw. replace ((1 - B2R q) * k - (1 - B2R q)) with ((1 - B2R q) * (k - 1)) by ring. rewrite Rabs_mult, Rabs_pos_eq by lra. rewrite <- (Rmult_1_l (uf f)). apply Rmult_le_compat; auto using Rabs_pos; lra. }
  split. split. apply Rabs_le_inv in E. lra. { rewrite Vw, <- Ek. apply (rnd_pow_le f (1 - B2R q) 0). destruct f; discriminate. cbn; lra. }
  rewrite erf_gtail. apply Rabs_le_inv in E. apply Rabs_le_inv in D. apply Rabs_le. lra.
Qed.
