(** * Accuracy of log on the public function: scaling by powers of ten *)
From Verif Require Import Base ModelBasic ModelInt ModelElem ModelApi FltLemmas Spec IntProofs BasicProofs ConvLemmas SymLemmas ScaleProofs TotalProofs ExpAcc MiscProofs.
From Coq Require Import Lra Psatz.
From Verif Require Import FPErr CFBound CFAcc TanAcc SinAcc SqrtAcc SqrtSimp LogAcc.
From Interval Require Import Tactic.
Open Scope R_scope.

Lemma log_branch v {f} (x : flt f) : finite x = true -> bpow radix2 (2 - emax f) <= B2R x -> B2R x <> 1 ->
  log_check v x = if (Rlt_bool (B2R x) (/ 2) || Rlt_bool (3 / 2) (B2R x))%bool then log_breakup v x else Ok (log_main v x).
Proof.
  intros Fx X0 N. assert (x0 := bpow_gt_0 radix2 (2 - emax f)). unfold log_check. rewrite finite_not_nan by auto.
  destruct (ofZ_small f 0 ltac:(lia)) as (V0 & F0 & _). destruct (ofZ_small f 1 ltac:(lia)) as (V1 & F1 & _). change (IZR 0) with 0 in V0. change (IZR 1) with 1 in V1. destruct (fmin_spec f) as (Vm & Fm).
  rewrite (flt_false x (ofZ f 0)) by (auto; lra). rewrite (flt_false x (fmin f)) by (auto; lra).
  assert (G : bpow radix2 (- prec f) <= Rabs (B2R x - 1)). { destruct (Rle_or_lt (/ 2) (B2R x)) as [L|L]. apply gap_one; auto. rewrite Rabs_left by lra. apply Rle_trans with (bpow radix2 (-1)). apply bpow_le. destruct f; discriminate. change (bpow radix2 (-1)) with (/ 2). lra. }
  rewrite (flt_false (ModelBasic.abs (x -. ofZ f 1)) (fmin f)); auto.
  3: { destruct (fsub_spec x (ofZ f 1) Fx F1) as (V & F).
    { rewrite V1. destruct (Rle_or_lt 1 (B2R x)). apply Rle_lt_trans with (2 := B2R_lt_emax x). rewrite <- (rnd_B2R x) at 2. rewrite !rnd_abs. apply rnd_le. apply Rle_trans with (B2R x); [apply Rabs_le; lra|apply Rle_abs].
      apply wide_fin. apply Rle_trans with 1. apply Rabs_le; lra. cbn; lra. }
    rewrite abs_B2R, V, V1, Vm, rnd_abs. apply rnd_ge_fmt. rewrite <- Vm. apply fmt_format. eapply Rle_trans; [|exact G]. apply bpow_le. destruct f; discriminate. }
  2: { rewrite abs_finite. destruct (fsub_spec x (ofZ f 1) Fx F1) as (V & F); auto.
    { rewrite V1. destruct (Rle_or_lt 1 (B2R x)). apply Rle_lt_trans with (2 := B2R_lt_emax x). rewrite <- (rnd_B2R x) at 2. rewrite !rnd_abs. apply rnd_le. apply Rle_trans with (B2R x); [apply Rabs_le; lra|apply Rle_abs].
      apply wide_fin. apply Rle_trans with 1. apply Rabs_le; lra. cbn; lra. } }
  replace (x ==. infty f) with false. 2: { symmetry. destruct x; try discriminate; destruct f; reflexivity. }
  rewrite (fcmp_gt x (dlit f 15 1) (3 / 2) Fx (lit15 f)). destruct (lit05 f) as (F5 & V5). rewrite (flt_spec x (dlit f 5 1)) by auto. rewrite V5. reflexivity.
Qed.
Lemma log_check_one v {f} (x : flt f) : finite x = true -> B2R x = 1 -> exists w, log_check v x = Ok w /\ finite w = true /\ B2R w = 0.
Proof.
  intros Fx V. destruct (ofZ_small f 1 ltac:(lia)) as (V1 & F1 & S1). assert (E : x = ofZ f 1). { apply flt_inj; auto. lra. rewrite S1. apply pos_sign; auto; lra. } rewrite E.
  exists (ofZ f 0). destruct (ofZ_small f 0 ltac:(lia)) as (V0 & F0 & _). split; auto. destruct f, v; apply ok_sf; vm_compute; reflexivity.
Qed.
(** ** Arguments not below 1/2 *)
Lemma pow_ln_bounds u k m y : 0 < u <= / 16777216 -> 0 < y -> y * (1 - u) ^ k <= m <= y * (1 + u) ^ k -> Rabs (ln m - ln y) <= 1002 / 1000 * u * INR k.
Proof.
  intros U Y (L & H). assert (p1 : 0 < (1 - u) ^ k) by (apply pow_lt; lra). assert (p2 : 0 < (1 + u) ^ k) by (apply pow_lt; lra).
  assert (m0 : 0 < m) by (apply Rlt_le_trans with (2 := L); apply Rmult_lt_0_compat; lra).
  assert (A := ln_le_le _ _ (Rmult_lt_0_compat _ _ Y p1) L). assert (B := ln_le_le _ _ m0 H). rewrite ln_mult in A, B by auto. rewrite ln_pow in A, B by lra.
  assert (E1 := ln1p u). assert (E2 := ln1p (- u)). rewrite Rabs_Ropp in E2. rewrite (Rabs_pos_eq u) in E1, E2 by lra. specialize (E1 ltac:(lra)). specialize (E2 ltac:(lra)). apply Rabs_le_inv in E1, E2.
  assert (K := pos_INR k). replace (1 - u) with (1 + - u) in A by ring. assert (INR k * - (1002 / 1000 * u) <= INR k * ln (1 + - u)) by (apply Rmult_le_compat_l; lra). assert (INR k * ln (1 + u) <= INR k * (1002 / 1000 * u)) by (apply Rmult_le_compat_l; lra). apply Rabs_le. lra.
Qed.
Lemma log_large v {f} (x : flt f) : finite x = true -> 1 <= B2R x -> 
  exists w, log_breakup v x = Ok w /\ finite w = true /\ Rabs (B2R w - ln (B2R x)) <= 56 / 10 * uf f * ln (B2R x).
Proof.
  intros Fx X1. assert (u0 := uf_pos f). assert (u1 := uf_le f). change (bpow radix2 (-24)) with (/ 16777216) in u1. assert (D := cst_depth f). assert (l10 := ln10_rng).
  assert (Hd : (Z.of_nat (scale_depth f) <= 5000)%Z) by (destruct f; vm_compute; discriminate). pose proof (scale_depth_le f) as SD.
  destruct (scale_down (scale_depth f) x Fx X1) as (k & m & Hk & Hm & He & Fm & Bm & Rm).
  { pose proof (B2R_lt_emax x). pose proof (Rle_abs (B2R x)). assert (0 < ScaleProofs.cst ^ scale_depth f) by (apply pow_lt; unfold ScaleProofs.cst; lra). lra. }
  destruct (He 0%Z) as [E|E]; [lia| |lia]. rewrite Z.add_0_l in E.
  destruct (breakup_acc v x m (Z.of_nat k)) as (w & Ew & Fw & Rw); auto.
  { apply (mantissa_mono (S (scale_depth f))); auto. lia. } { apply (find_exponent_mono (S (scale_depth f))); auto. lia. } { lia. }
  exists w. split; auto. split; auto. assert (P10 : 0 < 10 ^ k) by (apply pow_lt; lra). fold (uf f) in Rm.
  assert (LB := pow_ln_bounds (uf f) k (B2R m) (B2R x / 10 ^ k) ltac:(lra) ltac:(apply Rdiv_lt_0_compat; lra) Rm).
  assert (LX : ln (B2R x) = ln (B2R x / 10 ^ k) + INR k * ln 10). { rewrite <- ln_pow by lra. rewrite <- ln_mult; try lra. f_equal. field. lra. apply Rdiv_lt_0_compat; lra. }
  assert (A0 := ln_ge0 _ (proj1 Bm)). assert (A1 := ln_le_le (B2R m) 10 ltac:(lra) (proj2 Bm)). rewrite <- INR_IZR_INZ in Rw. set (a := ln (B2R m)) in * . set (y := ln (B2R x / 10 ^ k)) in * . set (K := INR k) in * . assert (K0 : 0 <= K) by apply pos_INR.
  assert (KL : 0 <= K * ln 10) by (apply Rmult_le_pos; lra). apply Rabs_le_inv in LB.
  assert (uK : 0 <= uf f * K <= / 16777216 * K). { split. apply Rmult_le_pos; lra. apply Rmult_le_compat_r; lra. } assert (ua : 0 <= uf f * a) by (apply Rmult_le_pos; lra).
  assert (KK : K * (2302 / 1000) <= K * ln 10) by (apply Rmult_le_compat_l; lra). rewrite LX.
  destruct (Z.eq_dec (Z.of_nat k) 0) as [Z|Z].
  - assert (K = 0). { unfold K. replace k with 0%nat by lia. reflexivity. } rewrite H in * . rewrite Rmult_0_l in * . rewrite !Rplus_0_r in * . assert (a = y) by lra. subst y. rewrite <- H0 in * . lra.
  - assert (K1 : 1 <= K). { unfold K. change 1 with (INR 1). apply le_INR. lia. } rewrite (Rabs_pos_eq K), (Rabs_pos_eq (a + K * ln 10)) in Rw by lra.
    replace (B2R w - (y + K * ln 10)) with ((B2R w - (a + K * ln 10)) + (a - y)) by ring. eapply Rle_trans. apply Rabs_triang. assert (Rabs (a - y) <= 1002 / 1000 * uf f * K) by (apply Rabs_le; lra).
    set (T := K * ln 10) in * . replace (201 / 100 * K * ln 10) with (201 / 100 * T) in Rw by (unfold T; ring). assert (uT : uf f * (K * (2302 / 1000)) <= uf f * T) by (apply Rmult_le_compat_l; lra).
    assert (aT : a <= T) by (unfold T; apply Rle_trans with (1 * ln 10); [lra|apply Rmult_le_compat_r; lra]).
    assert (uy : uf f * (a - y) <= uf f * (/ 1000 * K)) by (apply Rmult_le_compat_l; lra). assert (uf f * a <= uf f * T) by (apply Rmult_le_compat_l; lra). lra.
Qed.
Lemma log_check_ge v {f} (x : flt f) : finite x = true -> / 2 <= B2R x -> exists w, log_check v x = Ok w /\ finite w = true /\ rel_err (B2R w) (ln (B2R x)) (56 / 10 * uf f).
Proof.
  intros Fx X. assert (u0 := uf_pos f). unfold rel_err. destruct (Req_dec (B2R x) 1) as [E|N].
  { destruct (log_check_one v x Fx E) as (w & Ew & Fw & Vw). exists w. split; auto. split; auto. rewrite Vw, E, ln_1, Rminus_0_r, Rabs_R0. lra. }
  rewrite log_branch; auto. 2: { apply Rle_trans with (bpow radix2 (-1)). apply bpow_le. destruct f; discriminate. change (bpow radix2 (-1)) with (/ 2). lra. }
  rewrite Rlt_bool_false by auto. cbn [orb]. destruct (Rlt_bool_spec (3 / 2) (B2R x)) as [C|C].
  - destruct (log_large v x Fx ltac:(lra)) as (w & Ew & Fw & Rw). exists w. split; auto. split; auto. rewrite (Rabs_pos_eq (ln _)). exact Rw. apply ln_ge0. lra.
  - destruct (log_main_acc v x Fx ltac:(lra)) as (F & R). eexists. split; [reflexivity|]. split; auto. eapply Rle_trans. exact R. apply Rmult_le_compat_r. apply Rabs_pos. lra.
Qed.
(** ** Arguments below 1/2, away from the powers of ten *)
Lemma lit_tight f : Rabs (B2R (dlit f 1 3) - / 1000) <= / 1000000000 * / 2 /\ Rabs (B2R (dlit f 1 1) - / 10) <= / 10000000 * / 2.
Proof.
  split.
  - destruct f; [destruct (sf_val (dlit F32 1 3) false 8589935%positive (-33)%Z) as (_ & B); [vm_compute; reflexivity|rewrite B; unfold F2R; cbn; apply Rabs_le; lra]|destruct (sf_val (dlit F64 1 3) false 4611686018427388%positive (-62)%Z) as (_ & B); [vm_compute; reflexivity|rewrite B; unfold F2R; cbn; apply Rabs_le; lra]|destruct (sf_val (dlit F80 1 3) false 9444732965739290624%positive (-73)%Z) as (_ & B); [vm_compute; reflexivity|rewrite B; unfold F2R; cbn; apply Rabs_le; lra]].
  - destruct f; [destruct (sf_val (dlit F32 1 1) false 13421773%positive (-27)%Z) as (_ & B); [vm_compute; reflexivity|rewrite B; unfold F2R; cbn; apply Rabs_le; lra]|destruct (sf_val (dlit F64 1 1) false 7205759403792794%positive (-56)%Z) as (_ & B); [vm_compute; reflexivity|rewrite B; unfold F2R; cbn; apply Rabs_le; lra]|destruct (sf_val (dlit F80 1 1) false 14757395258967642112%positive (-67)%Z) as (_ & B); [vm_compute; reflexivity|rewrite B; unfold F2R; cbn; apply Rabs_le; lra]].
Qed.
Definition eta (f : fmt) (i : nat) : R := / 1000000 + 2 * INR i * uf f.
Definition away {f} (i : nat) (y : flt f) : Prop := 1 + eta f i <= B2R y * 10 ^ i <= 10 * (1 - eta f i).
Lemma eta_le f i j : (i <= j)%nat -> eta f i <= eta f j.
Proof. intros H. unfold eta. apply le_INR in H. assert (u0 := uf_pos f). assert (INR i * uf f <= INR j * uf f) by (apply Rmult_le_compat_r; lra). lra. Qed.
Lemma eta_pos f i : / 1000000 <= eta f i.
Proof. unfold eta. assert (u0 := uf_pos f). assert (i0 := pos_INR i). assert (0 <= INR i * uf f) by (apply Rmult_le_pos; lra). lra. Qed.
(** One multiplication by 10^(S j). *)
Lemma scale_step {f} i j (y t : flt f) : finite y = true -> bpow radix2 (2 - emax f) <= B2R y -> has_val t (10 ^ S j) -> (S j <= i)%nat -> eta f i <= / 1000 -> away i y ->
  finite (y *. t) = true /\ bpow radix2 (2 - emax f) <= B2R (y *. t) /\ away (i - S j) (y *. t) /\
  B2R y * 10 ^ S j * (1 - uf f) <= B2R (y *. t) <= B2R y * 10 ^ S j * (1 + uf f).
Proof.
  intros Fy Y0 (Ft & Vt) Hj He A. assert (y0 := bpow_gt_0 radix2 (2 - emax f)). assert (u0 := uf_pos f). assert (u1 := uf_le f). change (bpow radix2 (-24)) with (/ 16777216) in u1. unfold away in * .
  assert (Q1 : 1 <= 10 ^ S j) by (apply pow_R1_Rle; lra). assert (Q2 : 1 <= 10 ^ (i - S j)) by (apply pow_R1_Rle; lra). assert (Q3 : 10 ^ i = 10 ^ S j * 10 ^ (i - S j)) by (rewrite <- pow_add; f_equal; lia).
  assert (EP := eta_pos f i). rewrite Q3, <- Rmult_assoc in A. set (q := B2R y * 10 ^ S j) in * . set (p := 10 ^ (i - S j)) in * .
  assert (q1 : B2R y <= q). { unfold q. rewrite <- (Rmult_1_r (B2R y)) at 1. apply Rmult_le_compat_l; lra. } assert (q2 : q <= 10). { apply Rle_trans with (q * p). rewrite <- (Rmult_1_r q) at 1. apply Rmult_le_compat_l; lra. lra. }
  destruct (op_mul y t Fy Ft) as (F & V). { rewrite Vt. fold q. apply Rabs_le. lra. } rewrite Vt in V. fold q in V. split; auto. rewrite V. split. { apply rnd_ge_fmt. apply fmt_bpow. unfold emin; destruct f; cbn; lia. lra. }
  destruct (rnd_u f q) as (e & E & ->). rewrite Rabs_pos_eq; lra. apply Rabs_le_inv in E. 
  assert (EI : eta f i = eta f (i - S j) + 2 * INR (S j) * uf f). { unfold eta. rewrite minus_INR by auto. ring. }
  assert (J1 : 1 <= INR (S j)). { change 1 with (INR 1). apply le_INR. lia. } assert (J2 : uf f <= INR (S j) * uf f). { rewrite <- (Rmult_1_l (uf f)) at 1. apply Rmult_le_compat_r; lra. }
  assert (0 < q) by lra. split. 2: { split; apply Rmult_le_compat_l; lra. } replace (q * (1 + e) * p) with (q * p * (1 + e)) by ring. set (z := q * p) in * .
  assert (ez : - (uf f * z) <= z * e <= uf f * z). { split. replace (- (uf f * z)) with (z * - uf f) by ring. apply Rmult_le_compat_l; lra. rewrite (Rmult_comm (uf f)). apply Rmult_le_compat_l; lra. }
  assert (uf f * eta f i <= uf f * / 1000) by (apply Rmult_le_compat_l; lra). assert (0 <= uf f * eta f i) by (apply Rmult_le_pos; lra).
  split.
  - replace (z * (1 + e)) with (z * (1 + e) + 0) by ring. assert ((1 + eta f i) * (1 + - uf f) <= z * (1 + e)) by (apply Rmult_le_compat; lra). lra.
  - assert (uf f * z <= uf f * (10 * (1 - eta f i))) by (apply Rmult_le_compat_l; lra). lra.
Qed.
Lemma mantissa_away {f} i : forall (y : flt f), finite y = true -> bpow radix2 (2 - emax f) <= B2R y -> eta f i <= / 1000 -> away i y -> 
  exists m, mantissa (S i) y = Ok m /\ finite m = true /\ 1 <= B2R m <= 10 /\ B2R y * 10 ^ i * (1 - uf f) ^ i <= B2R m <= B2R y * 10 ^ i * (1 + uf f) ^ i.
Proof.
  assert (T10 : has_val (ofZ f 10) 10) by (split; [apply ofZ_fin; lia|apply ofZ_B2R; lia]). assert (u0 := uf_pos f). assert (u1 := uf_le f). change (bpow radix2 (-24)) with (/ 16777216) in u1.
  assert (T1 : has_val (ofZ f 1) 1) by (split; [apply ofZ_fin; lia|apply ofZ_B2R; lia]). assert (y0 := bpow_gt_0 radix2 (2 - emax f)).
  induction i as [|i IH]; intros y Fy Y0 He A; assert (EP := eta_pos f); rewrite mantissa_S.
  - specialize (EP 0%nat). unfold away in A. cbn [pow] in * . rewrite Rmult_1_r in A. rewrite !flt_false; auto; try apply T1; try apply T10; rewrite ?(proj2 T1), ?(proj2 T10); try lra. exists y. repeat split; auto; lra.
  - assert (A' := A). unfold away in A'. assert (P := pow_R1_Rle 10 i ltac:(lra)). cbn [pow] in A'. specialize (EP (S i)).
    rewrite (flt_true y (ofZ f 1)); auto; try apply T1. 2: { rewrite (proj2 T1). apply Rmult_lt_reg_r with (10 * 10 ^ i); nra. }
    destruct (scale_step (S i) 0 y (ofZ f 10)) as (F & Y1 & A2 & B); auto. { cbn [pow]. rewrite Rmult_1_r. exact T10. } lia.
    replace (S i - 1)%nat with i in A2 by lia. destruct (IH (y *. ofZ f 10)) as (m & Em & Fm & Bm & Rm); auto. { assert (Q := eta_le f i (S i) ltac:(lia)). lra. }
    exists m. split; auto. split; auto. split; auto. change (10 ^ 1) with (10 * 1) in B. assert (P1 : 0 < (1 - uf f) ^ i) by (apply pow_lt; lra). assert (P2 : 0 < (1 + uf f) ^ i) by (apply pow_lt; lra).
    cbn [pow]. split.
    + eapply Rle_trans; [|apply Rm]. replace (B2R y * (10 * 10 ^ i) * ((1 - uf f) * (1 - uf f) ^ i)) with (B2R y * (10 * 1) * (1 - uf f) * (10 ^ i * (1 - uf f) ^ i)) by ring. rewrite (Rmult_assoc _ (10 ^ i)). apply Rmult_le_compat_r. apply Rmult_le_pos; lra. lra.
    + eapply Rle_trans; [apply Rm|]. replace (B2R y * (10 * 10 ^ i) * ((1 + uf f) * (1 + uf f) ^ i)) with (B2R y * (10 * 1) * (1 + uf f) * (10 ^ i * (1 + uf f) ^ i)) by ring. rewrite (Rmult_assoc _ (10 ^ i)). apply Rmult_le_compat_r. apply Rmult_le_pos; lra. lra.
Qed.
Lemma exponent_away {f} n : forall i (y : flt f) e, (i <= n)%nat -> finite y = true -> bpow radix2 (2 - emax f) <= B2R y -> eta f i <= / 1000 -> away i y -> (Z.abs e + Z.of_nat i <= 2 ^ 62)%Z ->
  find_exponent (S n) y e = Ok (e - Z.of_nat i)%Z.
Proof.
  assert (T10 : has_val (ofZ f 10) 10) by (split; [apply ofZ_fin; lia|apply ofZ_B2R; lia]). assert (u0 := uf_pos f).
  assert (T1 : has_val (ofZ f 1) 1) by (split; [apply ofZ_fin; lia|apply ofZ_B2R; lia]). assert (y0 := bpow_gt_0 radix2 (2 - emax f)).
  destruct (lit_bounds f) as (_ & F3 & _ & F2). destruct (lit_tight f) as (L3 & L2). apply Rabs_le_inv in L3, L2. destruct (lit_ints f) as ((H100 & V100) & (H10000 & V10000) & _).
  assert (IS : forall k e, (1 <= k <= 4)%Z -> (Z.abs e <= 2 ^ 62)%Z -> isub I64 e k = Ok (e - k)%Z).
  { intros k e Hk He. apply iarith_ok. apply in_range_i64. lia. }
  induction n as [|n IH]; intros i y e Hi Fy Y0 He A Ee; assert (EP := eta_pos f i); rewrite find_exponent_S.
  - replace i with 0%nat in * by lia. unfold away in A. cbn [pow] in A. rewrite Rmult_1_r in A. rewrite !flt_false; auto; try apply T1; try apply T10; rewrite ?V100, ?V10000, ?(proj2 T1), ?(proj2 T10); try lra. f_equal. lia.
  - destruct i as [|[|[|[|i]]]].
    + unfold away in A. cbn [pow] in A. rewrite Rmult_1_r in A. rewrite !flt_false; auto; try apply T1; try apply T10; rewrite ?V100, ?V10000, ?(proj2 T1), ?(proj2 T10); try lra. f_equal. lia.
    + assert (A' := A). unfold away in A'. cbn [pow] in A'. rewrite (flt_false y (dlit f 1 3)), (flt_false y (dlit f 1 1)) by (auto; lra). rewrite (flt_true y (ofZ f 1)); auto; try apply T1. 2: rewrite (proj2 T1); lra.
      rewrite IS by lia. cbn [bind]. destruct (scale_step 1 0 y (ofZ f 10)) as (F & Y1 & A2 & B); auto. { cbn [pow]. rewrite Rmult_1_r. exact T10. }
      rewrite (IH 0%nat); auto; try lia. f_equal; lia. assert (Q := eta_le f 0 1 ltac:(lia)). lra.
    + assert (A' := A). unfold away in A'. cbn [pow] in A'. rewrite (flt_false y (dlit f 1 3)) by (auto; lra). rewrite (flt_true y (dlit f 1 1)) by (auto; lra).
      rewrite IS by lia. cbn [bind]. destruct (scale_step 2 1 y (dlit f 100 0)) as (F & Y1 & A2 & B); auto. { split; auto. rewrite V100. cbn; lra. }
      rewrite (IH 0%nat); auto; try lia. f_equal; lia. assert (Q := eta_le f 0 2 ltac:(lia)). lra.
    + assert (A' := A). unfold away in A'. cbn [pow] in A'. rewrite (flt_false y (dlit f 1 3)) by (auto; lra). rewrite (flt_true y (dlit f 1 1)) by (auto; lra).
      rewrite IS by lia. cbn [bind]. destruct (scale_step 3 1 y (dlit f 100 0)) as (F & Y1 & A2 & B); auto. { split; auto. rewrite V100. cbn; lra. }
      rewrite (IH 1%nat); auto; try lia. f_equal; lia. assert (Q := eta_le f 1 3 ltac:(lia)). lra.
    + assert (A' := A). unfold away in A'. assert (P := pow_R1_Rle 10 i ltac:(lra)). cbn [pow] in A'.
      rewrite (flt_true y (dlit f 1 3)); auto. 2: { apply Rlt_le_trans with (/ 1000 - / 1000000000 * / 2); [|lra]. apply Rmult_lt_reg_r with (10 * (10 * (10 * (10 * 10 ^ i)))). lra. eapply Rle_lt_trans. apply A'. apply Rle_lt_trans with (10 * (1 - / 1000000)). lra. lra. }
      rewrite IS by lia. cbn [bind]. destruct (scale_step (S (S (S (S i)))) 3 y (dlit f 10000 0)) as (F & Y1 & A2 & B); auto. { split; auto. rewrite V10000. cbn; lra. } lia.
      replace (S (S (S (S i))) - 4)%nat with i in A2 by lia. rewrite (IH i); auto; try lia. f_equal; lia. assert (Q := eta_le f i (S (S (S (S i)))) ltac:(lia)). lra.
Qed.
Lemma depth_away {f} (x : flt f) k : bpow radix2 (2 - emax f) <= B2R x -> B2R x * 10 ^ k <= 10 -> (k <= scale_depth f)%nat.
Proof.
  intros X0 H. destruct (Nat.le_gt_cases k (scale_depth f)) as [L|L]; auto. exfalso. assert (D := cst_depth f). assert (x0 := bpow_gt_0 radix2 (2 - emax f)).
  assert (P : 10 ^ S (scale_depth f) <= 10 ^ k) by (apply Rle_pow; [lra|lia]). assert (C : ScaleProofs.cst ^ scale_depth f <= 10 ^ scale_depth f) by (apply pow_incr; unfold ScaleProofs.cst; lra). cbn [pow] in P.
  assert (B : bpow radix2 (2 - emax f) * bpow radix2 (emax f) = 4). { rewrite <- bpow_plus. replace (2 - emax f + emax f)%Z with 2%Z by ring. reflexivity. }
  assert (e0 := bpow_gt_0 radix2 (emax f)). assert (bpow radix2 (2 - emax f) * (10 * bpow radix2 (emax f)) <= B2R x * 10 ^ k) by (apply Rmult_le_compat; lra). lra.
Qed.
Lemma eta_depth f k : (k <= scale_depth f)%nat -> eta f k <= / 100000.
Proof.
  intros H. apply (eta_le f) in H. eapply Rle_trans. exact H. unfold eta, uf. rewrite INR_IZR_INZ. unfold scale_depth. rewrite Z2Nat.id by (destruct f; lia). destruct f; cbn; lra.
Qed.
Lemma log_small_gen v {f} (x : flt f) k : finite x = true -> bpow radix2 (2 - emax f) <= B2R x < / 2 -> (1 <= k)%nat -> 1 + / 100000 <= B2R x * 10 ^ k <= 10 - / 10000 ->
  exists w, log_check v x = Ok w /\ finite w = true /\ rel_err (B2R w) (ln (B2R x)) ((if Nat.eq_dec k 1 then 22 else 12) * uf f).
Proof.
  intros Fx (X0 & X2) K1 H. assert (u0 := uf_pos f). assert (u1 := uf_le f). change (bpow radix2 (-24)) with (/ 16777216) in u1. assert (l10 := ln10_rng). assert (l2 := ln2_rng). assert (x0 := bpow_gt_0 radix2 (2 - emax f)).
  assert (KD := depth_away x k X0 ltac:(lra)). assert (ED := eta_depth f k KD). pose proof (scale_depth_le f) as SD. assert (Hd : (Z.of_nat (scale_depth f) <= 5000)%Z) by (destruct f; vm_compute; discriminate).
  assert (A : away k x). { unfold away. lra. }
  rewrite log_branch by (auto; lra). rewrite Rlt_bool_true by auto. cbn [orb].
  destruct (mantissa_away k x Fx X0 ltac:(lra) A) as (m & Em & Fm & Bm & Rm). assert (Ee := exponent_away k k x 0 ltac:(lia) Fx X0 ltac:(lra) A ltac:(lia)). rewrite Z.sub_0_l in Ee.
  destruct (breakup_acc v x m (- Z.of_nat k)) as (w & Ew & Fw & Rw); auto.
  { apply (mantissa_mono (S k)); auto. lia. } { apply (find_exponent_mono (S k)); auto. lia. } { lia. }
  exists w. split; auto. split; auto. unfold rel_err.
  assert (P10 : 0 < 10 ^ k) by (apply pow_lt; lra). set (Y := B2R x * 10 ^ k) in * .
  assert (LB := pow_ln_bounds (uf f) k (B2R m) Y ltac:(lra) ltac:(lra) Rm).
  assert (LX : ln (B2R x) = ln Y - INR k * ln 10). { unfold Y. rewrite ln_mult by lra. rewrite ln_pow by lra. ring. }
  assert (A0 := ln_ge0 _ (proj1 Bm)). assert (Y0 := ln_ge0 Y ltac:(lra)). assert (Y1 := ln_le_le Y 10 ltac:(lra) ltac:(lra)). 
  assert (N2 : ln 2 <= - ln (B2R x)). { rewrite <- ln_Rinv by lra. apply ln_le_le. lra. replace 2 with (/ / 2) by field. apply Rinv_le; lra. }
  destruct (Z.eq_dec (- Z.of_nat k) 0) as [Z|Z]; [lia|]. rewrite opp_IZR, <- INR_IZR_INZ, Rabs_Ropp in Rw. set (a := ln (B2R m)) in * . set (y := ln Y) in * . set (K := INR k) in * . assert (K1' : 1 <= K). { unfold K. change 1 with (INR 1). apply le_INR. lia. }
  rewrite (Rabs_pos_eq K) in Rw by lra. apply Rabs_le_inv in LB. rewrite LX in N2. rewrite LX, (Rabs_left1 (y - K * ln 10)) by lra. set (N := - (y - K * ln 10)) in * .
  assert (uK : 0 <= uf f * K <= / 16777216 * K). { split. apply Rmult_le_pos; lra. apply Rmult_le_compat_r; lra. }
  assert (KK : K * (2302 / 1000) <= K * ln 10) by (apply Rmult_le_compat_l; lra). assert (NE : N = K * ln 10 - y) by (unfold N; ring).
  assert (AB : Rabs (a + - K * ln 10) <= N + / 1000000 * K) by (apply Rabs_le; lra).
  replace (B2R w - (y - K * ln 10)) with ((B2R w - (a + - K * ln 10)) + (a - y)) by ring. eapply Rle_trans. apply Rabs_triang. assert (Rabs (a - y) <= 1002 / 1000 * uf f * K) by (apply Rabs_le; lra).
  set (T := K * ln 10) in * . replace (201 / 100 * K * ln 10) with (201 / 100 * T) in Rw by (unfold T; ring).
  assert (R2 : Rabs (B2R w - (a + - K * ln 10)) + Rabs (a - y) <= uf f * (552 / 100 * y + 201 / 100 * T + N + 1003 / 1000 * K)).
  { eapply Rle_trans. apply Rplus_le_compat; eassumption. replace (1002 / 1000 * uf f * K) with (uf f * (1002 / 1000 * K)) by ring. rewrite <- Rmult_plus_distr_l. apply Rmult_le_compat_l; lra. }
  eapply Rle_trans. exact R2. rewrite (Rmult_comm _ (uf f)), Rmult_assoc. apply Rmult_le_compat_l. lra.
  destruct (Nat.eq_dec k 1) as [E|E].
  - assert (K = 1) by (unfold K; rewrite E; reflexivity). assert (T = ln 10) by (unfold T; rewrite H1; ring). rewrite H2 in * . lra.
  - assert (2 <= K). { unfold K. change 2 with (INR 2). apply le_INR. lia. } assert (2 * ln 10 <= T) by (unfold T; apply Rmult_le_compat_r; lra). lra.
Qed.
(** ** Next to powers of ten *)
Definition bad_arg (f : fmt) : flt f :=
  match f with F32 => dlit F32 1 2 | F64 => dlit F64 1 12 | F80 => dec F80 1 1 end.
