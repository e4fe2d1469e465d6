(** * The angle between a computed tangent and an argument, in the reals *)
From Coq Require Import Reals Lra Lia ZArith Psatz.
From Coquelicot Require Import Coquelicot.
From Interval Require Import Tactic.
From Verif Require Import Base FltLemmas TrigReal.
Open Scope R_scope.

Definition ang (w x : R) : R := Rabs (sin (atan w - x)).
Lemma lip_sin x y : Rabs (sin x - sin y) <= Rabs (x - y).
Proof.
  destruct (MVT_gen sin y x cos) as (c & _ & E). intros; apply is_derive_sin. intros; apply continuity_sin.
  rewrite E, Rabs_mult. assert (B := COS_bound c). assert (Rabs (cos c) <= 1) by (apply Rabs_le; lra). assert (0 <= Rabs (x - y)) by apply Rabs_pos. nra.
Qed.
Lemma ang_form w x : sin (atan w - x) = (w * cos x - sin x) / sqrt (1 + w * w).
Proof. rewrite sin_minus, sin_atan, cos_atan. unfold Rsqr. assert (0 < sqrt (1 + w * w)) by (apply sqrt_lt_R0; nra). field. lra. Qed.
Lemma ang_cos_form w x : cos (atan w - x) = (w * sin x + cos x) / sqrt (1 + w * w).
Proof. rewrite cos_minus, sin_atan, cos_atan. unfold Rsqr. assert (0 < sqrt (1 + w * w)) by (apply sqrt_lt_R0; nra). field. lra. Qed.
Lemma ang_le w x e : 0 <= e -> Rabs (w * cos x - sin x) <= e * Rabs (w * sin x + cos x) -> ang w x <= e.
Proof.
  intros E H. unfold ang. set (s := sqrt (1 + w * w)). assert (S0 : 0 < s) by (apply sqrt_lt_R0; nra).
  assert (A : Rabs (sin (atan w - x)) <= e * Rabs (cos (atan w - x))).
  { rewrite ang_form, ang_cos_form. fold s. unfold Rdiv. rewrite !Rabs_mult, (Rabs_pos_eq (/ s)) by (left; apply Rinv_0_lt_compat; auto). rewrite <- Rmult_assoc. apply Rmult_le_compat_r; auto. left; apply Rinv_0_lt_compat; auto. }
  assert (B := COS_bound (atan w - x)). assert (Rabs (cos (atan w - x)) <= 1) by (apply Rabs_le; lra). assert (e * Rabs (cos (atan w - x)) <= e * 1) by (apply Rmult_le_compat_l; auto). lra.
Qed.
Lemma ang_val w x : Rabs (w * cos x - sin x) = ang w x * sqrt (1 + w * w).
Proof.
  unfold ang. rewrite ang_form. assert (0 < sqrt (1 + w * w)) by (apply sqrt_lt_R0; nra). unfold Rdiv. rewrite Rabs_mult, (Rabs_pos_eq (/ _)) by (left; apply Rinv_0_lt_compat; auto). field. lra.
Qed.
Lemma ang_x w x y : ang w x <= ang w y + Rabs (x - y).
Proof.
  unfold ang. assert (L := lip_sin (atan w - x) (atan w - y)). replace (atan w - x - (atan w - y)) with (- (x - y)) in L by ring. rewrite Rabs_Ropp in L.
  assert (T := Rabs_triang_inv (sin (atan w - x)) (sin (atan w - y))). lra.
Qed.
Lemma sin_shift_nat n x : Rabs (sin (x - INR n * PI)) = Rabs (sin x).
Proof.
  induction n. replace (x - INR 0 * PI) with x by (cbn; ring). reflexivity.
  rewrite <- IHn, S_INR. replace (x - (INR n + 1) * PI) with (x - INR n * PI - PI) by ring. rewrite sin_minus, cos_PI, sin_PI, <- Rabs_Ropp. f_equal. ring.
Qed.
Lemma ang_per w x n : ang w (x + INR n * PI) = ang w x.
Proof. unfold ang. replace (atan w - (x + INR n * PI)) with (atan w - x - INR n * PI) by ring. apply sin_shift_nat. Qed.
Lemma ang_opp w x : ang (- w) (- x) = ang w x.
Proof. unfold ang. rewrite atan_opp. replace (- atan w - - x) with (- (atan w - x)) by ring. rewrite sin_neg, Rabs_Ropp. reflexivity. Qed.
Lemma atan_lip x y : Rabs (atan x - atan y) <= Rabs (x - y).
Proof.
  destruct (MVT_gen atan y x (fun t => / (1 + t²))) as (c & _ & E). intros; apply is_derive_atan. { intros. apply continuity_pt_filterlim. apply (ex_derive_continuous atan). eexists. apply is_derive_atan. }
  rewrite E, Rabs_mult. unfold Rsqr. assert (0 < / (1 + c * c) <= 1). { split. apply Rinv_0_lt_compat; nra. rewrite <- Rinv_1. apply Rinv_le; nra. } rewrite (Rabs_pos_eq (/ _)) by lra. assert (0 <= Rabs (x - y)) by apply Rabs_pos. nra.
Qed.
Lemma ang_rel w w' x p : Rabs p <= / 100 -> w' = w * (1 + p) -> ang w' x <= ang w x + 51 / 100 * Rabs p.
Proof.
  intros Hp ->. apply Rle_trans with (ang w x + Rabs (atan (w * (1 + p)) - atan w)).
  { unfold ang. assert (L := lip_sin (atan (w * (1 + p)) - x) (atan w - x)). replace (atan (w * (1 + p)) - x - (atan w - x)) with (atan (w * (1 + p)) - atan w) in L by ring. assert (T := Rabs_triang_inv (sin (atan (w * (1 + p)) - x)) (sin (atan w - x))). lra. }
  apply Rplus_le_compat_l. apply Rabs_le_inv in Hp.
  destruct (MVT_gen (fun s => atan (w * (1 + s))) 0 p (fun s => w / (1 + (w * (1 + s)) * (w * (1 + s))))) as (c & Hc & E).
  { intros s _. auto_derive. auto. unfold Rsqr. assert (K := Rle_0_sqr (w * (1 + s))). unfold Rsqr in K. field. apply Rgt_not_eq. nra. }
  { intros s _. apply continuity_pt_filterlim. apply (ex_derive_continuous (fun s => atan (w * (1 + s)))). auto_derive. auto. }
  rewrite Rplus_0_r, Rmult_1_r in E. rewrite E, Rminus_0_r, Rabs_mult. apply Rmult_le_compat_r. apply Rabs_pos.
  assert (C : - / 100 <= c <= / 100). { assert (Rmin 0 p >= - / 100) by (unfold Rmin; destruct Rle_dec; lra). assert (Rmax 0 p <= / 100) by (unfold Rmax; destruct Rle_dec; lra). lra. }
  set (v := w * (1 + c)). assert (D : 0 < 1 + v * v) by nra. unfold Rdiv at 1. rewrite Rabs_mult, (Rabs_pos_eq (/ _)) by (left; apply Rinv_0_lt_compat; auto).
  apply Rmult_le_reg_r with (1 + v * v); auto. rewrite Rmult_assoc, Rinv_l, Rmult_1_r by lra.
  assert (V : Rabs v = Rabs w * (1 + c)) by (unfold v; rewrite Rabs_mult, (Rabs_pos_eq (1 + c)); lra). assert (VV : v * v = Rabs v * Rabs v) by (rewrite <- Rabs_mult, Rabs_pos_eq; nra). rewrite VV, V. assert (W := Rabs_pos w). set (a := Rabs w) in * .
  assert (a * (99 / 100) <= a * (1 + c)) by (apply Rmult_le_compat_l; lra). set (b := a * (1 + c)) in * . assert (K := Rle_0_sqr (b - 1)). unfold Rsqr in K. assert (2 * b <= 1 + b * b) by lra. lra.
Qed.
Lemma sin_atan2 w : 2 * w / (1 + w * w) = sin (2 * atan w).
Proof. rewrite sin_2a, sin_atan, cos_atan. unfold Rsqr. set (s := sqrt (1 + w * w)). assert (S0 : 0 < s) by (apply sqrt_lt_R0; nra). assert (E : s * s = 1 + w * w) by (apply sqrt_sqrt; nra). rewrite <- E. field. lra. Qed.
Lemma cos_atan2 w : (1 - w * w) / (1 + w * w) = cos (2 * atan w).
Proof. rewrite cos_2a, sin_atan, cos_atan. unfold Rsqr. set (s := sqrt (1 + w * w)). assert (S0 : 0 < s) by (apply sqrt_lt_R0; nra). assert (E : s * s = 1 + w * w) by (apply sqrt_sqrt; nra). rewrite <- E. field. lra. Qed.
Lemma ang_sin w x : Rabs (2 * w / (1 + w * w) - sin (2 * x)) <= 2 * ang w x.
Proof.
  rewrite sin_atan2, form4. unfold ang. rewrite !Rabs_mult. replace ((2 * atan w - 2 * x) / 2) with (atan w - x) by field. rewrite (Rabs_pos_eq 2) by lra.
  assert (C := COS_bound ((2 * atan w + 2 * x) / 2)). assert (Rabs (cos ((2 * atan w + 2 * x) / 2)) <= 1) by (apply Rabs_le; lra). assert (P := Rabs_pos (sin (atan w - x))). assert (Q := Rabs_pos (cos ((2 * atan w + 2 * x) / 2))). nra.
Qed.
Lemma ang_cos w x : Rabs ((1 - w * w) / (1 + w * w) - cos (2 * x)) <= 2 * ang w x.
Proof.
  rewrite cos_atan2, form2. unfold ang. rewrite !Rabs_mult. replace ((2 * atan w - 2 * x) / 2) with (atan w - x) by field. replace (Rabs (-2)) with 2 by (rewrite Rabs_left; lra).
  assert (C := SIN_bound ((2 * atan w + 2 * x) / 2)). assert (Rabs (sin ((2 * atan w + 2 * x) / 2)) <= 1) by (apply Rabs_le; lra). assert (P := Rabs_pos (sin (atan w - x))). assert (Q := Rabs_pos (sin ((2 * atan w + 2 * x) / 2))). nra.
Qed.
Lemma ang_tan w x p : cos x <> 0 -> Rabs p <= / 100 -> w = tan x * (1 + p) -> ang w x <= 51 / 100 * Rabs p.
Proof.
  intros C Hp E. assert (A := ang_rel (tan x) w x p Hp E). replace (ang (tan x) x) with 0 in A. lra.
  symmetry. assert (Z : ang (tan x) x * sqrt (1 + tan x * tan x) = 0). { rewrite <- ang_val. unfold tan. rewrite <- (Rabs_R0). f_equal. field. auto. }
  assert (0 < sqrt (1 + tan x * tan x)) by (apply sqrt_lt_R0; nra). apply Rmult_integral in Z as [Z|Z]; lra.
Qed.
Lemma ang_small w x : ang w x <= Rabs w + Rabs x.
Proof.
  unfold ang. assert (L := lip_sin (atan w - x) 0). rewrite sin_0, !Rminus_0_r in L. assert (A := atan_lip w 0). rewrite atan_0, !Rminus_0_r in A.
  assert (T := Rabs_triang (atan w) (- x)). rewrite Rabs_Ropp in T. unfold Rminus in * . lra.
Qed.

(** ** One level of the continued fraction *)
Lemma SB1_big x : 13 / 10 <= x <= 63 / 20 -> 6 / 10 <= SB 1 x.
Proof.
  intros X. rewrite SB1. destruct (Rle_or_lt x (3 / 2)). interval with (i_bisect x, i_taylor x, i_prec 40). destruct (Rle_or_lt x 2). interval with (i_bisect x, i_prec 40). interval with (i_bisect x, i_prec 40).
Qed.
Lemma SB1_sq x : 13 / 10 <= x <= 63 / 20 -> 2 * (SB 1 x * SB 1 x) <= x * x * x.
Proof. intros X. rewrite SB1. apply Rminus_le. interval with (i_bisect x, i_prec 40, i_depth 20). Qed.
Lemma ang_level x d w : 13 / 10 <= x <= 63 / 20 -> Rabs d <= / 1000 -> w * (DD 0 x + d - x * x) = x * (DD 0 x + d) -> DD 0 x + d - x * x <> 0 -> ang w x <= 51 / 100 * Rabs d.
Proof.
  intros X Hd W M. set (S1 := SB 1 x). assert (S0 : 6 / 10 <= S1) by (apply SB1_big; auto). assert (SS := SB1_sq x X). fold S1 in SS.
  assert (ED : DD 0 x = x * x * sin x / S1) by reflexivity. assert (ES : S1 = sin x - x * cos x) by reflexivity.
  assert (Q := sin2_cos2 x). unfold Rsqr in Q. set (s := sin x) in * . set (c := cos x) in * . set (D := DD 0 x) in * . set (m := D + d - x * x) in * .
  assert (E1 : x * (D + d) * c - m * s = - (d * S1)). { unfold m. rewrite ED. replace (x * (x * x * s / S1 + d) * c - (x * x * s / S1 + d - x * x) * s) with (x * x * s / S1 * (x * c - s) + x * x * s - d * (s - x * c)) by ring. rewrite <- ES. replace (x * c - s) with (- S1) by (rewrite ES; ring). field. lra. }
  assert (E2 : x * (D + d) * s + m * c = x * x * x / S1 + d * (x * s + c)).
  { unfold m. rewrite ED. replace (x * (x * x * s / S1 + d) * s + (x * x * s / S1 + d - x * x) * c) with (x * x * (s * (x * s + c) - S1 * c) / S1 + d * (x * s + c)) by (field; lra). f_equal. f_equal.
    replace (s * (x * s + c) - S1 * c) with (x * (s * s + c * c)) by (rewrite ES; ring). rewrite Q. ring. }
  apply ang_le. assert (P := Rabs_pos d). lra. fold s c.
  assert (Wm : forall a b, m * (w * a + b) = x * (D + d) * a + m * b). { intros. rewrite <- W. ring. }
  apply Rmult_le_reg_l with (Rabs m). apply Rabs_pos_lt; auto. rewrite <- Rabs_mult. replace (m * (w * c - s)) with (x * (D + d) * c - m * s) by (rewrite <- W; ring). rewrite E1.
  replace (Rabs m * (51 / 100 * Rabs d * Rabs (w * s + c))) with (51 / 100 * Rabs d * Rabs (m * (w * s + c))) by (rewrite Rabs_mult; ring). rewrite Wm, E2, Rabs_Ropp, Rabs_mult, (Rabs_pos_eq S1) by lra.
  assert (G : 2 * S1 <= x * x * x / S1). { apply Rmult_le_reg_r with S1. lra. replace (x * x * x / S1 * S1) with (x * x * x) by (field; lra). lra. }
  assert (B : Rabs (d * (x * s + c)) <= / 1000 * (42 / 10)).
  { rewrite Rabs_mult. apply Rmult_le_compat; auto using Rabs_pos. assert (SB := SIN_bound x). assert (CB := COS_bound x). fold s in SB. fold c in CB. apply Rabs_le. nra. }
  apply Rabs_le_inv in B. rewrite (Rabs_pos_eq (_ + _)) by lra. rewrite (Rmult_comm (51 / 100)), Rmult_assoc. apply Rmult_le_compat_l. apply Rabs_pos. lra.
Qed.
(** The denominator stays away from zero. *)
Lemma den_far x : 1399 / 1000 <= x <= 1551 / 1000 \/ 1599 / 1000 <= x <= 63 / 20 -> 2 / 100 <= Rabs (DD 0 x - x * x) <= 13.
Proof.
  intros X. assert (X' : 13 / 10 <= x <= 63 / 20) by lra. assert (S0 := SB1_big x X'). assert (SS := SB1_sq x X'). set (S1 := SB 1 x) in * . assert (ES : S1 = sin x - x * cos x) by reflexivity.
  replace (DD 0 x - x * x) with (x * x * x / S1 * cos x). 2: { replace (DD 0 x) with (x * x * sin x / S1) by reflexivity. replace (sin x) with (S1 + x * cos x) by (rewrite ES; ring). field. lra. }
  rewrite Rabs_mult. assert (x3 : 2 <= x * x * x <= 31257 / 1000) by (split; interval). 
  assert (G : 2 * S1 <= x * x * x / S1). { apply Rmult_le_reg_r with S1. lra. replace (x * x * x / S1 * S1) with (x * x * x) by (field; lra). lra. }
  assert (C : 19 / 1000 <= Rabs (cos x)). { destruct X as [X|X]. rewrite Rabs_pos_eq. interval. apply Rlt_le. interval. rewrite Rabs_left. destruct (Rle_or_lt x 2). interval with (i_bisect x). interval with (i_bisect x). destruct (Rle_or_lt x 2). interval. interval. }
  rewrite (Rabs_pos_eq (_ / _)) by lra. split. nra.
  unfold Rdiv. destruct (Rle_or_lt x (19 / 10)) as [L|L].
  - assert (Rabs (cos x) <= 34 / 100) by (apply Rabs_le; split; interval). assert (x * x * x <= 69 / 10) by interval. assert (x * x * x * / S1 <= 69 / 10 * / (6 / 10)) by (apply Rmult_le_compat; try lra; [left; apply Rinv_0_lt_compat; lra|apply Rinv_le; lra]). assert (0 <= Rabs (cos x)) by apply Rabs_pos. nra.
  - assert (15 / 10 <= S1) by (rewrite ES; interval with (i_bisect x)). assert (Rabs (cos x) <= 1) by (apply Rabs_le; assert (B := COS_bound x); lra). assert (0 <= Rabs (cos x)) by apply Rabs_pos.
    destruct (Rle_or_lt x (26 / 10)). assert (x * x * x <= 176 / 10) by interval. assert (x * x * x * / S1 <= 176 / 10 * / (15 / 10)) by (apply Rmult_le_compat; try lra; [left; apply Rinv_0_lt_compat; lra|apply Rinv_le; lra]). nra.
    assert (26 / 10 <= S1) by (rewrite ES; interval with (i_bisect x)). assert (x * x * x * / S1 <= 31257 / 1000 * / (26 / 10)) by (apply Rmult_le_compat; try lra; [left; apply Rinv_0_lt_compat; lra|apply Rinv_le; lra]). nra.
Qed.
(** ** The expansion at pi/2 *)
Definition sser (z : R) : R := z / 3 + (z * z * z / 45 + (2 * (z * z * z * z * z) / 945 + z * z * z * z * z * z * z / 4725)).
Lemma sser_real z : Rabs z <= 3 / 100 -> Rabs (- sin z + z * sser z * sin z + z * cos z) <= bpow radix2 (-65).
Proof. intros H. apply Rabs_le_inv in H. change (bpow radix2 (-65)) with (/ 36893488147419103232). unfold sser. interval with (i_taylor z, i_degree 16, i_prec 120). Qed.
Lemma ang_series z p w : z <> 0 -> Rabs z <= 3 / 100 -> Rabs p <= / 100 -> w = (- / z + sser z) * (1 + p) -> ang w (PI / 2 + z) <= bpow radix2 (-64) + 51 / 100 * Rabs p.
Proof.
  intros Z0 Hz Hp E. eapply Rle_trans. apply (ang_rel _ _ _ p Hp E). apply Rplus_le_compat_r. assert (R := sser_real z Hz). replace (bpow radix2 (-64)) with (2 * bpow radix2 (-65)) by (replace (-64)%Z with (-65 + 1)%Z by ring; rewrite bpow_plus_1; reflexivity).
  set (e := bpow radix2 (-65)) in * . assert (e0 : 0 < e) by apply bpow_gt_0. apply ang_le. lra.
  rewrite cos_plus, sin_plus, cos_PI2, sin_PI2. apply Rabs_le_inv in Hz. set (w0 := - / z + sser z).
  replace (w0 * (0 * cos z - 1 * sin z) - (1 * cos z + 0 * sin z)) with (- ((- sin z + z * sser z * sin z + z * cos z) / z)) by (unfold w0; field; auto).
  replace (w0 * (1 * cos z + 0 * sin z) + (0 * cos z - 1 * sin z)) with ((- cos z + z * sser z * cos z - z * sin z) / z) by (unfold w0; field; auto).
  rewrite Rabs_Ropp. unfold Rdiv. rewrite !Rabs_mult. rewrite <- Rmult_assoc. apply Rmult_le_compat_r. apply Rabs_pos. eapply Rle_trans. exact R.
  assert (Rabs (- cos z + z * sser z * cos z - z * sin z) >= / 2). { rewrite Rabs_left; unfold sser; interval_intro (- cos z + z * (z / 3 + (z * z * z / 45 + (2 * (z * z * z * z * z) / 945 + z * z * z * z * z * z * z / 4725))) * cos z - z * sin z) upper; lra. } nra.
Qed.
