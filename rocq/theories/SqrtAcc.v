(** * Accuracy of sqrt and inv_sqrt: Newton's iteration with rounding errors *)
From Verif Require Import Base ModelBasic ModelInt ModelApi FltLemmas Spec IntProofs BasicProofs ConvLemmas ScaleProofs TotalProofs.
From Coq Require Import Lra Psatz.
From Flocq Require Import Mult_error.
From Verif Require Import PF FPErr CFBound.
From Interval Require Import Tactic.
Open Scope R_scope.

(** ** One step over the reals: [E] is the iterate divided by the root. *)
Lemma newton_lower u p E e1 d e2 : 0 < u <= / 16777216 -> 0 < E -> Rabs e1 <= p -> p <= 3 * u -> Rabs d <= / 1000 * u -> Rabs e2 <= u ->
  1 - (p / 2 + 11 / 10 * u) <= (E + ((1 + e1) / E + d)) / 2 * (1 + e2).
Proof.
  intros U E0 H1 P Hd H2. apply Rabs_le_inv in H1, Hd, H2. set (t := 1 - p / 2 - / 100 * u).
  assert (pp : p * p <= p * (3 * / 16777216)) by (apply Rmult_le_compat_l; lra). assert (pu : 0 <= p * u <= 3 * / 16777216 * u) by (split; [apply Rmult_le_pos; lra|apply Rmult_le_compat_r; lra]). assert (uu : 0 <= u * u <= / 16777216 * u) by (split; [apply Rmult_le_pos; lra|apply Rmult_le_compat_r; lra]).
  assert (T : t * t <= 1 - p). { unfold t. replace ((1 - p / 2 - / 100 * u) * (1 - p / 2 - / 100 * u)) with (1 - p - / 50 * u + p * p / 4 + / 100 * (p * u) + / 10000 * (u * u)) by field. lra. }
  assert (A : 2 * t <= E + (1 + e1) / E). { apply Rmult_le_reg_r with E; auto. replace ((E + (1 + e1) / E) * E) with (E * E + (1 + e1)) by (field; lra). assert (0 <= (E - t) * (E - t)) by apply Rle_0_sqr. replace ((E - t) * (E - t)) with (E * E - 2 * t * E + t * t) in H by ring. lra. }
  assert (t0 : 0 < t - / 2000 * u) by (unfold t; lra).
  apply Rle_trans with ((t - / 2000 * u) * (1 + e2)). 2: { apply Rmult_le_compat_r; lra. }
  apply Rle_trans with ((t - / 2000 * u) * (1 - u)). 2: { apply Rmult_le_compat_l; lra. }
  unfold t. replace ((1 - p / 2 - / 100 * u - / 2000 * u) * (1 - u)) with (1 - p / 2 - u - (/ 100 + / 2000) * u + p * u / 2 + (/ 100 + / 2000) * (u * u)) by field. lra.
Qed.
Lemma newton_upper u p E e1 d e2 : 0 < u <= / 16777216 -> 1 - 3 * u <= E -> Rabs e1 <= p -> p <= 3 * u -> Rabs d <= / 1000 * u -> Rabs e2 <= u ->
  (E + ((1 + e1) / E + d)) / 2 * (1 + e2) - 1 <= (1 + u) * ((E - 1) * (E - 1) / (2 * E)) + (p / 2 + 101 / 100 * u).
Proof.
  intros U E0 H1 P Hd H2. assert (E1 : 0 < E) by lra. set (G := (E - 1) * (E - 1) / (2 * E)).
  assert (G0 : 0 <= G). { unfold G. apply Rmult_le_pos. apply Rle_0_sqr. left. apply Rinv_0_lt_compat. lra. }
  replace ((E + ((1 + e1) / E + d)) / 2 * (1 + e2) - 1) with (G * (1 + e2) + e2 + (e1 * / E / 2 + d / 2) * (1 + e2)) by (unfold G; field; lra).
  assert (I : 0 < / E <= 1 + 4 * u). { split. apply Rinv_0_lt_compat; lra. apply Rmult_le_reg_r with E; auto. rewrite Rinv_l by lra. apply Rle_trans with ((1 + 4 * u) * (1 - 3 * u)). nra. apply Rmult_le_compat_l; lra. }
  apply Rabs_le_inv in H2, Hd. assert (p0 : 0 <= p) by (apply Rle_trans with (1 := Rabs_pos e1); auto).
  assert (A1 : Rabs (e1 * / E) <= p * (1 + 4 * u)). { rewrite Rabs_mult, (Rabs_pos_eq (/ E)) by lra. apply Rmult_le_compat; auto using Rabs_pos; lra. } apply Rabs_le_inv in A1.
  assert (pu : 0 <= p * u <= 3 * / 16777216 * u) by (split; [apply Rmult_le_pos; lra|apply Rmult_le_compat_r; lra]).
  assert (uu : 0 <= u * u <= / 16777216 * u) by (split; [apply Rmult_le_pos; lra|apply Rmult_le_compat_r; lra]).
  assert (G * (1 + e2) <= G * (1 + u)) by (apply Rmult_le_compat_l; lra).
  set (q := e1 * / E / 2 + d / 2) in * . assert (Q : q <= p / 2 + 2 * (p * u) + / 2000 * u) by (unfold q; lra). assert (Q2 : - (p / 2 + 2 * (p * u) + / 2000 * u) <= q) by (unfold q; lra).
  assert (q * e2 <= (3 * u) * u). { apply Rle_trans with (Rabs (q * e2)). apply Rle_abs. rewrite Rabs_mult. apply Rmult_le_compat; auto using Rabs_pos; apply Rabs_le; lra. }
  lra.
Qed.
(** The exit test: the iterate is close to the root. *)
Lemma newton_exit u p E e1 d : 0 < u <= / 16777216 -> 0 < E -> Rabs e1 <= p -> 0 <= p <= 3 * u -> Rabs d <= / 1000 * u -> Rabs (E - ((1 + e1) / E + d)) <= / 1000 * u * (1 + E) ->
  Rabs (E - 1) <= p + / 100 * u.
Proof.
  intros U E0 H1 P Hd HX. apply Rabs_le_inv in H1, Hd. set (h := E - ((1 + e1) / E + d)) in * .
  assert (Q : (E - 1) * (E + 1) = e1 + (d + h) * E) by (unfold h; field; lra).
  assert (HB : Rabs (d + h) <= / 500 * u + / 1000 * u * E). { eapply Rle_trans. apply Rabs_triang. apply Rle_trans with (/ 1000 * u + / 1000 * u * (1 + E)). apply Rplus_le_compat; auto. apply Rabs_le; lra. lra. } apply Rabs_le_inv in HB.
  assert (uu : 0 <= u * u <= / 16777216 * u) by (split; [apply Rmult_le_pos; lra|apply Rmult_le_compat_r; lra]).
  apply Rabs_le. split.
  - destruct (Rle_or_lt 1 E). lra. assert (0 <= E * E <= E) by (split; [apply Rle_0_sqr|rewrite <- (Rmult_1_r E) at 3; apply Rmult_le_compat_l; lra]).
    assert (u * (E * E) <= u * E) by (apply Rmult_le_compat_l; lra). assert (- (/ 500 * u + / 1000 * u * E) * E <= (d + h) * E) by (apply Rmult_le_compat_r; lra). assert (u * E <= u * 1) by (apply Rmult_le_compat_l; lra).
    assert (B : - (p + / 100 * u) <= (E - 1) * (E + 1)) by lra. apply Rle_trans with (1 := B). assert ((1 - E) * 1 <= (1 - E) * (E + 1)) by (apply Rmult_le_compat_l; lra). lra.
  - apply Rmult_le_reg_r with (E + 1). lra. rewrite Q. destruct (Rle_or_lt E 1). { assert ((d + h) * E <= (/ 500 * u + / 1000 * u * E) * E) by (apply Rmult_le_compat_r; lra). assert (u * E * E <= u * E * 1) by (apply Rmult_le_compat_l; auto; apply Rmult_le_pos; lra). assert (0 <= p * E) by (apply Rmult_le_pos; lra). assert (u * E <= u * 1) by (apply Rmult_le_compat_l; lra). assert (0 < u * E) by (apply Rmult_lt_0_compat; lra). lra. }
    assert (E2 : E <= 2). { destruct (Rle_or_lt E 2); auto. exfalso. assert ((d + h) * E <= (/ 500 * u + / 1000 * u * E) * E) by (apply Rmult_le_compat_r; lra). assert (u * E <= / 16777216 * E) by (apply Rmult_le_compat_r; lra). assert (u * (E * E) <= / 16777216 * (E * E)) by (apply Rmult_le_compat_r; [apply Rle_0_sqr|lra]). assert (E * E = (E - 1) * (E + 1) + 1) by ring. assert (2 * E <= E * E) by (apply Rmult_le_compat_r; lra). lra. }
    assert ((d + h) * E <= (/ 250 * u) * E). { apply Rmult_le_compat_r. lra. assert (u * E <= u * 2) by (apply Rmult_le_compat_l; lra). lra. } assert (0 <= p * E) by (apply Rmult_le_pos; lra). assert (0 < u * E) by (apply Rmult_lt_0_compat; lra). lra.
Qed.

(** ** Convergence: [LB j] bounds the relative error with [j] steps to go. *)
Definition LB (K : R) (j : nat) : R :=
  match j with
  | O => K
  | S O => bpow radix2 (-34) + K
  | S (S O) => bpow radix2 (-17) + K
  | S (S (S O)) => bpow radix2 (-9) + K
  | S (S (S (S O))) => 9 / 256 + K
  | S (S (S (S (S i)))) => / 4 * (199 / 100) ^ i + K
  end.
Lemma LB_ge K j : 0 <= K -> K <= LB K j.
Proof. intros. do 5 (destruct j as [|j]; [cbn; lra|]). cbn [LB]. assert (0 < (199 / 100) ^ j) by (apply pow_lt; lra). lra. Qed.
Lemma LB_step u p K D j : bpow radix2 (-64) <= u <= / 16777216 -> 0 <= p -> p / 2 + 11 / 10 * u <= K -> K <= 3 * u -> - K <= D <= LB K (S j) ->
  (1 + u) * (D * D / (2 * (1 + D))) + (p / 2 + 101 / 100 * u) <= LB K j.
Proof.
  intros U P HK K3 HD. assert (b64 := bpow_gt_0 radix2 (-64)). assert (u0 : 0 < u) by lra.
  assert (D1 : 0 < 1 + D) by lra. assert (G0 : D * D / (2 * (1 + D)) <= D * D * (51 / 100)).
  { unfold Rdiv. apply Rmult_le_compat_l. apply Rle_0_sqr. apply Rmult_le_reg_r with (2 * (1 + D)). lra. rewrite Rinv_l by lra. lra. }
  assert (uu : u * u <= / 16777216 * u) by (apply Rmult_le_compat_r; lra).
  assert (N : forall a, 0 <= a -> D <= a -> 3 * u <= a + K -> True) by auto.
  assert (GA : forall b, 0 <= b <= / 4 -> D <= b + K -> (1 + u) * (D * D / (2 * (1 + D))) <= 52 / 100 * (b * b) + / 50 * u + 2 * (b * u) * 52 / 100 * 3).
  { intros b Hb Hd. assert (HDb : Rabs D <= b + 3 * u) by (apply Rabs_le; lra). assert (DD : D * D <= (b + 3 * u) * (b + 3 * u)). { rewrite <- (Rabs_pos_eq (D * D)) by apply Rle_0_sqr. rewrite Rabs_mult. apply Rmult_le_compat; auto using Rabs_pos. }
    assert (DD0 : 0 <= D * D) by apply Rle_0_sqr. apply Rle_trans with ((1 + u) * (D * D * (51 / 100))). apply Rmult_le_compat_l; lra. apply Rle_trans with (52 / 100 * (D * D)). { assert (u * (D * D) <= / 16777216 * (D * D)) by (apply Rmult_le_compat_r; lra). lra. }
    replace ((b + 3 * u) * (b + 3 * u)) with (b * b + 6 * (b * u) + 9 * (u * u)) in DD by ring. lra. }
  clear N.
  destruct j as [|[|[|[|j]]]]; cbn [LB] in HD |- * .
  - assert (b0 := bpow_gt_0 radix2 (-34)). assert (b1 : bpow radix2 (-34) <= / 16777216) by (cbn; lra). assert (b2 : bpow radix2 (-34) * bpow radix2 (-34) = / 16 * bpow radix2 (-64)) by (change (/ 16) with (bpow radix2 (-4)); rewrite <- !bpow_plus; reflexivity). assert (bpow radix2 (-34) * u <= / 16777216 * u) by (apply Rmult_le_compat_r; lra). specialize (GA (bpow radix2 (-34)) ltac:(lra) ltac:(lra)). lra.
  - assert (b0 := bpow_gt_0 radix2 (-17)). assert (b1 : bpow radix2 (-17) <= / 1000) by (cbn; lra). assert (b2 : bpow radix2 (-17) * bpow radix2 (-17) = bpow radix2 (-34)) by (rewrite <- !bpow_plus; reflexivity). assert (bpow radix2 (-17) * u <= / 1000 * u) by (apply Rmult_le_compat_r; lra). assert (b3 := bpow_gt_0 radix2 (-34)). specialize (GA (bpow radix2 (-17)) ltac:(lra) ltac:(lra)). lra.
  - change (bpow radix2 (-9)) with (/ 512) in * . assert (b1 : bpow radix2 (-17) = / 131072) by (cbn; lra). assert (/ 512 * u <= / 512 * / 16777216) by (apply Rmult_le_compat_l; lra). specialize (GA (/ 512) ltac:(lra) ltac:(lra)). lra.
  - change (bpow radix2 (-9)) with (/ 512) in * . assert (9 / 256 * u <= 9 / 256 * / 16777216) by (apply Rmult_le_compat_l; lra). specialize (GA (9 / 256) ltac:(lra) ltac:(lra)). lra.
  - destruct j as [|j].
    + cbn [pow] in HD. specialize (GA (/ 4) ltac:(lra) ltac:(lra)). lra.
    + rewrite <- tech_pow_Rmult in HD. set (t := (199 / 100) ^ j) in * . assert (t1 : 1 <= t) by (unfold t; apply pow_R1_Rle; lra).
      destruct (Rle_or_lt D 0) as [DN|DP].
      { assert (DD : D * D <= 3 * u * (3 * u)). { replace (D * D) with ((- D) * (- D)) by ring. apply Rmult_le_compat; lra. } assert (0 <= D * D) by apply Rle_0_sqr.
        assert (X : (1 + u) * (D * D / (2 * (1 + D))) <= 2 * (D * D * (51 / 100))). { apply Rmult_le_compat; try lra. apply Rmult_le_pos. lra. left. apply Rinv_0_lt_compat; lra. } cbn [LB]. lra. }
      assert (X : D * D / (2 * (1 + D)) <= D / 2). { apply Rmult_le_reg_r with (2 * (1 + D)). lra. replace (D * D / (2 * (1 + D)) * (2 * (1 + D))) with (D * D) by (field; lra). replace (D / 2 * (2 * (1 + D))) with (D + D * D) by field. lra. }
      apply Rle_trans with ((1 + u) * (D / 2) + (p / 2 + 101 / 100 * u)). { apply Rplus_le_compat_r. apply Rmult_le_compat_l; lra. }
      assert ((1 + u) * (D / 2) <= (1 + / 16777216) * (D / 2)) by (apply Rmult_le_compat_r; lra). lra.
Qed.

(** ** The floating-point step *)
Lemma wide_fin f z : Rabs z <= bpow radix2 120 -> Rabs (rnd f z) < bpow radix2 (emax f).
Proof. intros H. apply rnd_lt_emax_bpow with 120%Z; auto. split. unfold emin; destruct f; discriminate. destruct f; reflexivity. Qed.
Lemma u_rng f : 0 < uf f <= / 16777216 /\ bpow radix2 (-64) <= uf f.
Proof. split. split. apply uf_pos. apply Rle_trans with (1 := uf_le f). cbn; lra. unfold uf. apply bpow_le. destruct f; discriminate. Qed.
Lemma half_mul {f} (y : flt f) : finite y = true -> bpow radix2 (3 - emax f) <= Rabs (B2R y) -> finite (half f *. y) = true /\ B2R (half f *. y) = B2R y / 2.
Proof.
  intros Fy Y. destruct (half_spec f) as (Vh & Fh).
  assert (G : generic_format radix2 (fexpf f) (B2R y / 2)).
  { replace (B2R y / 2) with (B2R y * bpow radix2 (-1)) by (cbn; lra). apply (mult_bpow_exact_FLT radix2 (emin f) (prec f)). apply (fmt_format y).
    assert (4 - emax f <= mag radix2 (B2R y))%Z by (apply mag_ge_bpow; replace (4 - emax f - 1)%Z with (3 - emax f)%Z by ring; exact Y). unfold emin. lia. }
  destruct (fmul_spec (half f) y Fh Fy) as (V & F). rewrite Vh. replace (/ 2 * B2R y) with (B2R y / 2) by (unfold Rdiv; ring). rewrite rnd_id by exact G. eapply Rle_lt_trans; [|apply (B2R_lt_emax y)]. unfold Rdiv. rewrite Rabs_mult, (Rabs_pos_eq (/ 2)) by lra. assert (0 <= Rabs (B2R y)) by apply Rabs_pos. lra.
  rewrite V, Vh. replace (/ 2 * B2R y) with (B2R y / 2) by (unfold Rdiv; ring). rewrite rnd_id by exact G. auto.
Qed.
Lemma step_float {f} (xn q : flt f) : finite xn = true -> finite q = true -> bpow radix2 (4 - emax f) <= B2R xn + B2R q <= bpow radix2 120 ->
  finite (half f *. (xn +. q)) = true /\ exists e2, Rabs e2 <= uf f /\ B2R (half f *. (xn +. q)) = (B2R xn + B2R q) / 2 * (1 + e2).
Proof.
  intros Fn Fq H. assert (b0 := bpow_gt_0 radix2 (4 - emax f)). assert (b1 : bpow radix2 (3 - emax f) <= bpow radix2 (4 - emax f)) by (apply bpow_le; lia). assert (b2 : bpow radix2 (2 - emax f) <= bpow radix2 (4 - emax f)) by (apply bpow_le; lia).
  destruct (fadd_spec xn q Fn Fq) as (V & F). apply wide_fin. rewrite Rabs_pos_eq; lra.
  destruct (rnd_rel f (B2R xn + B2R q)) as (e & He & E). rewrite Rabs_pos_eq; lra.
  destruct (half_mul (xn +. q) F) as (Fh & Vh). { rewrite V, rnd_abs. apply rnd_ge_fmt. apply fmt_bpow. unfold emin; destruct f; cbn; lia. rewrite Rabs_pos_eq; lra. }
  split; auto. exists e. split; auto. rewrite Vh, V, E. field.
Qed.
Lemma exit_float {f} (xn q : flt f) : finite xn = true -> finite q = true -> 0 < B2R xn <= bpow radix2 119 -> Rabs (B2R xn - B2R q) <= bpow radix2 120 ->
  (ModelBasic.abs (xn -. q) /. (ofZ f 1 +. xn) <. fmin f) = true -> Rabs (B2R xn - B2R q) <= 3 * bpow radix2 (2 - emax f) * (1 + B2R xn).
Proof.
  intros Fn Fq X Q C. destruct (ofZ_small f 1 ltac:(lia)) as (V1 & F1 & _). change (IZR 1) with 1 in V1. destruct (u_rng f) as (U & _). destruct (fmin_spec f) as (Vm & Fm).
  assert (m0 := bpow_gt_0 radix2 (2 - emax f)). assert (m1 : bpow radix2 (2 - emax f) <= / 1000) by (apply Rle_trans with (bpow radix2 (-10)); [apply bpow_le; destruct f; discriminate|cbn; lra]).
  assert (b1 : 1 + bpow radix2 119 <= bpow radix2 120) by (cbn; lra).
  destruct (fsub_spec xn q Fn Fq (wide_fin f _ Q)) as (Vs & Fs).
  destruct (fadd_spec (ofZ f 1) xn F1 Fn) as (Va & Fa). { apply wide_fin. rewrite V1, Rabs_pos_eq; lra. } rewrite V1 in Va.
  destruct (rnd_rel f (1 + B2R xn)) as (e & He & E). rewrite Rabs_pos_eq; lra. change (bpow radix2 (- prec f)) with (uf f) in He. apply Rabs_le_inv in He.
  set (a := ofZ f 1 +. xn) in * . assert (A1 : 1 <= B2R a). { rewrite Va. apply rnd_ge_fmt. change 1 with (bpow radix2 0). apply fmt_bpow. unfold emin; destruct f; cbn; lia. lra. }
  assert (A2 : B2R a <= (1 + B2R xn) * (1 + uf f)). { rewrite Va, E. apply Rmult_le_compat_l; lra. }
  set (n := xn -. q) in * . assert (N0 : 0 <= Rabs (B2R n)) by apply Rabs_pos. assert (N1 : Rabs (B2R n) / B2R a <= Rabs (B2R n)). { apply Rmult_le_reg_r with (B2R a). lra. unfold Rdiv. rewrite Rmult_assoc, Rinv_l, Rmult_1_r by lra. rewrite <- (Rmult_1_r (Rabs (B2R n))) at 1. apply Rmult_le_compat_l; lra. }
  assert (P : 0 <= Rabs (B2R n) / B2R a). { apply Rmult_le_pos; auto. left. apply Rinv_0_lt_compat. lra. }
  assert (Fan : finite (ModelBasic.abs n) = true) by (rewrite abs_finite; auto).
  destruct (fdiv_spec (ModelBasic.abs n) a Fan) as (Vd & Fd). lra. { rewrite abs_B2R. apply Rle_lt_trans with (2 := B2R_lt_emax n). rewrite rnd_abs, (Rabs_pos_eq _ P). apply Rle_trans with (rnd f (Rabs (B2R n))). apply rnd_le; auto. rewrite <- rnd_abs, rnd_B2R. lra. }
  apply flt_true_inv in C; auto. rewrite Vd, Vm, abs_B2R in C.
  assert (L : Rabs (B2R n) / B2R a < bpow radix2 (2 - emax f)). { apply Rnot_le_lt. intros Hn. apply (rnd_ge_fmt f) in Hn. lra. rewrite <- Vm. apply fmt_format. }
  assert (L2 : Rabs (B2R n) < bpow radix2 (2 - emax f) * B2R a). { apply Rmult_lt_reg_r with (/ B2R a). apply Rinv_0_lt_compat; lra. rewrite Rmult_assoc, Rinv_r, Rmult_1_r by lra. exact L. }
  assert (L3 : Rabs (B2R n) < bpow radix2 (2 - emax f) * (2 * (1 + B2R xn))). { apply Rlt_le_trans with (1 := L2). apply Rmult_le_compat_l. lra. apply Rle_trans with (1 := A2). rewrite Rmult_comm. apply Rmult_le_compat_r; lra. }
  destruct (Rle_or_lt (bpow radix2 (2 - emax f)) (Rabs (B2R xn - B2R q))) as [G|G].
  - destruct (rnd_rel f (B2R xn - B2R q) G) as (e' & He' & E'). rewrite Vs, E', Rabs_mult in L3. change (bpow radix2 (- prec f)) with (uf f) in He'. apply Rabs_le_inv in He'. rewrite (Rabs_pos_eq (1 + e')) in L3 by lra.
    assert (Rabs (B2R xn - B2R q) * (9 / 10) <= Rabs (B2R xn - B2R q) * (1 + e')) by (apply Rmult_le_compat_l; lra). set (t := bpow radix2 (2 - emax f) * (1 + B2R xn)) in * . assert (0 < t) by (apply Rmult_lt_0_compat; lra). assert (bpow radix2 (2 - emax f) * (2 * (1 + B2R xn)) = 2 * t) by (unfold t; ring). replace (3 * bpow radix2 (2 - emax f) * (1 + B2R xn)) with (3 * t) by (unfold t; ring). lra.
  - assert (bpow radix2 (2 - emax f) * 1 <= bpow radix2 (2 - emax f) * (1 + B2R xn)) by (apply Rmult_le_compat_l; lra). lra.
Qed.

(** ** sqrt on [2^-170, 4] *)
Section S.
Variables (f : fmt) (x : flt f).
Hypotheses (Fx : finite x = true) (X0 : bpow radix2 (2 - emax f) <= B2R x) (X1 : bpow radix2 (-170) <= B2R x) (X4 : B2R x <= 4).
Notation s := (sqrt (B2R x)).
Notation u := (uf f).
Notation m := (bpow radix2 (2 - emax f)).
Lemma s_rng : 0 < s <= 2 /\ bpow radix2 (-85) <= s /\ m <= / 1000000 * (u * s) /\ s * s = B2R x.
Proof.
  assert (m0 := bpow_gt_0 radix2 (2 - emax f)). assert (x0 : 0 < B2R x) by lra. assert (s0 : 0 < s) by (apply sqrt_lt_R0; lra). assert (ss : s * s = B2R x) by (apply sqrt_sqrt; lra).
  split. { split; auto. apply Rsqr_incr_0_var; [|lra]. unfold Rsqr. lra. }
  split. { apply Rsqr_incr_0_var; [|lra]. unfold Rsqr. rewrite ss, <- bpow_plus. exact X1. }
  split; auto. destruct (u_rng f) as (U & _).
  assert (SM : bpow radix2 (1 - emax f / 2) <= s). { apply Rsqr_incr_0_var; [|lra]. unfold Rsqr. rewrite ss, <- bpow_plus. apply Rle_trans with (2 := X0). apply bpow_le. destruct f; discriminate. }
  apply Rle_trans with (bpow radix2 (-20) * (u * s)). 2: { apply Rmult_le_compat_r. apply Rmult_le_pos; lra. cbn; lra. }
  apply Rle_trans with (bpow radix2 (-20) * (u * bpow radix2 (1 - emax f / 2))). unfold uf. rewrite <- !bpow_plus. apply bpow_le. destruct f; discriminate.
  apply Rmult_le_compat_l. apply bpow_ge_0. apply Rmult_le_compat_l; lra.
Qed.
Lemma quot_ok (xn : flt f) : finite xn = true -> 0 < B2R xn -> B2R x / B2R xn <= bpow radix2 119 -> finite (x /. xn) = true /\
  exists e1 d, Rabs e1 <= u /\ Rabs d <= / 1000 * u /\ B2R (x /. xn) = s * ((1 + e1) / (B2R xn / s) + d).
Proof.
  intros Fn N0 H. destruct s_rng as (S1 & S2 & S3 & S4). destruct (u_rng f) as (U & _). assert (m0 := bpow_gt_0 radix2 (2 - emax f)).
  assert (Q0 : 0 < B2R x / B2R xn). { apply Rmult_lt_0_compat. lra. apply Rinv_0_lt_compat. auto. }
  destruct (fdiv_spec x xn Fx) as (V & F). lra. { apply wide_fin. rewrite Rabs_pos_eq by lra. apply Rle_trans with (1 := H). apply bpow_le. lia. }
  split; auto. destruct (rnd_err f (B2R x / B2R xn)) as (e & d & He & Hd & _ & E). exists e, (d / s). split; auto. split.
  - unfold Rdiv. rewrite Rabs_mult, (Rabs_pos_eq (/ s)) by (left; apply Rinv_0_lt_compat; lra). apply Rmult_le_reg_r with s. lra. rewrite Rmult_assoc, Rinv_l, Rmult_1_r by lra.
    apply Rle_trans with (1 := Hd). replace (emin f - 1)%Z with ((2 - emax f) + - prec f)%Z by (unfold emin; ring). rewrite bpow_plus. change (bpow radix2 (- prec f)) with u. apply Rle_trans with (m * 1). apply Rmult_le_compat_l; lra. assert (0 < u * s) by (apply Rmult_lt_0_compat; lra). lra.
  - rewrite V, E. replace (B2R x) with (s * s) at 1. field. lra.
Qed.
Lemma quot_ok4 (xn : flt f) : finite xn = true -> 9 / 10 * s <= B2R xn -> finite (x /. xn) = true /\ 0 <= B2R (x /. xn) <= 4 /\
  exists e1 d, Rabs e1 <= u /\ Rabs d <= / 1000 * u /\ B2R (x /. xn) = s * ((1 + e1) / (B2R xn / s) + d).
Proof.
  intros Fn H. destruct s_rng as (S1 & S2 & S3 & S4). assert (N1 : 0 < B2R xn) by lra. assert (m0 := bpow_gt_0 radix2 (2 - emax f)).
  assert (Q1 : B2R x / B2R xn <= 3). { apply Rmult_le_reg_r with (B2R xn); auto. unfold Rdiv. rewrite Rmult_assoc, Rinv_l, Rmult_1_r by lra. apply Rle_trans with (2 * s). rewrite <- S4 at 1. apply Rmult_le_compat_r; lra. lra. }
  assert (Q0 : 0 < B2R x / B2R xn) by (apply Rmult_lt_0_compat; [lra|apply Rinv_0_lt_compat; auto]). assert (B3 : 3 <= bpow radix2 119) by (cbn; lra). assert (B4 : 3 <= bpow radix2 120) by (cbn; lra).
  destruct (quot_ok xn Fn N1) as (Fq & R). lra. split; auto. split; auto.
  rewrite (proj1 (fdiv_spec x xn Fx ltac:(lra) (wide_fin f (B2R x / B2R xn) ltac:(rewrite Rabs_pos_eq; lra)))). split. apply rnd_ge_0; lra. apply rnd_le_fmt. change 4 with (bpow radix2 2). apply fmt_bpow; unfold emin; destruct f; cbn; lia. lra.
Qed.
Lemma recur_acc j : forall xn : flt f, finite xn = true -> B2R xn <= 8 -> 1 - 17 / 10 * u <= B2R xn / s -> B2R xn / s - 1 <= LB (17 / 10 * u) j -> (j <= 100)%nat ->
  exists w, sqrt_recur (S j) x xn (100 - Z.of_nat j) = Ok w /\ finite w = true /\ Rabs (B2R w - s) <= 17 / 10 * u * s.
Proof.
  destruct s_rng as (S1 & S2 & S3 & S4). destruct (u_rng f) as (U & U64). assert (m0 := bpow_gt_0 radix2 (2 - emax f)).
  assert (FIN : forall w : flt f, Rabs (B2R w / s - 1) <= 17 / 10 * u -> Rabs (B2R w - s) <= 17 / 10 * u * s).
  { intros w H. replace (B2R w - s) with ((B2R w / s - 1) * s) by (field; lra). rewrite Rabs_mult, (Rabs_pos_eq s) by lra. apply Rmult_le_compat_r; lra. }
  induction j as [|j IH]; intros xn Fn N8 NL NU J; set (E := B2R xn / s) in *;
  (assert (N0 : B2R xn = E * s) by (unfold E; field; lra));
  (assert (N9 : 9 / 10 * s <= B2R xn) by (rewrite N0; apply Rmult_le_compat_r; lra));
  destruct (quot_ok4 xn Fn N9) as (Fq & QB & e1 & d & He1 & Hd & Vq); fold E in Vq;
  (assert (N1 : 0 < B2R xn) by lra);
  (assert (QV : B2R (x /. xn) / s = (1 + e1) / E + d) by (rewrite Vq; field; split; lra)).
  - cbn [sqrt_recur]. exists xn. split. destruct (_ <. _); reflexivity. split; auto. apply FIN. cbn [LB] in NU. apply Rabs_le. fold E. lra.
  - remember (S j) as n eqn:En. cbn [sqrt_recur]. destruct (_ <. fmin f) eqn:C.
    + exists xn. split; auto. split; auto. apply FIN. fold E. apply exit_float in C; auto. 2: split; [auto|apply Rle_trans with (1 := N8); cbn; lra]. 2: apply Rle_trans with 16; [apply Rabs_le; lra|cbn; lra].
      eapply Rle_trans. apply (newton_exit u u E e1 d); auto; try lra. 2: lra.
      rewrite <- QV. unfold E. replace (B2R xn / s - B2R (x /. xn) / s) with ((B2R xn - B2R (x /. xn)) * / s) by (field; lra). rewrite Rabs_mult, (Rabs_pos_eq (/ s)) by (left; apply Rinv_0_lt_compat; lra).
      apply Rmult_le_reg_r with s. lra. rewrite Rmult_assoc, Rinv_l, Rmult_1_r by lra. apply Rle_trans with (1 := C). replace (/ 1000 * u * (1 + B2R xn / s) * s) with (/ 1000 * (u * s) + / 1000 * (u * B2R xn)) by (field; lra).
      assert (m * B2R xn <= m * 8) by (apply Rmult_le_compat_l; lra). assert (0 < u * B2R xn) by (apply Rmult_lt_0_compat; lra). assert (0 < u * s) by (apply Rmult_lt_0_compat; lra). lra.
    + replace (100 - Z.of_nat n <? GCEM_SQRT_MAX_ITER)%Z with true by (symmetry; apply Z.ltb_lt; change GCEM_SQRT_MAX_ITER with 100%Z; lia).
      replace (100 - Z.of_nat n + 1)%Z with (100 - Z.of_nat j)%Z by lia. subst n.
      destruct (step_float xn (x /. xn) Fn Fq) as (F' & e2 & He2 & V'). { split. apply Rle_trans with (4 * m). replace (4 * m) with (bpow radix2 2 * m) by reflexivity. rewrite <- bpow_plus. apply bpow_le; lia. apply Rle_trans with (B2R xn); [|lra]. rewrite N0. apply Rle_trans with (9 / 10 * s). assert (u * s <= / 16777216 * s) by (apply Rmult_le_compat_r; lra). lra. apply Rmult_le_compat_r; lra. apply Rle_trans with 16. lra. cbn; lra. }
      assert (VE : B2R (half f *. (xn +. x /. xn)) / s = (E + ((1 + e1) / E + d)) / 2 * (1 + e2)). { rewrite V', <- QV. unfold E. field. lra. }
      apply IH; auto; try lia.
      * rewrite V'. apply Rabs_le_inv in He2. apply Rle_trans with ((8 + 4) / 2 * (1 + / 16777216)). apply Rmult_le_compat; lra. lra.
      * rewrite VE. assert (E0 : 0 < E) by lra. assert (H := newton_lower u u E e1 d e2 U E0 He1 ltac:(lra) Hd He2). lra.
      * rewrite VE. assert (H := newton_upper u u E e1 d e2 U ltac:(lra) He1 ltac:(lra) Hd He2). apply Rle_trans with (1 := H).
        replace E with (1 + (E - 1)) at 3 by ring. apply (LB_step u u (17 / 10 * u) (E - 1) j); lra.
Qed.
Lemma start_rng : finite (x /. ofZ f 2) = true /\ / 4 * B2R x <= B2R (x /. ofZ f 2) <= B2R x.
Proof.
  destruct (u_rng f) as (U & _). destruct (ofZ_small f 2 ltac:(lia)) as (V2 & F2 & _). change (IZR 2) with 2 in V2. assert (m0 := bpow_gt_0 radix2 (2 - emax f)).
  destruct (fdiv_spec x (ofZ f 2) Fx) as (V & F). rewrite V2; lra. { apply wide_fin. rewrite V2, Rabs_pos_eq by lra. apply Rle_trans with 2. lra. cbn; lra. } rewrite V2 in V.
  split; auto. destruct (rnd_err f (B2R x / 2)) as (e & d & He & Hd & _ & E). rewrite V, E. change (bpow radix2 (- prec f)) with u in He. apply Rabs_le_inv in He.
  replace (emin f - 1)%Z with ((2 - emax f) + - prec f)%Z in Hd by (unfold emin; ring). rewrite bpow_plus in Hd. change (bpow radix2 (- prec f)) with u in Hd. assert (m * u <= B2R x * / 16777216) by (apply Rmult_le_compat; lra). apply Rabs_le_inv in Hd.
  assert (B2R x / 2 * (1 + - / 16777216) <= B2R x / 2 * (1 + e) <= B2R x / 2 * (1 + / 16777216)) by (split; apply Rmult_le_compat_l; lra). lra.
Qed.
Lemma iter_acc : exists w, sqrt_recur sqrt_iter_fuel x (x /. ofZ f 2) 0 = Ok w /\ finite w = true /\ Rabs (B2R w - s) <= 17 / 10 * u * s.
Proof.
  destruct s_rng as (S1 & S2 & S3 & S4). destruct (u_rng f) as (U & U64). assert (m0 := bpow_gt_0 radix2 (2 - emax f)). destruct start_rng as (Fn & N). set (xn := x /. ofZ f 2) in * .
  assert (En : exists n, n = 100%nat /\ sqrt_iter_fuel = S n) by (exists 100%nat; split; reflexivity). destruct En as (n & En & ->). cbn [sqrt_recur]. set (E := B2R xn / s).
  assert (N1 : 0 < B2R xn) by lra. assert (E0 : 0 < E) by (apply Rmult_lt_0_compat; [lra|apply Rinv_0_lt_compat; lra]).
  assert (Q1 : B2R x / B2R xn <= 4). { apply Rmult_le_reg_r with (B2R xn); auto. unfold Rdiv. rewrite Rmult_assoc, Rinv_l, Rmult_1_r by lra. lra. }
  assert (Q0 : 0 < B2R x / B2R xn) by (apply Rmult_lt_0_compat; [lra|apply Rinv_0_lt_compat; auto]). assert (B3 : 4 <= bpow radix2 119) by (cbn; lra). assert (B4 : 16 <= bpow radix2 120) by (cbn; lra).
  destruct (quot_ok xn Fn N1 ltac:(lra)) as (Fq & e1 & d & He1 & Hd & Vq). fold E in Vq.
  assert (QB : 0 <= B2R (x /. xn) <= 4).
  { rewrite (proj1 (fdiv_spec x xn Fx ltac:(lra) (wide_fin f (B2R x / B2R xn) ltac:(rewrite Rabs_pos_eq; lra)))). split. apply rnd_ge_0; lra. apply rnd_le_fmt. change 4 with (bpow radix2 2). apply fmt_bpow; unfold emin; destruct f; cbn; lia. lra. }
  assert (QV : B2R (x /. xn) / s = (1 + e1) / E + d) by (rewrite Vq; field; split; lra).
  destruct (_ <. fmin f) eqn:C.
  - exists xn. split; auto. split; auto. apply exit_float in C; auto. 2: lra. 2: apply Rabs_le; lra.
    replace (B2R xn - s) with ((E - 1) * s) by (unfold E; field; lra). rewrite Rabs_mult, (Rabs_pos_eq s) by lra. apply Rmult_le_compat_r. lra.
    eapply Rle_trans. apply (newton_exit u u E e1 d); auto; try lra. 2: lra.
    rewrite <- QV. unfold E. replace (B2R xn / s - B2R (x /. xn) / s) with ((B2R xn - B2R (x /. xn)) * / s) by (field; lra). rewrite Rabs_mult, (Rabs_pos_eq (/ s)) by (left; apply Rinv_0_lt_compat; lra).
    apply Rmult_le_reg_r with s. lra. rewrite Rmult_assoc, Rinv_l, Rmult_1_r by lra. apply Rle_trans with (1 := C). replace (/ 1000 * u * (1 + B2R xn / s) * s) with (/ 1000 * (u * s) + / 1000 * (u * B2R xn)) by (field; lra).
    assert (m * B2R xn <= m * 8) by (apply Rmult_le_compat_l; lra). assert (0 < u * B2R xn) by (apply Rmult_lt_0_compat; lra). assert (0 < u * s) by (apply Rmult_lt_0_compat; lra). lra.
  - change (0 <? GCEM_SQRT_MAX_ITER)%Z with true. cbv iota. replace (0 + 1)%Z with (100 - Z.of_nat 99)%Z by reflexivity. assert (En2 : n = S 99) by exact En. clear En. rewrite En2.
    assert (QL : 2 * / 10 <= B2R (x /. xn)). { rewrite (proj1 (fdiv_spec x xn Fx ltac:(lra) (wide_fin f (B2R x / B2R xn) ltac:(rewrite Rabs_pos_eq; lra)))). apply Rle_trans with (bpow radix2 (-2)). cbn; lra. apply rnd_ge_fmt. apply fmt_bpow; unfold emin; destruct f; cbn; lia. apply Rmult_le_reg_r with (B2R xn); auto. unfold Rdiv. rewrite Rmult_assoc, Rinv_l, Rmult_1_r by lra. cbn. lra. }
    destruct (step_float xn (x /. xn) Fn Fq) as (F' & e2 & He2 & V'). { split. apply Rle_trans with (bpow radix2 (-4)). apply bpow_le. destruct f; discriminate. cbn; lra. lra. }
    assert (VE : B2R (half f *. (xn +. x /. xn)) / s = (E + ((1 + e1) / E + d)) / 2 * (1 + e2)). { rewrite V', <- QV. unfold E. field. lra. }
    apply (recur_acc 99); auto; try lia.
    + rewrite V'. apply Rabs_le_inv in He2. apply Rle_trans with ((4 + 4) / 2 * (1 + / 16777216)). apply Rmult_le_compat; lra. lra.
    + rewrite VE. assert (H := newton_lower u u E e1 d e2 U E0 He1 ltac:(lra) Hd He2). lra.
    + replace (LB (17 / 10 * u) 99) with (/ 4 * (199 / 100) ^ 94 + 17 / 10 * u) by reflexivity. assert (P : bpow radix2 90 <= / 4 * (199 / 100) ^ 94) by (cbn [bpow Z.pow_pos Pos.iter radix2 radix_val]; interval).
      apply Rle_trans with (5 * / bpow radix2 (-85)). 2: { apply Rle_trans with (bpow radix2 90); [|lra]. rewrite <- bpow_opp. change (- (-85))%Z with 85%Z. cbn; lra. }
      apply Rle_trans with (5 * / s). 2: { apply Rmult_le_compat_l. lra. apply Rinv_le; auto. apply bpow_gt_0. } apply Rle_trans with (B2R (half f *. (xn +. x /. xn)) / s). lra. apply Rmult_le_compat_r. left. apply Rinv_0_lt_compat; lra. rewrite V'. apply Rabs_le_inv in He2. apply Rle_trans with ((4 + 4) / 2 * (1 + / 16777216)). apply Rmult_le_compat; lra. lra.
Qed.
End S.
