(** * Accuracy of sin and cos *)
From Verif Require Import Base ModelBasic ModelInt ModelElem ModelApi FltLemmas Spec IntProofs BasicProofs ConvLemmas CxxProofs TotalProofs ExpAcc MiscProofs.
From Coq Require Import Lra Psatz.
From Flocq Require Import Mult_error.
From Coquelicot Require Import Coquelicot.
From Verif Require Import PF FPErr CFBound CFTrunc TanAcc.
From Interval Require Import Tactic.
Open Scope R_scope.

(** ** Operations on moderate numbers *)
Lemma big_fin f z : Rabs z <= 18446744073709551616 -> Rabs (rnd f z) < bpow radix2 (emax f).
Proof. intros H. apply rnd_lt_emax_bpow with 64%Z. split. unfold emin; destruct f; discriminate. destruct f; reflexivity. exact H. Qed.
Lemma op_add {f} (x y : flt f) : finite x = true -> finite y = true -> Rabs (B2R x + B2R y) <= 18446744073709551616 -> finite (x +. y) = true /\ B2R (x +. y) = rnd f (B2R x + B2R y).
Proof. intros Fx Fy H. destruct (fadd_spec x y Fx Fy (big_fin f _ H)) as (V & F). auto. Qed.
Lemma op_sub {f} (x y : flt f) : finite x = true -> finite y = true -> Rabs (B2R x - B2R y) <= 18446744073709551616 -> finite (x -. y) = true /\ B2R (x -. y) = rnd f (B2R x - B2R y).
Proof. intros Fx Fy H. destruct (fsub_spec x y Fx Fy (big_fin f _ H)) as (V & F). auto. Qed.
Lemma op_mul {f} (x y : flt f) : finite x = true -> finite y = true -> Rabs (B2R x * B2R y) <= 18446744073709551616 -> finite (x *. y) = true /\ B2R (x *. y) = rnd f (B2R x * B2R y).
Proof. intros Fx Fy H. destruct (fmul_spec x y Fx Fy (big_fin f _ H)) as (V & F). auto. Qed.
Lemma op_div {f} (x y : flt f) : finite x = true -> B2R y <> 0 -> Rabs (B2R x / B2R y) <= 18446744073709551616 -> finite (x /. y) = true /\ B2R (x /. y) = rnd f (B2R x / B2R y).
Proof. intros Fx Fy H. destruct (fdiv_spec x y Fx Fy (big_fin f _ H)) as (V & F). auto. Qed.
(** Relative rounding error of normal numbers, absolute error of the others. *)
Lemma rnd_u f z : bpow radix2 (2 - emax f) <= Rabs z -> exists e, Rabs e <= uf f /\ rnd f z = z * (1 + e).
Proof. apply rnd_rel. Qed.
Lemma rnd_small f z : Rabs (rnd f z - z) <= uf f * Rabs z + uf f * bpow radix2 (-100).
Proof.
  eapply Rle_trans. apply rnd_fm. assert (u0 := uf_pos f). rewrite <- Rmult_plus_distr_l. apply Rmult_le_compat_l. lra. assert (0 <= Rabs z) by apply Rabs_pos. assert (b := bpow_ge_0 radix2 (-100)).
  apply Rmax_lub. lra. apply Rle_trans with (bpow radix2 (-100)). apply bpow_le. destruct f; discriminate. lra.
Qed.
Lemma half_exact {f} (x : flt f) : finite x = true -> bpow radix2 (3 - emax f) <= Rabs (B2R x) -> finite (x /. ofZ f 2) = true /\ B2R (x /. ofZ f 2) = B2R x / 2.
Proof.
  intros Fx X. destruct (ofZ_small f 2 ltac:(lia)) as (V2 & F2 & _). change (IZR 2) with 2 in V2.
  assert (G : generic_format radix2 (fexpf f) (B2R x / 2)).
  { replace (B2R x / 2) with (B2R x * bpow radix2 (-1)) by (cbn; lra). apply (mult_bpow_exact_FLT radix2 (emin f) (prec f)). apply (fmt_format x).
    assert (4 - emax f <= mag radix2 (B2R x))%Z by (apply mag_ge_bpow; replace (4 - emax f - 1)%Z with (3 - emax f)%Z by ring; exact X). unfold emin. lia. }
  destruct (fdiv_spec x (ofZ f 2) Fx) as (V & F). rewrite V2; lra. rewrite V2, rnd_id by exact G. eapply Rle_lt_trans; [|apply (B2R_lt_emax x)]. unfold Rdiv. rewrite Rabs_mult, (Rabs_pos_eq (/ 2)) by lra. assert (0 <= Rabs (B2R x)) by apply Rabs_pos. lra.
  rewrite V, V2, rnd_id by exact G. auto.
Qed.

(** ** The half-angle formulas *)
Lemma quot5 u e1 e2 e3 : 0 < u <= / 16777216 -> Rabs e1 <= u -> Rabs e2 <= 5 / 2 * u -> Rabs e3 <= u -> exists e, (1 + e1) / (1 + e2) * (1 + e3) = 1 + e /\ Rabs e <= 5 * u.
Proof.
  intros U H1 H2 H3. apply Rabs_le_inv in H1, H2, H3. exists ((1 + e1) / (1 + e2) * (1 + e3) - 1). split. ring.
  replace ((1 + e1) / (1 + e2) * (1 + e3) - 1) with ((e1 + e3 + e1 * e3 - e2) / (1 + e2)) by (field; lra).
  unfold Rdiv. rewrite Rabs_mult, (Rabs_pos_eq (/ _)) by (left; apply Rinv_0_lt_compat; lra). apply Rmult_le_reg_r with (1 + e2). lra. rewrite Rmult_assoc, Rinv_l, Rmult_1_r by lra.
  assert (Rabs (e1 * e3) <= u * / 16777216). { rewrite Rabs_mult. apply Rmult_le_compat; auto using Rabs_pos; apply Rabs_le; lra. } apply Rabs_le_inv in H.
  assert (5 * u * (1 + - (5 / 2 * / 16777216)) <= 5 * u * (1 + e2)) by (apply Rmult_le_compat_l; lra). apply Rabs_le. lra.
Qed.
(** 1 + t^2 *)
Lemma den_acc {f} (t : flt f) : finite t = true -> Rabs (B2R t) <= 1000 -> let d := ofZ f 1 +. t *. t in
  finite d = true /\ exists e, B2R d = (1 + B2R t * B2R t) * (1 + e) /\ Rabs e <= 5 / 2 * uf f.
Proof.
  intros Ft T. cbv zeta. assert (u0 := uf_pos f). assert (u1 := uf_le f). change (bpow radix2 (-24)) with (/ 16777216) in u1.
  set (r := B2R t) in * . assert (q0 : 0 <= r * r) by nra. assert (q1 : r * r <= 1000000). { replace (r * r) with (Rabs r * Rabs r) by (rewrite <- Rabs_mult, Rabs_pos_eq; lra). assert (0 <= Rabs r) by apply Rabs_pos. nra. }
  destruct (op_mul t t Ft Ft) as (Fm & Vm). { fold r. rewrite Rabs_pos_eq; lra. } fold r in Vm.
  assert (Er := rnd_small f (r * r)). rewrite <- Vm in Er. rewrite (Rabs_pos_eq (r * r)) in Er by auto. set (q := B2R (t *. t)) in * . set (b := bpow radix2 (-100)) in * . assert (b0 : 0 < b) by apply bpow_gt_0. assert (b1 : b <= / 1000000) by (unfold b; cbn; lra).
  assert (Er2 : Rabs (q - r * r) <= / 16777216 * (r * r + b)). { eapply Rle_trans. exact Er. rewrite <- Rmult_plus_distr_l. apply Rmult_le_compat_r; lra. }
  destruct (ofZ_small f 1 ltac:(lia)) as (V1 & F1 & _). apply Rabs_le_inv in Er2.
  destruct (op_add (ofZ f 1) (t *. t) F1 Fm) as (Fd & Vd). { rewrite V1. fold q. rewrite Rabs_pos_eq; lra. } split; auto. rewrite V1 in Vd. fold q in Vd.
  destruct (rnd_u f (1 + q)) as (e & He & Ve). { rewrite Rabs_pos_eq by lra. apply Rle_trans with (bpow radix2 (-60)). apply bpow_le. destruct f; discriminate. cbn. lra. }
  rewrite Vd, Ve. set (d := 1 + r * r). assert (d1 : 1 <= d) by (unfold d; lra). exists ((1 + q) * (1 + e) / d - 1). split. field; lra.
  replace ((1 + q) * (1 + e) / d - 1) with (((q - r * r) * (1 + e) + d * e) / d) by (unfold d; field; fold d; lra).
  unfold Rdiv. rewrite Rabs_mult, (Rabs_pos_eq (/ _)) by (left; apply Rinv_0_lt_compat; lra). apply Rmult_le_reg_r with d. lra. rewrite Rmult_assoc, Rinv_l, Rmult_1_r by lra.
  eapply Rle_trans. apply Rabs_triang. rewrite !Rabs_mult, (Rabs_pos_eq d) by lra.
  assert (Rabs (1 + e) <= 1 + / 16777216) by (apply Rabs_le_inv in He; apply Rabs_le; lra).
  assert (Rabs (q - r * r) * Rabs (1 + e) <= (uf f * (r * r) + uf f * b) * (1 + / 16777216)) by (apply Rmult_le_compat; auto using Rabs_pos).
  assert (d * Rabs e <= d * uf f) by (apply Rmult_le_compat_l; lra).
  assert (uf f * (r * r) <= uf f * d) by (apply Rmult_le_compat_l; unfold d; lra). assert (uf f * b <= uf f * / 1000000) by (apply Rmult_le_compat_l; lra). assert (uf f * 1 <= uf f * d) by (apply Rmult_le_compat_l; lra). lra.
Qed.
Lemma half_tan_sin r : cos (r / 2) <> 0 -> sin r = 2 * tan (r / 2) / (1 + tan (r / 2) * tan (r / 2)).
Proof.
  intros H. replace r with (2 * (r / 2)) at 1 by field. rewrite sin_2a. unfold tan. set (s := sin (r / 2)) in * . set (c := cos (r / 2)) in * .
  assert (E : s * s + c * c = 1) by (assert (Q := sin2_cos2 (r / 2)); unfold Rsqr in Q; exact Q). replace (2 * (s / c) / (1 + s / c * (s / c))) with (2 * s * c / (s * s + c * c)). rewrite E; field. field. split; auto. lra.
Qed.
Lemma half_tan_cos r : cos (r / 2) <> 0 -> cos r = (1 - tan (r / 2) * tan (r / 2)) / (1 + tan (r / 2) * tan (r / 2)).
Proof.
  intros H. replace r with (2 * (r / 2)) at 1 by field. rewrite cos_2a. unfold tan. set (s := sin (r / 2)) in * . set (c := cos (r / 2)) in * .
  assert (E : s * s + c * c = 1) by (assert (Q := sin2_cos2 (r / 2)); unfold Rsqr in Q; exact Q). replace ((1 - s / c * (s / c)) / (1 + s / c * (s / c))) with ((c * c - s * s) / (s * s + c * c)). rewrite E; field. field. split; auto. lra.
Qed.
(** Effect of a relative error p in t = tan (x/2). *)
Lemma sin_prop T t p : 0 <= p <= / 10000 -> Rabs (t - T) <= p * Rabs T -> Rabs (2 * t / (1 + t * t) - 2 * T / (1 + T * T)) <= 101 / 100 * p * Rabs (2 * T / (1 + T * T)).
Proof.
  intros P H. assert (0 < 1 + t * t) by nra. assert (0 < 1 + T * T) by nra.
  replace (2 * t / (1 + t * t) - 2 * T / (1 + T * T)) with ((t - T) * (2 * (1 - t * T) / ((1 + t * t) * (1 + T * T)))) by (field; lra).
  unfold Rdiv. rewrite !Rabs_mult, !Rabs_inv, Rabs_mult, (Rabs_pos_eq (1 + t * t)), (Rabs_pos_eq (1 + T * T)), (Rabs_pos_eq 2) by nra.
  assert (A : Rabs (1 - t * T) <= 101 / 100 * (1 + t * t)).
  { assert (B : Rabs (t * t - t * T) <= / 10000 * Rabs T * Rabs t). { replace (t * t - t * T) with ((t - T) * t) by ring. rewrite Rabs_mult. apply Rmult_le_compat_r. apply Rabs_pos. eapply Rle_trans. exact H. apply Rmult_le_compat_r. apply Rabs_pos. lra. }
    assert (C : Rabs T <= 10001 / 10000 * Rabs T) by (assert (Q := Rabs_pos T); lra).
    assert (D : Rabs T <= 2 * Rabs t). { assert (Q := Rabs_triang_inv T t). rewrite Rabs_minus_sym in Q. assert (p * Rabs T <= / 10000 * Rabs T) by (apply Rmult_le_compat_r; [apply Rabs_pos|lra]). assert (Q2 := Rabs_pos T). lra. }
    assert (E : Rabs t * Rabs t = t * t) by (rewrite <- Rabs_mult, Rabs_pos_eq; nra). assert (Q := Rabs_pos t).
    assert (Rabs T * Rabs t <= 2 * (t * t)) by (rewrite <- E; nra). apply Rabs_le_inv in B. apply Rabs_le. assert (0 <= t * t) by nra. split; nra. }
  set (x := Rabs (t - T)) in * . set (a := Rabs (1 - t * T)) in * . set (i := / (1 + t * t)). set (j := / (1 + T * T)).
  assert (i0 : 0 < i) by (apply Rinv_0_lt_compat; auto). assert (j0 : 0 < j) by (apply Rinv_0_lt_compat; auto).
  assert (AI : a * i <= 101 / 100). { apply Rmult_le_reg_r with (1 + t * t); auto. unfold i. rewrite Rmult_assoc, Rinv_l, Rmult_1_r by lra. exact A. }
  replace (x * (2 * a * / ((1 + t * t) * (1 + T * T)))) with (2 * j * (x * (a * i))) by (unfold i, j; field; lra).
  replace (101 * / 100 * p * (2 * Rabs T * j)) with (2 * j * (p * Rabs T * (101 / 100))) by field. apply Rmult_le_compat_l. lra. apply Rmult_le_compat; auto. apply Rabs_pos. apply Rmult_le_pos. apply Rabs_pos. lra.
Qed.
Lemma cos_prop T t p : 0 <= p <= / 10000 -> Rabs (t - T) <= p * Rabs T -> Rabs ((1 - t * t) / (1 + t * t) - (1 - T * T) / (1 + T * T)) <= 101 / 100 * p.
Proof.
  intros P H. assert (0 < 1 + t * t) by nra. assert (0 < 1 + T * T) by nra.
  replace ((1 - t * t) / (1 + t * t) - (1 - T * T) / (1 + T * T)) with (2 * ((T - t) * (T + t)) / ((1 + t * t) * (1 + T * T))) by (field; lra).
  unfold Rdiv. rewrite Rabs_mult, Rabs_inv, !Rabs_mult, (Rabs_pos_eq (1 + t * t)), (Rabs_pos_eq (1 + T * T)), (Rabs_pos_eq 2) by nra.
  apply Rmult_le_reg_r with ((1 + t * t) * (1 + T * T)). nra. rewrite Rmult_assoc, Rinv_l, Rmult_1_r by nra.
  rewrite <- Rabs_Ropp in H. replace (- (t - T)) with (T - t) in H by ring. assert (Q := Rabs_pos T). set (a := Rabs T) in * . assert (E : a * a = T * T) by (unfold a; rewrite <- Rabs_mult, Rabs_pos_eq; nra).
  assert (HT : p * a <= / 10000 * a) by (apply Rmult_le_compat_r; lra).
  assert (S : Rabs (T + t) <= 20001 / 10000 * a). { replace (T + t) with (2 * T - (T - t)) by ring. eapply Rle_trans. apply Rabs_triang. rewrite Rabs_Ropp, Rabs_mult, (Rabs_pos_eq 2) by lra. fold a. lra. }
  assert (L : (1 - / 10000) * a <= Rabs t). { assert (Z := Rabs_triang_inv T (T - t)). replace (T - (T - t)) with t in Z by ring. fold a in Z. lra. }
  assert (E2 : Rabs t * Rabs t = t * t) by (rewrite <- Rabs_mult, Rabs_pos_eq; nra).
  assert (t2 : (9998 / 10000) * (a * a) <= t * t) by (rewrite <- E2; nra).
  assert (Rabs (T - t) * Rabs (T + t) <= p * a * (20001 / 10000 * a)) by (apply Rmult_le_compat; auto using Rabs_pos).
  assert (2 * (p * a * (20001 / 10000 * a)) <= 101 / 100 * p * ((1 + t * t) * (1 + T * T))); [|match goal with A : ?l <= ?m, B : 2 * ?m <= ?r |- _ => apply Rle_trans with (2 * m); [apply Rmult_le_compat_l; [lra|exact A]|exact B] end].
  replace (2 * (p * a * (20001 / 10000 * a))) with (p * (40002 / 10000 * (a * a))) by field. rewrite (Rmult_comm (101 / 100)), Rmult_assoc. apply Rmult_le_compat_l. lra.
  rewrite <- E. set (b := a * a) in * . assert (0 <= b) by (unfold b; nra). assert ((1 + 9998 / 10000 * b) * (1 + b) <= (1 + t * t) * (1 + b)) by (apply Rmult_le_compat_r; lra). assert (0 <= (b - 1) * (b - 1)) by (apply Rle_0_sqr). assert (0 <= b * b) by nra. apply Rle_trans with (101 / 100 * ((1 + 9998 / 10000 * b) * (1 + b))). lra. apply Rmult_le_compat_l; lra.
Qed.
Lemma sin_compute_acc {f} (t : flt f) : finite t = true -> 9 / 10 * bpow radix2 (2 - emax f) <= Rabs (B2R t) <= 1000 ->
  finite (sin_compute t) = true /\ exists e, B2R (sin_compute t) = 2 * B2R t / (1 + B2R t * B2R t) * (1 + e) /\ Rabs e <= 5 * uf f.
Proof.
  intros Ft (T0 & T1). assert (u0 := uf_pos f). assert (u1 := uf_le f). change (bpow radix2 (-24)) with (/ 16777216) in u1.
  destruct (den_acc t Ft T1) as (Fd & e2 & Vd & E2). unfold sin_compute. set (d := ofZ f 1 +. t *. t) in * . set (r := B2R t) in * . set (fm := bpow radix2 (2 - emax f)) in * . assert (fm0 : 0 < fm) by apply bpow_gt_0.
  assert (fm1 : fm <= / 1000000000000). { apply Rle_trans with (bpow radix2 (-60)). apply bpow_le. destruct f; discriminate. cbn. lra. }
  destruct (ofZ_small f 2 ltac:(lia)) as (V2 & F2 & _). destruct (op_mul (ofZ f 2) t F2 Ft) as (Fm & Vm). { rewrite V2. fold r. rewrite Rabs_mult, Rabs_pos_eq by lra. lra. } rewrite V2 in Vm. fold r in Vm.
  destruct (rnd_u f (2 * r)) as (e1 & E1 & Ve1). { rewrite Rabs_mult, Rabs_pos_eq by lra. fold fm. lra. } rewrite Ve1 in Vm.
  set (D := 1 + r * r) in * . assert (rr : Rabs r * Rabs r = r * r) by (rewrite <- Rabs_mult, Rabs_pos_eq; nra). assert (D1 : 1 <= D <= 1000001) by (unfold D; rewrite <- rr; assert (0 <= Rabs r) by apply Rabs_pos; nra).
  assert (E1' := E1). assert (E2' := E2). apply Rabs_le_inv in E1', E2'. assert (d0 : 0 < B2R d) by (rewrite Vd; apply Rmult_lt_0_compat; lra).
  assert (Q : B2R (ofZ f 2 *. t) / B2R d = 2 * r / D * ((1 + e1) / (1 + e2))) by (rewrite Vm, Vd; field; lra).
  assert (A : / 2 * (Rabs r * 2 * / D) <= Rabs (2 * r / D * ((1 + e1) / (1 + e2))) <= 2 * (Rabs r * 2 * / D)).
  { unfold Rdiv. rewrite !Rabs_mult, !Rabs_inv, (Rabs_pos_eq 2), (Rabs_pos_eq D), (Rabs_pos_eq (1 + e1)), (Rabs_pos_eq (1 + e2)) by lra.
    set (y := Rabs r * 2 * / D). replace (2 * Rabs r * / D * ((1 + e1) * / (1 + e2))) with (y * ((1 + e1) * / (1 + e2))) by (unfold y; ring).
    assert (0 <= y) by (unfold y; assert (0 < / D) by (apply Rinv_0_lt_compat; lra); assert (0 <= Rabs r) by apply Rabs_pos; nra).
    assert (/ 2 <= (1 + e1) * / (1 + e2) <= 2). { split; apply Rmult_le_reg_r with (1 + e2); try lra; rewrite Rmult_assoc, Rinv_l, Rmult_1_r by lra; lra. } split; nra. }
  assert (I : 0 < / D <= 1). { split. apply Rinv_0_lt_compat; lra. rewrite <- Rinv_1. apply Rinv_le; lra. }
  destruct (op_div (ofZ f 2 *. t) d Fm) as (Fq & Vq). lra. { rewrite Q. assert (Rabs r * 2 * / D <= 1000 * 2 * 1) by (apply Rmult_le_compat; try lra; assert (0 <= Rabs r) by apply Rabs_pos; lra). lra. }
  split; auto. rewrite Vq, Q.
  destruct (rnd_u f (2 * r / D * ((1 + e1) / (1 + e2)))) as (e3 & E3 & Ve3).
  { fold fm. destruct (Rle_or_lt (Rabs r) (/ 2)) as [L|L].
    - assert (D <= 5 / 4) by (unfold D; rewrite <- rr; assert (0 <= Rabs r) by apply Rabs_pos; nra). assert (/ (5 / 4) <= / D) by (apply Rinv_le; lra).
      unfold Rdiv. rewrite !Rabs_mult, !Rabs_inv, (Rabs_pos_eq 2), (Rabs_pos_eq D), (Rabs_pos_eq (1 + e1)), (Rabs_pos_eq (1 + e2)) by lra.
      assert (99 / 100 <= (1 + e1) * / (1 + e2)). { apply Rmult_le_reg_r with (1 + e2); try lra; rewrite Rmult_assoc, Rinv_l, Rmult_1_r by lra; lra. }
      assert (2 * (9 / 10 * fm) * / (5 / 4) <= 2 * Rabs r * / D) by (apply Rmult_le_compat; lra).
      assert (2 * (9 / 10 * fm) * / (5 / 4) * (99 / 100) <= 2 * Rabs r * / D * ((1 + e1) * / (1 + e2))) by (apply Rmult_le_compat; lra). lra.
    - assert (/ 1000001 <= / D) by (apply Rinv_le; lra). assert (/ 2 * 2 * / 1000001 <= Rabs r * 2 * / D) by (apply Rmult_le_compat; lra). lra. }
  destruct (quot5 (uf f) e1 e2 e3 ltac:(lra) E1 E2 E3) as (e & Ee & Be). exists e. split; auto. rewrite Ve3. rewrite <- Ee. ring.
Qed.
Lemma cos_compute_acc {f} (t : flt f) : finite t = true -> Rabs (B2R t) <= 1000 ->
  finite (cos_compute t) = true /\ Rabs (B2R (cos_compute t) - (1 - B2R t * B2R t) / (1 + B2R t * B2R t)) <= 6 * uf f.
Proof.
  intros Ft T1. assert (u0 := uf_pos f). assert (u1 := uf_le f). change (bpow radix2 (-24)) with (/ 16777216) in u1.
  destruct (den_acc t Ft T1) as (Fd & e2 & Vd & E2). unfold cos_compute. set (d := ofZ f 1 +. t *. t) in * . set (r := B2R t) in * .
  assert (rr : Rabs r * Rabs r = r * r) by (rewrite <- Rabs_mult, Rabs_pos_eq; nra). set (s := r * r) in * . assert (s0 : 0 <= s <= 1000000) by (rewrite <- rr; assert (0 <= Rabs r) by apply Rabs_pos; nra).
  destruct (op_mul t t Ft Ft) as (Fm & Vm). { fold r. fold s. rewrite Rabs_pos_eq; lra. } fold r in Vm. fold s in Vm.
  assert (Er := rnd_small f s). rewrite <- Vm, (Rabs_pos_eq s) in Er by lra. set (q := B2R (t *. t)) in * . set (b := bpow radix2 (-100)) in * . assert (b0 : 0 < b) by apply bpow_gt_0. assert (b1 : b <= / 1000000) by (unfold b; cbn; lra).
  assert (ub : 0 < uf f * b <= uf f * / 1000000) by (split; [apply Rmult_lt_0_compat; lra|apply Rmult_le_compat_l; lra]). assert (us : 0 <= uf f * s <= / 16777216 * s) by (split; [apply Rmult_le_pos; lra|apply Rmult_le_compat_r; lra]).
  destruct (ofZ_small f 1 ltac:(lia)) as (V1 & F1 & _). assert (Er2 := Er). apply Rabs_le_inv in Er2.
  destruct (op_sub (ofZ f 1) (t *. t) F1 Fm) as (Fn & Vn). { rewrite V1. fold q. apply Rabs_le. lra. } rewrite V1 in Vn. fold q in Vn.
  assert (En := rnd_small f (1 - q)). rewrite <- Vn in En. fold b in En. set (n := B2R (ofZ f 1 -. t *. t)) in * .
  set (D := 1 + s) in * . assert (D1 : 1 <= D) by (unfold D; lra). assert (E2' := E2). apply Rabs_le_inv in E2'. assert (d0 : 0 < B2R d) by (rewrite Vd; apply Rmult_lt_0_compat; lra).
  assert (Nn : Rabs (n - (1 - s)) <= 21 / 10 * uf f * D).
  { replace (n - (1 - s)) with ((n - (1 - q)) - (q - s)) by ring. eapply Rle_trans. apply Rabs_triang. rewrite Rabs_Ropp.
    unfold D.
    assert (Rabs (1 - q) <= 1 + s + (/ 16777216 * s + / 1000000 * / 16777216)). { apply Rabs_le. assert (uf f * b <= / 16777216 * / 1000000) by (apply Rmult_le_compat; lra). lra. }
    assert (uf f * Rabs (1 - q) <= uf f * (1 + s + (/ 16777216 * s + / 1000000 * / 16777216))) by (apply Rmult_le_compat_l; lra). lra. }
  assert (Q : B2R (ofZ f 1 -. t *. t) / B2R d - (1 - s) / D = ((n - (1 - s)) / D - (1 - s) / D * e2) / (1 + e2)) by (fold n; rewrite Vd; field; lra).
  assert (I : 0 < / D <= 1). { split. apply Rinv_0_lt_compat; lra. rewrite <- Rinv_1. apply Rinv_le; lra. }
  assert (C1 : Rabs ((1 - s) / D) <= 1). { unfold Rdiv. rewrite Rabs_mult, Rabs_inv, (Rabs_pos_eq D) by lra. apply Rmult_le_reg_r with D. lra. rewrite Rmult_assoc, Rinv_l, Rmult_1_r, Rmult_1_l by lra. unfold D. apply Rabs_le. lra. }
  assert (Qe : Rabs (B2R (ofZ f 1 -. t *. t) / B2R d - (1 - s) / D) <= 47 / 10 * uf f).
  { rewrite Q. unfold Rdiv at 1. rewrite Rabs_mult, Rabs_inv, (Rabs_pos_eq (1 + e2)) by lra. apply Rmult_le_reg_r with (1 + e2). lra. rewrite Rmult_assoc, Rinv_l, Rmult_1_r by lra.
    eapply Rle_trans. apply Rabs_triang. rewrite Rabs_Ropp, Rabs_mult.
    assert (Rabs ((n - (1 - s)) / D) <= 21 / 10 * uf f). { unfold Rdiv. rewrite Rabs_mult, Rabs_inv, (Rabs_pos_eq D) by lra. apply Rmult_le_reg_r with D. lra. rewrite Rmult_assoc, Rinv_l, Rmult_1_r by lra. exact Nn. }
    assert (Rabs ((1 - s) / D) * Rabs e2 <= 1 * (5 / 2 * uf f)) by (apply Rmult_le_compat; auto using Rabs_pos).
    assert (uf f * (- (5 / 2 * / 16777216)) <= uf f * e2) by (apply Rmult_le_compat_l; lra). lra. }
  assert (Qb : Rabs (B2R (ofZ f 1 -. t *. t) / B2R d) <= 1 + 47 / 10 * uf f). { replace (B2R (ofZ f 1 -. t *. t) / B2R d) with ((1 - s) / D + (B2R (ofZ f 1 -. t *. t) / B2R d - (1 - s) / D)) by ring. eapply Rle_trans. apply Rabs_triang. lra. }
  destruct (op_div (ofZ f 1 -. t *. t) d Fn) as (Fq & Vq). lra. lra. split; auto. rewrite Vq.
  assert (Ef := rnd_small f (B2R (ofZ f 1 -. t *. t) / B2R d)). set (z := B2R (ofZ f 1 -. t *. t) / B2R d) in * . fold b in Ef.
  replace (rnd f z - (1 - s) / D) with ((rnd f z - z) + (z - (1 - s) / D)) by ring. eapply Rle_trans. apply Rabs_triang.
  assert (uf f * Rabs z <= uf f * (1 + 47 / 10 * / 16777216)) by (apply Rmult_le_compat_l; lra). lra.
Qed.
(** ** The comparisons with multiples of pi/2 *)
Lemma near_true {f} (z : flt f) r : finite z = true -> B2R z = rnd f r -> (ModelBasic.abs z <. fmin f) = true -> Rabs r < bpow radix2 (2 - emax f).
Proof.
  intros F V C. destruct (fmin_spec f) as (Vm & Fm). apply flt_true_inv in C; auto. 2: rewrite abs_finite; auto. rewrite abs_B2R, Vm, V, rnd_abs in C.
  apply Rnot_le_lt. intros N. apply (rnd_ge_fmt f) in N. lra. rewrite <- Vm. apply fmt_format.
Qed.
Lemma near_false {f} (z : flt f) r : finite z = true -> B2R z = rnd f r -> bpow radix2 (2 - emax f) <= Rabs r -> (ModelBasic.abs z <. fmin f) = false.
Proof.
  intros F V N. destruct (fmin_spec f) as (Vm & Fm). apply flt_false; auto. rewrite abs_finite; auto. rewrite abs_B2R, Vm, V, rnd_abs.
  apply rnd_ge_fmt; auto. rewrite <- Vm. apply fmt_format.
Qed.
Lemma fm_small f : bpow radix2 (2 - emax f) <= uf f * / 1000000000000.
Proof.
  apply Rle_trans with (uf f * bpow radix2 (-60)). unfold uf. rewrite <- bpow_plus. apply bpow_le. destruct f; discriminate.
  apply Rmult_le_compat_l. left. apply uf_pos. cbn. lra.
Qed.
Definition hpi f : R := B2R (conv f GCEM_HALF_PI).
Lemma hpi_near f : Rabs (hpi f - PI / 2) <= uf f.
Proof. exact (proj2 (half_pi_val f)). Qed.
(** |x| <= 3: the four comparisons *)
Lemma trig_cmp {f} (x : flt f) : finite x = true -> Rabs (B2R x) <= 3 ->
  ((ModelBasic.abs (x -. conv f GCEM_HALF_PI) <. fmin f) = true -> Rabs (B2R x - PI / 2) <= 101 / 100 * uf f) /\
  ((ModelBasic.abs (x +. conv f GCEM_HALF_PI) <. fmin f) = true -> Rabs (B2R x + PI / 2) <= 101 / 100 * uf f) /\
  (ModelBasic.abs (x -. conv f GCEM_PI) <. fmin f) = false /\ (ModelBasic.abs (x +. conv f GCEM_PI) <. fmin f) = false.
Proof.
  intros Fx X. apply Rabs_le_inv in X. assert (u0 := uf_pos f). assert (u1 := uf_le f). change (bpow radix2 (-24)) with (/ 16777216) in u1. assert (fm := fm_small f). assert (fm0 := bpow_gt_0 radix2 (2 - emax f)).
  destruct (half_pi_val f) as (Fh & _). destruct (pi_val f) as (Fp & Vp). assert (H := hpi_near f). unfold hpi in H. apply Rabs_le_inv in H. unfold abs_err in Vp.
  replace (bpow radix2 (1 - prec f)) with (2 * uf f) in Vp by (unfold uf; replace (1 - prec f)%Z with (- prec f + 1)%Z by ring; rewrite bpow_plus_1; reflexivity). apply Rabs_le_inv in Vp.
  assert (P : 314 / 100 < PI < 3142 / 1000) by (split; interval).
  destruct (op_sub x (conv f GCEM_HALF_PI)) as (F1 & V1); auto. apply Rabs_le; lra.
  destruct (op_add x (conv f GCEM_HALF_PI)) as (F2 & V2); auto. apply Rabs_le; lra.
  destruct (op_sub x (conv f GCEM_PI)) as (F3 & V3); auto. apply Rabs_le; lra.
  destruct (op_add x (conv f GCEM_PI)) as (F4 & V4); auto. apply Rabs_le; lra.
  split; [|split; [|split]].
  - intros C. apply (near_true _ _ F1 V1) in C. apply Rabs_lt_inv in C. apply Rabs_le. lra.
  - intros C. apply (near_true _ _ F2 V2) in C. apply Rabs_lt_inv in C. apply Rabs_le. lra.
  - apply (near_false _ _ F3 V3). rewrite Rabs_left; lra.
  - apply (near_false _ _ F4 V4). rewrite Rabs_pos_eq; lra.
Qed.
Lemma sin_lip x y : Rabs (sin x - sin y) <= Rabs (x - y).
Proof.
  destruct (MVT_gen sin y x cos) as (c & _ & E). intros; apply is_derive_sin. intros; apply continuity_sin.
  rewrite E, Rabs_mult. assert (B := COS_bound c). assert (Rabs (cos c) <= 1) by (apply Rabs_le; lra). assert (0 <= Rabs (x - y)) by apply Rabs_pos. nra.
Qed.
Lemma cos_lip x y : Rabs (cos x - cos y) <= Rabs (x - y).
Proof.
  rewrite <- (sin_shift x), <- (sin_shift y).
  eapply Rle_trans. apply sin_lip. replace (PI / 2 - x - (PI / 2 - y)) with (- (x - y)) by ring. rewrite Rabs_Ropp. lra.
Qed.
(** the tangent of half the argument *)
Definition sin_c (r : R) : R := if Rle_dec (Rabs r) 2 then 10 else 42.
Lemma half_tan_acc {f} (x : flt f) : finite x = true -> bpow radix2 (3 - emax f) <= Rabs (B2R x) <= 3 ->
  exists t p, tan_check (x /. ofZ f 2) = Ok t /\ finite t = true /\ cos (B2R x / 2) <> 0 /\ Rabs (B2R t - tan (B2R x / 2)) <= p * Rabs (tan (B2R x / 2)) /\
    0 <= p <= / 10000 /\ 101 / 100 * p + 6 * uf f + / 1000 * uf f <= (sin_c (B2R x) + / 2) * uf f + bpow radix2 (-79) * (99 / 100) /\ 9 / 10 * bpow radix2 (2 - emax f) <= Rabs (B2R t) <= 1000.
Proof.
  intros Fx (X0 & X1). destruct (half_exact x Fx X0) as (Fy & Vy). assert (u0 := uf_pos f). assert (u1 := uf_le f). change (bpow radix2 (-24)) with (/ 16777216) in u1.
  assert (B3 : bpow radix2 (3 - emax f) = 2 * bpow radix2 (2 - emax f)) by (replace (3 - emax f)%Z with (2 - emax f + 1)%Z by ring; rewrite bpow_plus_1; reflexivity). rewrite B3 in X0. assert (fm0 := bpow_gt_0 radix2 (2 - emax f)).
  assert (A2 : Rabs (B2R x / 2) = Rabs (B2R x) / 2) by (unfold Rdiv; rewrite Rabs_mult, (Rabs_pos_eq (/ 2)); lra).
  destruct (tan_check_acc (x /. ofZ f 2) Fy) as (t & E & F & R). { rewrite Vy, A2. lra. } rewrite Vy in R. unfold rel_err in R.
  exists t, (tan_c (B2R x / 2) * uf f + bpow radix2 (-80)). split; auto. split; auto.
  assert (b80 : bpow radix2 (-79) = 2 * bpow radix2 (-80)) by (replace (-79)%Z with (-80 + 1)%Z by ring; rewrite bpow_plus_1; reflexivity). assert (b0 : 0 < bpow radix2 (-80) <= / 1000000) by (split; [apply bpow_gt_0|cbn; lra]).
  split. { apply Rabs_le_inv in X1. apply Rgt_not_eq, cos_gt_0. assert (3 < PI) by interval. lra. assert (3 < PI) by interval. lra. }
  split; auto. assert (P : 0 <= tan_c (B2R x / 2) * uf f + bpow radix2 (-80) <= / 10000) by (unfold tan_c; destruct (Rle_dec (Rabs (B2R x / 2)) 1); lra). split; auto.
  split. { unfold sin_c, tan_c. rewrite A2. destruct (Rle_dec (Rabs (B2R x) / 2) 1); destruct (Rle_dec (Rabs (B2R x)) 2); lra. }
  set (p := tan_c (B2R x / 2) * uf f + bpow radix2 (-80)) in * . 
  assert (T : Rabs (B2R x) / 2 <= Rabs (tan (B2R x / 2)) <= 20).
  { destruct (Rle_or_lt 0 (B2R x)) as [L|L].
    - rewrite (Rabs_pos_eq (B2R x)) in * by auto. assert (G := tan_ge (B2R x / 2) ltac:(lra)). rewrite Rabs_pos_eq by lra. split. lra. interval_intro (tan (3 / 2)) upper.
      apply Rle_trans with (tan (3 / 2)); [|lra]. destruct (Req_dec (B2R x / 2) (3 / 2)) as [->|N]. lra. left. apply tan_increasing; try lra. assert (3 < PI) by interval. lra. assert (3.1 < PI) by interval. lra.
    - rewrite (Rabs_left (B2R x)) in * by auto. replace (B2R x / 2) with (- (- B2R x / 2)) by field. rewrite tan_neg, Rabs_Ropp. assert (G := tan_ge (- B2R x / 2) ltac:(lra)). rewrite Rabs_pos_eq by lra. split. lra. interval_intro (tan (3 / 2)) upper.
      apply Rle_trans with (tan (3 / 2)); [|lra]. destruct (Req_dec (- B2R x / 2) (3 / 2)) as [->|N]. lra. left. apply tan_increasing; try lra. assert (3 < PI) by interval. lra. assert (3.1 < PI) by interval. lra. }
  set (T0 := tan (B2R x / 2)) in * . assert (I := Rabs_triang_inv (B2R t) T0). assert (I2 := Rabs_triang_inv T0 (B2R t)). rewrite (Rabs_minus_sym T0) in I2.
  assert (p * Rabs T0 <= / 10000 * Rabs T0) by (apply Rmult_le_compat_r; [apply Rabs_pos|lra]). lra.
Qed.
Lemma sin_pos3 r : 0 < r <= 3 -> 0 < sin r.
Proof. intros H. assert (3 < PI) by interval. apply sin_gt_0; lra. Qed.
Lemma sin_check_acc {f} (x : flt f) : finite x = true -> bpow radix2 (3 - emax f) <= Rabs (B2R x) <= 3 ->
  exists w, sin_check x = Ok w /\ finite w = true /\ rel_err (B2R w) (sin (B2R x)) (sin_c (B2R x) * uf f + bpow radix2 (-79)).
Proof.
  intros Fx X. assert (u0 := uf_pos f). assert (u1 := uf_le f). change (bpow radix2 (-24)) with (/ 16777216) in u1. destruct (trig_cmp x Fx (proj2 X)) as (C1 & C2 & C3 & C4).
  assert (b0 : 0 < bpow radix2 (-79) <= / 1000000) by (split; [apply bpow_gt_0|cbn; lra]). assert (sc : 10 <= sin_c (B2R x) <= 42) by (unfold sin_c; destruct Rle_dec; lra).
  assert (B3 : bpow radix2 (3 - emax f) = 2 * bpow radix2 (2 - emax f)) by (replace (3 - emax f)%Z with (2 - emax f + 1)%Z by ring; rewrite bpow_plus_1; reflexivity). assert (fm0 := bpow_gt_0 radix2 (2 - emax f)).
  destruct (ofZ_small f 1 ltac:(lia)) as (V1 & F1 & _). unfold sin_check. rewrite finite_not_nan by auto.
  rewrite (flt_false (ModelBasic.abs x) (fmin f)). 2: rewrite abs_finite; auto. 2: apply fmin_spec. 2: rewrite abs_B2R, (proj1 (fmin_spec f)); lra.
  assert (sp : 0 < sin_c (B2R x) * uf f) by (apply Rmult_lt_0_compat; lra). assert (sp2 : 10 * uf f <= sin_c (B2R x) * uf f) by (apply Rmult_le_compat_r; lra).
  destruct (ModelBasic.abs (x -. conv f GCEM_HALF_PI) <. fmin f) eqn:D1.
  { specialize (C1 eq_refl). exists (ofZ f 1). split; auto. split; auto. unfold rel_err. rewrite V1. assert (L := sin_lip (B2R x) (PI / 2)). rewrite sin_PI2 in L. rewrite Rabs_minus_sym.
    assert (L2 := L). apply Rabs_le_inv in L2. assert (9 / 10 <= sin (B2R x)) by lra. rewrite (Rabs_pos_eq (sin _)) by lra. nra. }
  destruct (ModelBasic.abs (x +. conv f GCEM_HALF_PI) <. fmin f) eqn:D2.
  { specialize (C2 eq_refl). exists (-. ofZ f 1). split; auto. rewrite fneg_finite. split; auto. unfold rel_err. rewrite fneg_B2R, V1. assert (L := sin_lip (B2R x) (- (PI / 2))). rewrite sin_neg, sin_PI2 in L. rewrite Rabs_minus_sym.
    replace (B2R x - - (PI / 2)) with (B2R x + PI / 2) in L by ring. assert (L2 := L). apply Rabs_le_inv in L2. assert (sin (B2R x) <= - (9 / 10)) by lra. rewrite (Rabs_left (sin _)) by lra. nra. }
  rewrite C3, C4. destruct (half_tan_acc x Fx X) as (t & p & E & F & Cz & R & P & Q & T). rewrite E.
  destruct (sin_compute_acc t F T) as (Fw & e & Vw & Ee). exists (sin_compute t). split; [reflexivity|]. split; auto. unfold rel_err.
  assert (S := sin_prop _ _ p P R). rewrite <- half_tan_sin in S by auto. rewrite Vw. set (s := sin (B2R x)) in * . set (z := 2 * B2R t / (1 + B2R t * B2R t)) in * .
  replace (z * (1 + e) - s) with ((z - s) * (1 + e) + s * e) by ring. eapply Rle_trans. apply Rabs_triang. rewrite !Rabs_mult. assert (Ee' := Ee). apply Rabs_le_inv in Ee'. rewrite (Rabs_pos_eq (1 + e)) by lra.
  assert (s0 := Rabs_pos s). apply Rle_trans with (101 / 100 * p * Rabs s * (1 + / 1000000) + Rabs s * (5 * uf f)).
  { apply Rplus_le_compat. apply Rmult_le_compat; try lra. apply Rabs_pos. apply Rmult_le_compat; auto using Rabs_pos; lra. }
  replace (101 / 100 * p * Rabs s * (1 + / 1000000) + Rabs s * (5 * uf f)) with ((101 / 100 * p * (1 + / 1000000) + 5 * uf f) * Rabs s) by ring. apply Rmult_le_compat_r; auto.
  assert (101 / 100 * p <= 43 * uf f + 2 * bpow radix2 (-79)). { assert ((sin_c (B2R x) + / 2) * uf f <= (42 + / 2) * uf f) by (apply Rmult_le_compat_r; lra). lra. } lra.
Qed.
Lemma cos_check_acc {f} (x : flt f) : finite x = true -> Rabs (B2R x) <= 3 ->
  exists w, cos_check x = Ok w /\ finite w = true /\ abs_err (B2R w) (cos (B2R x)) ((sin_c (B2R x) + 1) * uf f + bpow radix2 (-79)).
Proof.
  intros Fx X. assert (u0 := uf_pos f). assert (u1 := uf_le f). change (bpow radix2 (-24)) with (/ 16777216) in u1. destruct (trig_cmp x Fx X) as (C1 & C2 & C3 & C4).
  assert (b0 : 0 < bpow radix2 (-79) <= / 1000000) by (split; [apply bpow_gt_0|cbn; lra]). assert (sc : 10 <= sin_c (B2R x) <= 42) by (unfold sin_c; destruct Rle_dec; lra).
  assert (B3 : bpow radix2 (3 - emax f) = 2 * bpow radix2 (2 - emax f)) by (replace (3 - emax f)%Z with (2 - emax f + 1)%Z by ring; rewrite bpow_plus_1; reflexivity). assert (fm0 := bpow_gt_0 radix2 (2 - emax f)). assert (fms := fm_small f).
  destruct (ofZ_small f 1 ltac:(lia)) as (V1 & F1 & _). destruct (ofZ_small f 0 ltac:(lia)) as (V0 & F0 & _). destruct (ofZ_small f 2 ltac:(lia)) as (V2 & F2 & _). unfold cos_check. rewrite finite_not_nan by auto.
  assert (sp2 : 10 * uf f <= sin_c (B2R x) * uf f) by (apply Rmult_le_compat_r; lra). destruct (fmin_spec f) as (Vm & Fm).
  assert (SM : forall r, Rabs r <= 2 * bpow radix2 (2 - emax f) -> Rabs (1 - cos r) <= / 1000 * uf f).
  { intros r Hr. assert (L := cos_lip 0 r). rewrite cos_0 in L. replace (0 - r) with (- r) in L by ring. rewrite Rabs_Ropp in L. lra. }
  destruct (ModelBasic.abs x <. fmin f) eqn:D0.
  { apply flt_true_inv in D0; auto. 2: rewrite abs_finite; auto. rewrite abs_B2R, Vm in D0. exists (ofZ f 1). split; auto. split; auto. unfold abs_err. rewrite V1. specialize (SM (B2R x) ltac:(lra)). lra. }
  apply flt_false_inv in D0; auto. 2: rewrite abs_finite; auto. rewrite abs_B2R, Vm in D0.
  destruct (ModelBasic.abs (x -. conv f GCEM_HALF_PI) <. fmin f) eqn:D1.
  { specialize (C1 eq_refl). exists (ofZ f 0). split; auto. split; auto. unfold abs_err. rewrite V0. assert (L := cos_lip (B2R x) (PI / 2)). rewrite cos_PI2 in L. rewrite Rabs_minus_sym. lra. }
  destruct (ModelBasic.abs (x +. conv f GCEM_HALF_PI) <. fmin f) eqn:D2.
  { specialize (C2 eq_refl). exists (ofZ f 0). split; auto. split; auto. unfold abs_err. rewrite V0. assert (L := cos_lip (B2R x) (- (PI / 2))). rewrite cos_neg, cos_PI2 in L. rewrite Rabs_minus_sym.
    replace (B2R x - - (PI / 2)) with (B2R x + PI / 2) in L by ring. lra. }
  rewrite C3, C4. destruct (Rle_or_lt (bpow radix2 (3 - emax f)) (Rabs (B2R x))) as [L|L].
  - destruct (half_tan_acc x Fx ltac:(split; auto)) as (t & p & E & F & Cz & R & P & Q & T). rewrite E.
    destruct (cos_compute_acc t F (proj2 T)) as (Fw & Vw). exists (cos_compute t). split; [reflexivity|]. split; auto. unfold abs_err.
    assert (S := cos_prop _ _ p P R). rewrite <- half_tan_cos in S by auto. set (s := cos (B2R x)) in * . set (z := (1 - B2R t * B2R t) / (1 + B2R t * B2R t)) in * .
    replace (B2R (cos_compute t) - s) with ((B2R (cos_compute t) - z) + (z - s)) by ring. eapply Rle_trans. apply Rabs_triang. lra.
  - assert (A2 : Rabs (B2R x / 2) = Rabs (B2R x) / 2) by (unfold Rdiv; rewrite Rabs_mult, (Rabs_pos_eq (/ 2)); lra).
    destruct (op_div x (ofZ f 2) Fx) as (Fy & Vy). rewrite V2; lra. { rewrite V2, A2. lra. } rewrite V2 in Vy.
    assert (Y : Rabs (B2R (x /. ofZ f 2)) <= bpow radix2 (2 - emax f)). { rewrite Vy, rnd_abs, A2. apply rnd_le_fmt. rewrite <- Vm. apply fmt_format. lra. }
    assert (TT : exists t, tan_check (x /. ofZ f 2) = Ok t /\ finite t = true /\ Rabs (B2R t) <= 2000 * bpow radix2 (2 - emax f)).
    { destruct (Rlt_or_le (Rabs (B2R (x /. ofZ f 2))) (bpow radix2 (2 - emax f))) as [L2|L2].
      - exists (ofZ f 0). unfold tan_check. rewrite finite_not_nan by auto. rewrite (flt_true (ModelBasic.abs _) (fmin f)). 2: rewrite abs_finite; auto. 2: auto. 2: rewrite abs_B2R, Vm; auto. split; [reflexivity|]. split; auto. rewrite V0, Rabs_R0. lra.
      - destruct (tan_check_acc (x /. ofZ f 2) Fy) as (t & E & F & R). split; auto; lra. exists t. split; auto. split; auto. unfold rel_err in R. set (y := B2R (x /. ofZ f 2)) in * .
        assert (TL : Rabs (tan y) <= 1000 * Rabs y).
        { assert (Rabs y <= / 2) by lra. assert (G : forall z, 0 <= z <= / 2 -> 0 <= tan z <= 1000 * z).
          { intros z Hz. assert (tg := tan_ge z ltac:(lra)). split. lra. assert (tl := tan_lip 0 z ltac:(lra) ltac:(lra)). rewrite tan_0, !Rminus_0_r in tl. rewrite (Rabs_pos_eq (tan z)), (Rabs_pos_eq z) in tl; lra. }
          destruct (Rle_or_lt 0 y) as [L3|L3]. rewrite (Rabs_pos_eq y) in * by auto. destruct (G y ltac:(lra)). rewrite Rabs_pos_eq; lra.
          rewrite (Rabs_left y) in * by auto. destruct (G (- y) ltac:(lra)) as (G1 & G2). rewrite tan_neg in G1, G2. rewrite Rabs_left1; lra. }
        assert (I := Rabs_triang_inv (B2R t) (tan y)). assert (tan_c y * uf f + bpow radix2 (-80) <= / 2). { assert (bpow radix2 (-80) <= / 1000000) by (cbn; lra). unfold tan_c. destruct (Rle_dec (Rabs y) 1); lra. }
        assert (0 <= Rabs (tan y)) by apply Rabs_pos. nra. }
    destruct TT as (t & E & F & T). rewrite E. destruct (cos_compute_acc t F ltac:(lra)) as (Fw & Vw). exists (cos_compute t). split; [reflexivity|]. split; auto. unfold abs_err.
    specialize (SM (B2R x) ltac:(lra)). set (a := B2R t) in * . assert (Z : Rabs (1 - (1 - a * a) / (1 + a * a)) <= / 1000 * uf f).
    { assert (Rabs a * Rabs a = a * a) by (rewrite <- Rabs_mult, Rabs_pos_eq; nra). assert (0 <= Rabs a) by apply Rabs_pos. assert (0 <= a * a <= / 4000 * uf f) by nra.
      replace (1 - (1 - a * a) / (1 + a * a)) with (2 * (a * a) / (1 + a * a)) by (field; lra). rewrite Rabs_pos_eq. apply Rmult_le_reg_r with (1 + a * a). lra. unfold Rdiv. rewrite Rmult_assoc, Rinv_l, Rmult_1_r by lra. nra.
      apply Rmult_le_pos. lra. left. apply Rinv_0_lt_compat. lra. }
    set (z := (1 - a * a) / (1 + a * a)) in * . replace (B2R (cos_compute t) - cos (B2R x)) with ((B2R (cos_compute t) - z) + - (1 - z) + (1 - cos (B2R x))) by ring.
    eapply Rle_trans. apply Rabs_triang. eapply Rle_trans. apply Rplus_le_compat_r. apply Rabs_triang. rewrite Rabs_Ropp. lra.
Qed.
