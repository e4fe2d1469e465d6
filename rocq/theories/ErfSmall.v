(** * Accuracy of the continued fraction of erf for small arguments *)
From Verif Require Import Base FltLemmas ConvLemmas.
From Coq Require Import Lra Psatz PrimFloat.
From Coquelicot Require Import Coquelicot.
From Verif Require Import RangeProofs PF FPErr CFBound ErfReal ErfBound ErfRuns.
From Interval Require Import Tactic.
Open Scope R_scope.

Lemma n59 : (Z.of_nat 59 < 900)%Z.
Proof. reflexivity. Qed.
Ltac rng := cbn; lra.
(** Largest argument: 275300 / 2^17 = 2.10037... *)
Definition erf_top : R := 21003 / 10000.
Definition erf_cb (s : R) : R :=
  if Rle_dec s (/ 2) then 4 else if Rle_dec s 1 then 27 else if Rle_dec s (3 / 2) then 450 else 45300.
Lemma erf_cb_le s : 4 <= erf_cb s <= 45300.
Proof. unfold erf_cb. destruct Rle_dec. lra. destruct Rle_dec. lra. destruct Rle_dec; lra. Qed.
Lemma runs_real s : 0 <= s <= erf_top ->
  egood 59 1 s /\ 0 < et 59 1 s /\ Rabs (eres 59 1 s / (et 59 1 s * et 59 1 s)) <= bpow radix2 (-100).
Proof.
  intros H. unfold erf_top in H. rewrite <- R100_val.
  destruct (Rle_or_lt s (/ 2)). { apply (eall_real 59 8 0 129 4%float R100 ltac:(lia) n59 run1). rng. }
  destruct (Rle_or_lt s 1). { apply (eall_real 59 8 128 129 27%float R100 ltac:(lia) n59 run2). rng. }
  destruct (Rle_or_lt s (3/2)). { apply (eall_real 59 11 2047 1026 450%float R100 ltac:(lia) n59 run3). rng. }
  destruct (Rle_or_lt s (18/10)). { apply (eall_real 59 11 3071 (Z.to_nat 617) 45300%float R100 ltac:(lia) n59 run4). rewrite Z2Nat.id by lia. rng. }
  destruct (Rle_or_lt s (192/100)). { apply (eall_real 59 12 7372 (Z.to_nat 495) 45300%float R100 ltac:(lia) n59 run5). rewrite Z2Nat.id by lia. rng. }
  destruct (Rle_or_lt s (1985/1000)). { apply (eall_real 59 13 15720 (Z.to_nat 545) 45300%float R100 ltac:(lia) n59 run6). rewrite Z2Nat.id by lia. rng. }
  destruct (Rle_or_lt s (203/100)). { apply (eall_real 59 14 32505 (Z.to_nat 760) 45300%float R100 ltac:(lia) n59 run7). rewrite Z2Nat.id by lia. rng. }
  destruct (Rle_or_lt s (2065/1000)). { apply (eall_real 59 15 66486 (Z.to_nat 1185) 45300%float R100 ltac:(lia) n59 run8). rewrite Z2Nat.id by lia. rng. }
  destruct (Rle_or_lt s (209/100)). { apply (eall_real 59 16 135266 (Z.to_nat 1710) 45300%float R100 ltac:(lia) n59 run9). rewrite Z2Nat.id by lia. rng. }
  apply (eall_real 59 17 273809 (Z.to_nat 1490) 45300%float R100 ltac:(lia) n59 run10). rewrite Z2Nat.id by lia. rng.
Qed.
Lemma runs_flt {f} (xx : flt f) s : 0 <= s <= erf_top -> finite xx = true -> B2R xx = s * s ->
  finite (esf xx 59 1) = true /\ Rabs (B2R (esf xx 59 1) - et 59 1 s) <= erf_cb s * uf f * et 59 1 s.
Proof.
  intros H Fx Vx. assert (T0 := proj1 (proj2 (runs_real s H))). unfold erf_top in H. assert (u0 := uf_pos f). unfold erf_cb.
  destruct Rle_dec. { rewrite <- pf4. apply (eall_flt 59 8 0 129 4%float R100 ltac:(lia) n59 run1); auto. rng. }
  destruct Rle_dec. { rewrite <- pf27. apply (eall_flt 59 8 128 129 27%float R100 ltac:(lia) n59 run2); auto. rng. }
  destruct Rle_dec. { rewrite <- pf450. apply (eall_flt 59 11 2047 1026 450%float R100 ltac:(lia) n59 run3); auto. rng. }
  rewrite <- pf45300.
  destruct (Rle_or_lt s (18/10)). { apply (eall_flt 59 11 3071 (Z.to_nat 617) 45300%float R100 ltac:(lia) n59 run4); auto. rewrite Z2Nat.id by lia. rng. }
  destruct (Rle_or_lt s (192/100)). { apply (eall_flt 59 12 7372 (Z.to_nat 495) 45300%float R100 ltac:(lia) n59 run5); auto. rewrite Z2Nat.id by lia. rng. }
  destruct (Rle_or_lt s (1985/1000)). { apply (eall_flt 59 13 15720 (Z.to_nat 545) 45300%float R100 ltac:(lia) n59 run6); auto. rewrite Z2Nat.id by lia. rng. }
  destruct (Rle_or_lt s (203/100)). { apply (eall_flt 59 14 32505 (Z.to_nat 760) 45300%float R100 ltac:(lia) n59 run7); auto. rewrite Z2Nat.id by lia. rng. }
  destruct (Rle_or_lt s (2065/1000)). { apply (eall_flt 59 15 66486 (Z.to_nat 1185) 45300%float R100 ltac:(lia) n59 run8); auto. rewrite Z2Nat.id by lia. rng. }
  destruct (Rle_or_lt s (209/100)). { apply (eall_flt 59 16 135266 (Z.to_nat 1710) 45300%float R100 ltac:(lia) n59 run9); auto. rewrite Z2Nat.id by lia. rng. }
  apply (eall_flt 59 17 273809 (Z.to_nat 1490) 45300%float R100 ltac:(lia) n59 run10); auto. rewrite Z2Nat.id by lia. rng.
Qed.

(** ** The integral and its mean *)
Lemma gau_dec a b : 0 <= a <= b -> gau b <= gau a.
Proof. intros H. unfold gau. destruct (Req_dec a b) as [->|]. lra. left. apply exp_increasing. nra. Qed.
Lemma gint_mvt a b : 0 <= a <= b -> exists c, a <= c <= b /\ gint b - gint a = gau c * (b - a).
Proof.
  intros H. destruct (MVT_gen gint a b gau) as (c & Hc & E).
  - intros; apply gint_derive.
  - intros; apply continuity_pt_filterlim. apply (ex_derive_continuous gint). eexists. apply gint_derive.
  - rewrite Rmin_left, Rmax_right in Hc by lra. exists c. split; auto.
Qed.
Lemma gint_mean x : 0 <= x -> exists c, 0 <= c <= x /\ gint x = gau c * x.
Proof. intros H. destruct (gint_mvt 0 x ltac:(lra)) as (c & Hc & E). rewrite gint_0 in E. exists c. split; auto. lra. Qed.
Lemma gau_ge t : 1 - t * t <= gau t.
Proof. unfold gau. pose proof (exp_ineq1_le (- (t * t))). lra. Qed.
Definition phi (x : R) : R := gint x / x.
Lemma phi_mean x : 0 < x -> exists c, 0 <= c <= x /\ phi x = gau c.
Proof. intros H. destruct (gint_mean x ltac:(lra)) as (c & Hc & E). exists c. split; auto. unfold phi. rewrite E. field. lra. Qed.
Lemma phi_pos x : 0 < x -> 0 < phi x <= 1.
Proof. intros H. destruct (phi_mean x H) as (c & _ & ->). split. apply gau_pos. apply gau_le1. Qed.
Lemma phi_ge x : 0 < x -> gau x <= phi x /\ 1 - x * x <= phi x.
Proof. intros H. destruct (phi_mean x H) as (c & Hc & ->). split. apply gau_dec; auto. pose proof (gau_ge c). nra. Qed.
Lemma phi_dec a b : 0 < a <= b -> phi b <= phi a <= phi b * (b / a).
Proof.
  intros H. destruct (gint_mvt a b ltac:(lra)) as (c & Hc & E). assert (G := phi_ge a ltac:(lra)). assert (C1 := gau_dec a c ltac:(lra)). assert (C0 := gau_pos c).
  assert (Ea : gint a = phi a * a) by (unfold phi; field; lra). assert (Eb : gint b = phi b * b) by (unfold phi; field; lra).
  split.
  - apply Rmult_le_reg_r with b. lra. rewrite <- Eb. replace (gint b) with (gint a + gau c * (b - a)) by lra. rewrite Ea. nra.
  - apply Rmult_le_reg_r with a. lra. replace (phi b * (b / a) * a) with (phi b * b) by (field; lra). rewrite <- Ea, <- Eb. nra.
Qed.
Lemma phi_near s x d : 0 < x -> 0 < s -> Rabs (s - x) <= d * x -> d <= / 10000 -> Rabs (phi s - phi x) <= 1001 / 1000 * d * phi x.
Proof.
  intros X0 S0 H Hd. assert (P := phi_pos x X0). assert (d0 : 0 <= d). { assert (0 <= d * x) by (eapply Rle_trans; [apply Rabs_pos|exact H]). nra. } apply Rabs_le_inv in H.
  destruct (Rle_or_lt s x) as [L|L].
  - destruct (phi_dec s x ltac:(lra)) as (A & B). rewrite Rabs_pos_eq by lra.
    assert (Q : x / s <= 1 + 1001 / 1000 * d).
    { apply Rmult_le_reg_r with s; auto. replace (x / s * s) with x by (field; lra). assert (x * (1 - d) <= s) by lra.
      apply Rle_trans with ((1 + 1001 / 1000 * d) * (x * (1 - d))). 2: apply Rmult_le_compat_l; lra. assert (1 <= (1 + 1001 / 1000 * d) * (1 - d)) by nra. nra. }
    assert (phi x * (x / s) <= phi x * (1 + 1001 / 1000 * d)) by (apply Rmult_le_compat_l; lra). lra.
  - destruct (phi_dec x s ltac:(lra)) as (A & B). rewrite Rabs_left1 by lra.
    assert (Q : s / x <= 1 + d). { apply Rmult_le_reg_r with x; auto. replace (s / x * x) with s by (field; lra). lra. }
    assert (P2 := phi_pos s S0). assert (phi s * (s / x) <= phi s * (1 + d)) by (apply Rmult_le_compat_l; lra). nra.
Qed.

(** ** e^{-s²} / t_1 *)
Definition rho (s : R) : R := gau s / et 59 1 s.
Lemma rho_gint s : 0 <= s <= erf_top -> Rabs (s * rho s - gint s) <= bpow radix2 (-100) * s.
Proof.
  intros H. replace (s * rho s) with (ew 59 s) by (unfold ew, rho, Rdiv; ring). apply (ew_trunc 59 erf_top); auto. intros z Hz. apply runs_real; auto.
Qed.
Lemma rho_phi s : 0 < s <= erf_top -> Rabs (rho s - phi s) <= bpow radix2 (-100).
Proof.
  intros H. assert (G := rho_gint s ltac:(lra)). unfold phi. replace (rho s - gint s / s) with ((s * rho s - gint s) * / s) by (field; lra).
  assert (I : 0 < / s) by (apply Rinv_0_lt_compat; lra). rewrite Rabs_mult, (Rabs_pos_eq (/ s)) by lra.
  replace (bpow radix2 (-100)) with (bpow radix2 (-100) * s * / s) by (field; lra). apply Rmult_le_compat_r; lra.
Qed.
Lemma et_0 n : forall d, et n d 0 = IZR (2 * d - 1).
Proof.
  destruct n; intros d. unfold et. cbn [up_rec]. replace (d + Z.of_nat 0)%Z with d by (cbn; ring). ring.
  rewrite et_S. unfold Rdiv. ring.
Qed.
Lemma rho_0 : rho 0 = 1.
Proof. unfold rho. rewrite et_0. unfold gau. rewrite Rmult_0_l, Ropp_0, exp_0. change (IZR (2 * 1 - 1)) with 1. field. Qed.
Lemma gau_top : / 100 <= gau erf_top.
Proof. unfold gau, erf_top. interval. Qed.
(** [s²] is the rounded [x²]. *)
Definition sq_near (d x s : R) : Prop := (0 < s /\ Rabs (s - x) <= d * x) \/ (x <= bpow radix2 (-40) /\ s <= bpow radix2 (-39)).
Lemma rho_near s x d : 0 < x <= erf_top -> 0 <= s <= erf_top -> 0 <= d <= / 10000 -> sq_near d x s -> Rabs (rho s - phi x) <= (1001 / 1000 * d + bpow radix2 (-74)) * phi x.
Proof.
  intros Hx Hs Hd [(S0 & N)|(N1 & N2)].
  - assert (A := rho_phi s ltac:(lra)). assert (B := phi_near s x d ltac:(lra) S0 N ltac:(lra)). replace (rho s - phi x) with ((rho s - phi s) + (phi s - phi x)) by ring.
    eapply Rle_trans. apply Rabs_triang. assert (T := gau_top). assert (G := phi_ge x ltac:(lra)). assert (D := gau_dec x erf_top ltac:(lra)).
    assert (bpow radix2 (-100) <= bpow radix2 (-74) * phi x).
    { apply Rle_trans with (bpow radix2 (-74) * / 100). cbn; lra. apply Rmult_le_compat_l. apply bpow_ge_0. lra. } lra.
  - assert (G := phi_ge x ltac:(lra)). assert (P := phi_pos x ltac:(lra)).
    assert (X2 : x * x <= bpow radix2 (-80)). { replace (bpow radix2 (-80)) with (bpow radix2 (-40) * bpow radix2 (-40)) by (rewrite <- bpow_plus; reflexivity). apply Rmult_le_compat; lra. }
    assert (S2 : s * s <= bpow radix2 (-78)). { replace (bpow radix2 (-78)) with (bpow radix2 (-39) * bpow radix2 (-39)) by (rewrite <- bpow_plus; reflexivity). apply Rmult_le_compat; lra. }
    assert (Rr : Rabs (rho s - 1) <= bpow radix2 (-100) + bpow radix2 (-78)).
    { destruct (Req_dec s 0) as [->|]. rewrite rho_0, Rminus_diag_eq, Rabs_R0 by auto. cbn; lra.
      assert (A := rho_phi s ltac:(lra)). assert (G2 := phi_ge s ltac:(lra)). assert (P2 := phi_pos s ltac:(lra)). apply Rabs_le_inv in A. apply Rabs_le. lra. }
    apply Rabs_le_inv in Rr. assert (K : Rabs (rho s - phi x) <= bpow radix2 (-100) + bpow radix2 (-78) + bpow radix2 (-80)) by (apply Rabs_le; lra).
    eapply Rle_trans. exact K. assert (HP : / 2 <= phi x). { assert (bpow radix2 (-80) <= / 2) by (cbn; lra). lra. }
    apply Rle_trans with (bpow radix2 (-74) * / 2). cbn; lra. apply Rle_trans with (bpow radix2 (-74) * phi x). apply Rmult_le_compat_l. apply bpow_ge_0. lra.
    apply Rmult_le_compat_r; lra.
Qed.
