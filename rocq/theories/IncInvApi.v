(** * incomplete_gamma_inv at the API for integral shape, and the round trip *)
From Verif Require Import Base FltLemmas ConvLemmas ModelBasic ModelInt ModelElem ModelSpecial ModelApi Spec SpecGamma SpecInc.
From Coq Require Import Lra Psatz.
From Coquelicot Require Import Coquelicot.
From Interval Require Import Tactic.
From Verif Require Import BasicProofs RangeProofs FPErr ExpAcc LogApi SinAcc ErfAcc IntProofs GammaAcc GammaInt IncGamAcc IncGamApi ErfInvAcc IncInvReal IncInvAcc.
From Verif Require Import Base ModelBasic ModelInt ModelElem ModelSpecial ModelApi.
Open Scope R_scope.

Section B.
Context (v : cxx) {f : fmt}.
Notation u := (uf f).
Let u0 : 0 < u := uf_pos f.
Let u1 : u <= / 16777216 := uf_le f.
Definition ivb : R := 1400 * u + bpow radix2 (-49).
Lemma icheck (a p : flt f) m : shape a m -> finite p = true -> 16 / 100 <= B2R p <= / 2 ->
  exists w, incomplete_gamma_inv_check v a p = Ok w /\ finite w = true /\ lo m <= B2R w <= hi m /\ Rabs (Q (S (S m)) (B2R w) - B2R p) <= ivb.
Proof.
  intros SH Fp HP. destruct (shape_rng a m SH) as (RA & RM). assert (Fa : finite a = true) by apply SH. assert (M : (m <= 7)%nat) by apply SH. destruct (lo_hi m M) as (L1 & L2 & L3).
  destruct (ofZ_small f 1 ltac:(lia)) as (V1 & F1 & _). destruct (fmin_spec f) as (Vm & Fm). assert (m1 : bpow radix2 (2 - emax f) <= / 8). { change (/ 8) with (bpow radix2 (-3)). apply bpow_le. clear. destruct f; discriminate. }
  unfold incomplete_gamma_inv_check, any_nan. rewrite !finite_not_nan by auto. cbn [orb]. rewrite (flt_false p (fmin f)); auto. 2: rewrite Vm; lra. rewrite (flt_false (ofZ f 1) p); auto. 2: rewrite V1; lra.
  destruct (nr_sub (ofZ f 1) p 1 (B2R p) 0 0 1 (nr_Z 1 ltac:(lia)) (nr_exact p Fp) ltac:(apply Rabs_le; lra) ltac:(lra) ltac:(lra)) as (Fs & Es). apply Rabs_le_inv in Es.
  rewrite (flt_false (ModelBasic.abs (ofZ f 1 -. p)) (fmin f)); auto. 2: rewrite abs_finite; auto. 2: rewrite Vm, abs_B2R, Rabs_pos_eq by lra; lra. rewrite (flt_false a (fmin f)); auto. 2: rewrite Vm; lra.
  destruct (istart v a p m SH Fp HP) as (i & Ei & Fi & I0 & Ri). rewrite Ei. cbn [bind].
  destruct (lgamma_large v a Fa) as (lg & Eg & _ & _). { change (bpow radix2 55) with 36028797018963968. lra. } { lra. } rewrite Eg. cbn [bind]. assert (HX := @inside f m (B2R i) (B2R p) M HP I0 Ri).
  destruct (gder v a m lg i SH Eg Fi ltac:(lra)) as (d & Ed & Fd & Rd). rewrite Ed. cbn [bind].
  destruct (grecur v a p lg m SH Eg Fp HP 35 (Z.to_nat (GCEM_INCML_GAMMA_INV_MAX_ITER + 2)) i d (B2R i) 1 (6 / 1000) eq_refl ltac:(vm_compute; lia) Fi Fd I0 Ri ltac:(lra) Rd) as (w & Ew & Fw & Bw & Rw). { rewrite Rminus_diag_eq by reflexivity. rewrite Rabs_R0. lra. }
  exists w. split. exact Ew. split. exact Fw. split. exact Bw. eapply Rle_trans. exact Rw. unfold ivb. assert (b0 := bpow_gt_0 radix2 (-49)). assert (b1 : / 1000000000000000 <= bpow radix2 (-49)) by (cbn; lra).
  change (S 35) with 36%nat. assert (K : 0 < (26 / 100) ^ 36 <= / 10000000000000000) by (split; [apply pow_lt; lra|lra]). set (k := (26 / 100) ^ 36) in * .
  assert (T : 100 / 74 * (1 - k) * (64 / 100 * (1600 * u + bpow radix2 (-49)) + 4 * u) <= 100 / 74 * 1 * (64 / 100 * (1600 * u + bpow radix2 (-49)) + 4 * u)) by (apply Rmult_le_compat_r; lra).
  lra.
Qed.
Lemma ivb_small : 0 < ivb <= 1 / 10000.
Proof. unfold ivb. assert (b0 := bpow_gt_0 radix2 (-49)). assert (b1 : bpow radix2 (-49) <= / 1000000000) by (cbn; lra). lra. Qed.
Lemma nat_shape (a : flt f) n : finite a = true -> B2R a = IZR n -> (2 <= n <= 9)%Z -> shape a (Z.to_nat (n - 2)).
Proof. intros F V N. split. exact F. split. rewrite V, Z2Nat.id by lia. rewrite minus_IZR. ring. lia. Qed.
Lemma ifull (a p : flt f) n : finite a = true -> finite p = true -> B2R a = IZR n -> (2 <= n <= 9)%Z -> 16 / 100 <= B2R p <= / 2 ->
  exists w, incomplete_gamma_inv_check v a p = Ok w /\ finite w = true /\ / 2 <= B2R w <= B2R a + / 2 /\ Rabs (gamma_P (B2R a) (B2R w) - B2R p) <= ivb /\
  forall t, 0 < t -> gamma_P (B2R a) t = B2R p -> Rabs (B2R w - t) <= 15000 * u + bpow radix2 (-45).
Proof.
  intros Fa Fp VA N HP. assert (SH := nat_shape a n Fa VA N). set (m := Z.to_nat (n - 2)) in * . assert (M : (m <= 7)%nat) by apply SH. assert (V2 : B2R a = IZR (Z.of_nat m) + 2) by apply SH. destruct (lo_hi m M) as (L1 & L2 & L3). assert (IB := ivb_small).
  destruct (icheck a p m SH Fp HP) as (w & Ew & Fw & Bw & Rw). exists w. split. exact Ew. split. exact Fw. assert (HH : hi m = B2R a + / 2) by (rewrite V2; unfold hi; lra). split. lra.
  split. rewrite (shape_P a m) by (auto; lra). exact Rw.
  intros t T0 HT. rewrite (shape_P a m) in HT by auto. assert (IN := @inside f m t (B2R p) M HP ltac:(lra) ltac:(rewrite HT, Rminus_diag_eq by reflexivity; rewrite Rabs_R0; lra)).
  destruct (Q_mvt (S m) t (B2R w)) as (xi & XI & QE). assert (XI' : lo m <= xi <= hi m). { revert XI. unfold Rmin, Rmax. destruct (Rle_dec t (B2R w)); lra. }
  assert (G := gd_rng m xi M XI'). assert (GG : 95 / 1000 <= ig_G m). { clear - M. eight m M; unfold ig_G; lra. } rewrite HT in QE. rewrite QE, Rabs_mult, (Rabs_pos_eq (gd (S m) xi)) in Rw by lra.
  assert (K : 95 / 1000 * Rabs (B2R w - t) <= gd (S m) xi * Rabs (B2R w - t)) by (apply Rmult_le_compat_r; [apply Rabs_pos|lra]). assert (b0 := bpow_gt_0 radix2 (-49)). assert (b45 : bpow radix2 (-45) = 16 * bpow radix2 (-49)) by (cbn; lra). unfold ivb in * . lra.
Qed.
End B.
Lemma api_ig_inv : forall v f (a p : flt f) n, finite a = true -> finite p = true -> B2R a = IZR n -> (2 <= n <= 9)%Z -> 16 / 100 <= B2R p <= / 2 ->
  exists w, gcem_incomplete_gamma_inv v (AFlt f a) (AFlt f p) = Ok w /\ finite w = true /\ / 2 <= B2R w <= B2R a + / 2 /\
  abs_err (gamma_P (B2R a) (B2R w)) (B2R p) (1400 * bpow radix2 (- prec f) + bpow radix2 (-49)) /\
  forall t, 0 < t -> gamma_P (B2R a) t = B2R p -> abs_err (B2R w) t (15000 * bpow radix2 (- prec f) + bpow radix2 (-45)).
Proof.
  intros v f a p n Fa Fp VA N HP. destruct (ifull v a p n Fa Fp VA N HP) as (w & E & F & B & R & T).
  assert (Q : forall g : fmt, fmt_max g g = g) by (destruct g; reflexivity). unfold gcem_incomplete_gamma_inv, lift2. cbn [cr_fmt to_fmt]. rewrite Q, !conv_id. exists w. split. exact E. split. exact F. split. exact B. split. exact R. exact T.
Qed.
(** The library's own incomplete_gamma at the result *)
Lemma api_ig_rt : forall v f (a p : flt f) n, finite a = true -> finite p = true -> B2R a = IZR n -> (2 <= n <= 9)%Z -> 16 / 100 <= B2R p <= / 2 ->
  exists w q : flt f, rmap (AFlt _) (gcem_incomplete_gamma_inv v (AFlt f a) (AFlt f p)) = Ok (AFlt f w) /\ rmap (AFlt _) (gcem_incomplete_gamma v (AFlt f a) (AFlt f w)) = Ok (AFlt f q) /\ finite q = true /\
  abs_err (B2R q) (B2R p) (2250 * bpow radix2 (- prec f) + bpow radix2 (-48)).
Proof.
  intros v f a p n Fa Fp VA N HP. destruct (ifull v a p n Fa Fp VA N HP) as (w & E & F & B & R & _). assert (u0 := uf_pos f). assert (IB := @ivb_small f). unfold ivb in * .
  assert (RA : 2 <= B2R a <= 9) by (rewrite VA; split; apply IZR_le; lia). destruct (cf1_acc v a w Fa F ltac:(lra) ltac:(lra)) as (q & Eq & Fq & Rq).
  assert (Q : forall g : fmt, fmt_max g g = g) by (destruct g; reflexivity). exists w, q.
  split. { unfold gcem_incomplete_gamma_inv, lift2. cbn [cr_fmt to_fmt]. rewrite Q, !conv_id, E. reflexivity. } split. { unfold gcem_incomplete_gamma, lift2. cbn [cr_fmt to_fmt]. rewrite Q, !conv_id, Eq. reflexivity. } split. exact Fq.
  unfold rel_err in Rq. unfold abs_err. change (bpow radix2 (- prec f)) with (uf f) in * . assert (b0 := bpow_gt_0 radix2 (-49)). assert (b48 : bpow radix2 (-48) = 2 * bpow radix2 (-49)) by (cbn; lra). set (g := gamma_P (B2R a) (B2R w)) in * .
  assert (GA : Rabs g <= 502 / 1000). { replace g with ((g - B2R p) + B2R p) by ring. eapply Rle_trans. apply Rabs_triang. rewrite (Rabs_pos_eq (B2R p)) by lra. lra. }
  assert (K : (1600 * uf f + bpow radix2 (-49)) * Rabs g <= (1600 * uf f + bpow radix2 (-49)) * (502 / 1000)) by (apply Rmult_le_compat_l; lra).
  replace (B2R q - B2R p) with ((B2R q - g) + (g - B2R p)) by ring. eapply Rle_trans. apply Rabs_triang. lra.
Qed.
