(** * Reflection of incomplete_beta, double angle of sin and cos *)
From Verif Require Import Base ModelBasic ModelInt ModelElem ModelSpecial ModelApi FltLemmas Spec SpecGamma SpecInc IntProofs BasicProofs ConvLemmas MiscProofs RangeProofs ExpAcc.
From Coq Require Import Lra Psatz.
From Verif Require Import Base ModelBasic FPErr SinAcc BetaEuler IncBeta IncBetaAbs BetaInvUnif LogExpLaws TrigLarge.
From Verif Require Import Base ModelBasic ModelInt ModelElem ModelSpecial ModelApi TotalProofs.
Open Scope R_scope.

Lemma ibf v f (a b z : flt f) : finite a = true -> finite b = true -> finite z = true -> / 2 <= B2R a <= 10 -> / 2 <= B2R b <= 10 -> / 8 <= B2R z <= 7 / 8 ->
  exists w : flt f, rmap (AFlt _) (gcem_incomplete_beta v (AFlt f a) (AFlt f b) (AFlt f z)) = Ok (AFlt f w) /\ finite w = true /\ abs_err (B2R w) (beta_I (B2R a) (B2R b) (B2R z)) (84500 * bpow radix2 (- prec f) + bpow radix2 (-43)).
Proof. intros Fa Fb Fz A B Z. destruct (api_ib_abs v f a b z Fa Fb Fz A B Z) as (w & E & F & R). exists w. auto. Qed.
Lemma one_minus f (z : flt f) : finite z = true -> 13 / 100 <= B2R z <= 87 / 100 -> finite (ofZ f 1 -. z) = true /\ Rabs (B2R (ofZ f 1 -. z) - (1 - B2R z)) <= uf f.
Proof.
  intros Fz Z. destruct (ofZ_small f 1 ltac:(lia)) as (V & F & _). change (IZR 1) with 1 in V. destruct (op_sub (ofZ f 1) z F Fz) as (Fw & Vw). { rewrite V. apply Rabs_le. lra. } split. exact Fw. rewrite V in Vw.
  destruct (FltLemmas.rnd_rel f (1 - B2R z)) as (d & Hd & Ed). { rewrite Rabs_pos_eq by lra. apply Rle_trans with (bpow radix2 (-3)). apply bpow_le. destruct f; cbn; lia. cbn; lra. }
  change (bpow radix2 (- prec f)) with (uf f) in Hd. rewrite Vw, Ed. replace ((1 - B2R z) * (1 + d) - (1 - B2R z)) with (d * (1 - B2R z)) by ring. rewrite Rabs_mult, (Rabs_pos_eq (1 - B2R z)) by lra. destruct (uf_sm f) as (U0 & _). rewrite <- (Rmult_1_r (uf f)). apply Rmult_le_compat; try lra. apply Rabs_pos.
Qed.
Lemma ib_reflect : forall v f (a b z : flt f), finite a = true -> finite b = true -> finite z = true -> / 2 <= B2R a <= 10 -> / 2 <= B2R b <= 10 -> 13 / 100 <= B2R z <= 87 / 100 ->
  exists w w' : flt f, rmap (AFlt _) (gcem_incomplete_beta v (AFlt f a) (AFlt f b) (AFlt f z)) = Ok (AFlt f w) /\ rmap (AFlt _) (gcem_incomplete_beta v (AFlt f b) (AFlt f a) (AFlt f (ofZ f 1 -. z))) = Ok (AFlt f w') /\ finite w = true /\ finite w' = true /\
  abs_err (B2R w + B2R w') 1 (169400 * bpow radix2 (- prec f) + bpow radix2 (-42)).
Proof.
  intros v f a b z Fa Fb Fz A B Z. destruct (uf_sm f) as (U0 & U1). destruct (one_minus f z Fz Z) as (Fy & Dy). set (y := ofZ f 1 -. z) in * . assert (Dy2 := Rabs_le_inv _ _ Dy).
  destruct (ibf v f a b z Fa Fb Fz A B ltac:(lra)) as (w & Ew & Fw & Rw). destruct (ibf v f b a y Fb Fa Fy B A ltac:(lra)) as (w' & Ew' & Fw' & Rw'). exists w, w'. split. exact Ew. split. exact Ew'. split. exact Fw. split. exact Fw'.
  change (bpow radix2 (- prec f)) with (uf f) in * . unfold abs_err in * . assert (Rf := beta_I_refl (B2R a) (B2R b) (B2R z) ltac:(lra) ltac:(lra) ltac:(lra)). assert (L := beta_I_lip (B2R b) (B2R a) (1 - B2R z) (B2R y) B A ltac:(lra) ltac:(lra)).
  assert (L2 : Rabs (beta_I (B2R b) (B2R a) (B2R y) - beta_I (B2R b) (B2R a) (1 - B2R z)) <= 400 * uf f) by lra. replace (bpow radix2 (-42)) with (2 * bpow radix2 (-43)) by (cbn; lra). apply Rabs_le_inv in Rw. apply Rabs_le_inv in Rw'. apply Rabs_le_inv in L2. apply Rabs_le. lra.
Qed.

(** ** Double angle *)
Lemma sinf f (x : flt f) : finite x = true -> Rabs (B2R x) <= bpow radix2 (prec f - 5) ->
  exists w : flt f, gcem_sin (AFlt f x) = Ok w /\ finite w = true /\ Rabs (B2R w) <= 1 /\ abs_err (B2R w) (sin (B2R x)) ((70 + 17 / 10 * Rabs (B2R x)) * uf f + bpow radix2 (-52)).
Proof.
  intros Fx X. assert (G : exists w : flt f, gcem_sin (AFlt f x) = Ok w /\ finite w = true /\ abs_err (B2R w) (sin (B2R x)) ((70 + 17 / 10 * Rabs (B2R x)) * uf f + bpow radix2 (-52))) by exact (api_sin_large f x Fx X). destruct G as (w & E & F & R).
  assert (G : exists w : flt f, gcem_sin (AFlt f x) = Ok w /\ (is_nan w = true \/ (finite w = true /\ Rabs (B2R w) <= 1))) by exact (sin_range x). destruct G as (w' & E' & K). rewrite E in E'. injection E' as <-. exists w. split. exact E. split. exact F. split; auto. destruct K as [K|(_ & K)]; auto. rewrite finite_not_nan in K by auto. discriminate K.
Qed.
Lemma cosf f (x : flt f) : finite x = true -> Rabs (B2R x) <= bpow radix2 (prec f - 5) ->
  exists w : flt f, gcem_cos (AFlt f x) = Ok w /\ finite w = true /\ Rabs (B2R w) <= 1 /\ abs_err (B2R w) (cos (B2R x)) ((70 + 17 / 10 * Rabs (B2R x)) * uf f + bpow radix2 (-52)).
Proof.
  intros Fx X. assert (G : exists w : flt f, gcem_cos (AFlt f x) = Ok w /\ finite w = true /\ abs_err (B2R w) (cos (B2R x)) ((70 + 17 / 10 * Rabs (B2R x)) * uf f + bpow radix2 (-52))) by exact (api_cos_large f x Fx X). destruct G as (w & E & F & R).
  assert (G : exists w : flt f, gcem_cos (AFlt f x) = Ok w /\ (is_nan w = true \/ (finite w = true /\ Rabs (B2R w) <= 1))) by exact (cos_range x). destruct G as (w' & E' & K). rewrite E in E'. injection E' as <-. exists w. split. exact E. split. exact F. split; auto. destruct K as [K|(_ & K)]; auto. rewrite finite_not_nan in K by auto. discriminate K.
Qed.
Lemma prod_err s c S C e : Rabs c <= 1 -> Rabs S <= 1 -> Rabs (s - S) <= e -> Rabs (c - C) <= e -> Rabs (s * c - S * C) <= 2 * e.
Proof.
  intros A B D E. replace (s * c - S * C) with ((s - S) * c + S * (c - C)) by ring. eapply Rle_trans. apply Rabs_triang. rewrite !Rabs_mult. assert (Rabs (s - S) * Rabs c <= e * 1) by (apply Rmult_le_compat; auto; apply Rabs_pos). assert (Rabs S * Rabs (c - C) <= 1 * e) by (apply Rmult_le_compat; auto; apply Rabs_pos). lra.
Qed.
Lemma double_angle : forall f (x y : flt f), finite x = true -> finite y = true -> B2R y = 2 * B2R x -> Rabs (B2R x) <= bpow radix2 (prec f - 6) ->
  exists s c s2 c2 : flt f, gcem_sin (AFlt f x) = Ok s /\ gcem_cos (AFlt f x) = Ok c /\ gcem_sin (AFlt f y) = Ok s2 /\ gcem_cos (AFlt f y) = Ok c2 /\ finite s2 = true /\ finite c2 = true /\
  abs_err (B2R s2) (2 * B2R s * B2R c) ((350 + 11 * Rabs (B2R x)) * bpow radix2 (- prec f) + bpow radix2 (-49)) /\
  abs_err (B2R c2) (2 * B2R c * B2R c - 1) ((350 + 11 * Rabs (B2R x)) * bpow radix2 (- prec f) + bpow radix2 (-49)).
Proof.
  intros f x y Fx Fy Y X. destruct (uf_sm f) as (U0 & _). assert (BB : bpow radix2 (prec f - 5) = 2 * bpow radix2 (prec f - 6)) by (change 2 with (bpow radix2 1) at 1; rewrite <- bpow_plus; f_equal; lia). assert (B0 := bpow_gt_0 radix2 (prec f - 6)).
  assert (AY : Rabs (B2R y) = 2 * Rabs (B2R x)) by (rewrite Y, Rabs_mult, (Rabs_pos_eq 2); lra).
  destruct (sinf f x Fx ltac:(lra)) as (s & Es & Fs & Is & Rs). destruct (cosf f x Fx ltac:(lra)) as (c & Ec & Fc & Ic & Rc). destruct (sinf f y Fy ltac:(lra)) as (s2 & Es2 & Fs2 & _ & Rs2). destruct (cosf f y Fy ltac:(lra)) as (c2 & Ec2 & Fc2 & _ & Rc2).
  exists s, c, s2, c2. split. exact Es. split. exact Ec. split. exact Es2. split. exact Ec2. split. exact Fs2. split. exact Fc2. change (bpow radix2 (- prec f)) with (uf f). rewrite AY in Rs2, Rc2. rewrite Y, sin_2a in Rs2. rewrite Y, cos_2a_cos in Rc2. unfold abs_err in * .
  assert (BS : Rabs (sin (B2R x)) <= 1) by (apply Rabs_le, SIN_bound). assert (BC : Rabs (cos (B2R x)) <= 1) by (apply Rabs_le, COS_bound).
  assert (Q1 := prod_err _ _ _ _ _ Ic BS Rs Rc). assert (Q2 := prod_err _ _ _ _ _ Ic BC Rc Rc). set (S := sin (B2R x)) in * . set (C := cos (B2R x)) in * . assert (Q := Rabs_pos (B2R x)).
  assert (b := bpow_gt_0 radix2 (-52)). replace (bpow radix2 (-49)) with (8 * bpow radix2 (-52)) by (cbn; lra). set (q := bpow radix2 (-52)) in * . set (X' := Rabs (B2R x)) in * . assert (0 <= X' * uf f) by (apply Rmult_le_pos; lra).
  replace ((70 + 17 / 10 * X') * uf f) with (70 * uf f + 17 / 10 * (X' * uf f)) in Q1, Q2 by field. replace ((70 + 17 / 10 * (2 * X')) * uf f) with (70 * uf f + 34 / 10 * (X' * uf f)) in Rs2, Rc2 by field. replace ((350 + 11 * X') * uf f) with (350 * uf f + 11 * (X' * uf f)) by ring.
  apply Rabs_le_inv in Q1. apply Rabs_le_inv in Q2. apply Rabs_le_inv in Rs2. apply Rabs_le_inv in Rc2. split; apply Rabs_le; lra.
Qed.
