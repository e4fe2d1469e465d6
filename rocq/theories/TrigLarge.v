(** * sin, cos and tan of large arguments on the public functions *)
From Verif Require Import Base ModelBasic ModelInt ModelElem ModelApi FltLemmas Spec IntProofs BasicProofs.
From Coq Require Import Lra Psatz.
From Verif Require Import FPErr TrigRed.
From Interval Require Import Tactic.
Open Scope R_scope.

Lemma api_sin_large f (x : flt f) : finite x = true -> Rabs (B2R x) <= bpow radix2 (prec f - 5) ->
  exists w, gcem_sin (AFlt f x) = Ok w /\ finite w = true /\
    abs_err (B2R w) (sin (B2R x)) ((70 + 17 / 10 * Rabs (B2R x)) * bpow radix2 (- prec f) + bpow radix2 (-52)).
Proof. exact (@sin_wide f x). Qed.
Lemma api_cos_large f (x : flt f) : finite x = true -> Rabs (B2R x) <= bpow radix2 (prec f - 5) ->
  exists w, gcem_cos (AFlt f x) = Ok w /\ finite w = true /\
    abs_err (B2R w) (cos (B2R x)) ((70 + 17 / 10 * Rabs (B2R x)) * bpow radix2 (- prec f) + bpow radix2 (-52)).
Proof. exact (@cos_wide f x). Qed.
Lemma api_tan_large f (x : flt f) : finite x = true -> Rabs (B2R x) <= bpow radix2 (prec f - 6) ->
  exists w y, gcem_tan (AFlt f x) = Ok w /\ finite w = true /\ cos y <> 0 /\ B2R w = tan y /\
    abs_err y (B2R x) ((32 + 17 / 10 * Rabs (B2R x)) * bpow radix2 (- prec f) + bpow radix2 (-52)).
Proof. intros Fx X. destruct (tan_wide x Fx X) as (w & y & E & Fw & D & C & V). exists w, y. auto. Qed.
(** Integral arguments are converted to double, exactly up to 2^53. *)
Lemma int_arg n : (Z.abs n <= 2 ^ 48)%Z -> B2R (ofZ F64 n) = IZR n /\ finite (ofZ F64 n) = true /\ Rabs (B2R (ofZ F64 n)) <= bpow radix2 (prec F64 - 5).
Proof.
  intros N. destruct (ofZ_exact F64 n) as (V & F & _). cbn [prec]. lia. repeat split; auto. rewrite V, <- abs_IZR. change (bpow radix2 (prec F64 - 5)) with (IZR (2 ^ 48)). apply IZR_le. auto.
Qed.
Lemma api_sin_int t n : (Z.abs n <= 2 ^ 48)%Z -> exists w, gcem_sin (AInt t n) = Ok w /\ finite w = true /\
  abs_err (B2R w) (sin (IZR n)) ((72 + 17 / 10 * Rabs (IZR n)) * bpow radix2 (-53)).
Proof.
  intros N. destruct (int_arg n N) as (V & F & X). destruct (api_sin_large F64 (ofZ F64 n) F X) as (w & E & Fw & R). exists w. split. exact E. split; auto. rewrite V in R. unfold abs_err in * . eapply Rle_trans. exact R.
  change (- prec F64)%Z with (-53)%Z. replace (bpow radix2 (-52)) with (2 * bpow radix2 (-53)) by (replace (-52)%Z with (-53 + 1)%Z by ring; rewrite bpow_plus_1; reflexivity). lra.
Qed.
Lemma api_cos_int t n : (Z.abs n <= 2 ^ 48)%Z -> exists w, gcem_cos (AInt t n) = Ok w /\ finite w = true /\
  abs_err (B2R w) (cos (IZR n)) ((72 + 17 / 10 * Rabs (IZR n)) * bpow radix2 (-53)).
Proof.
  intros N. destruct (int_arg n N) as (V & F & X). destruct (api_cos_large F64 (ofZ F64 n) F X) as (w & E & Fw & R). exists w. split. exact E. split; auto. rewrite V in R. unfold abs_err in * . eapply Rle_trans. exact R.
  change (- prec F64)%Z with (-53)%Z. replace (bpow radix2 (-52)) with (2 * bpow radix2 (-53)) by (replace (-52)%Z with (-53 + 1)%Z by ring; rewrite bpow_plus_1; reflexivity). lra.
Qed.
(** ** sin^2 + cos^2 = 1 *)
Lemma circle_err S C s c u : 0 < u <= / 1000 -> S * S + C * C = 1 -> Rabs (s - S) <= 5 * u -> Rabs (c - C) <= 6 * u -> Rabs (s * s + c * c - 1) <= 16 * u.
Proof.
  intros U E H1 H2. set (a := s - S) in * . set (b := c - C) in * . replace s with (S + a) by (unfold a; ring). replace c with (C + b) by (unfold b; ring).
  replace ((S + a) * (S + a) + (C + b) * (C + b) - 1) with (2 * (S * a + C * b) + (a * a + b * b)) by (replace 1 with (S * S + C * C); ring).
  assert (sq : forall z k, 0 <= k -> Rabs z <= k -> 0 <= z * z <= k * k). { intros z k K Hz. split. apply Rle_0_sqr. rewrite <- (Rabs_pos_eq (z * z)) by apply Rle_0_sqr. rewrite Rabs_mult. apply Rmult_le_compat; auto; apply Rabs_pos. }
  apply sq in H1, H2; try lra. assert (uu : u * u <= / 1000 * u) by (apply Rmult_le_compat_r; lra).
  assert (CS : Rabs (S * a + C * b) <= 79 / 10 * u).
  { rewrite <- (Rabs_pos_eq (79 / 10 * u)) by lra. apply Rsqr_le_abs_0. unfold Rsqr. assert (Q := Rle_0_sqr (S * b - C * a)). unfold Rsqr in Q. replace ((S * a + C * b) * (S * a + C * b)) with ((S * S + C * C) * (a * a + b * b) - (S * b - C * a) * (S * b - C * a)) by ring. rewrite E. lra. }
  apply Rabs_le_inv in CS. apply Rabs_le. lra.
Qed.
Lemma pythagoras f (x : flt f) : finite x = true -> Rabs (B2R x) <= bpow radix2 (prec f - 5) ->
  exists s c, gcem_sin (AFlt f x) = Ok s /\ gcem_cos (AFlt f x) = Ok c /\ finite s = true /\ finite c = true /\ Rabs (B2R s * B2R s + B2R c * B2R c - 1) <= 16 * bpow radix2 (- prec f).
Proof.
  intros Fx X. assert (u0 := TrigWide.uf_small f). destruct (ofZ_small f 1 ltac:(lia)) as (V1 & F1 & _). destruct (ofZ_small f 0 ltac:(lia)) as (V0 & F0 & _). change (bpow radix2 (- prec f)) with (FPErr.uf f).
  assert (B2 : forall z : flt f, B2R (-. z) = - B2R z /\ finite (-. z) = finite z) by (intros; split; [apply fneg_B2R|apply fneg_finite]).
  cbn [gcem_sin gcem_cos lift1 ret_val]. unfold gcem_sin, gcem_cos, lift1. cbn [ret_val ret_fmt]. unfold sin_check, cos_check. rewrite finite_not_nan by auto.
  repeat match goal with |- context [if ?b then _ else _] => destruct b eqn:?; [do 2 eexists; split; [reflexivity|]; split; [reflexivity|]; rewrite ?(proj1 (B2 _)), ?(proj2 (B2 _)), ?V1, ?V0; split; [assumption|]; split; [assumption|]; apply Rabs_le; lra|] end.
  destruct (half_ang x Fx X) as (t & E & Ft & Bt & _). rewrite E. cbn [bind]. destruct (hsin t Ft Bt) as (Fs & Es). destruct (hcos t Ft Bt) as (Fc & Ec). do 2 eexists. split. reflexivity. split. reflexivity. split; auto. split; auto.
  eapply circle_err; [|  |exact Es|exact Ec]. lra. assert (0 <= B2R t * B2R t) by apply Rle_0_sqr. field. lra.
Qed.
(** ** Beyond the reduction *)
Definition far (f : fmt) : Z := match f with F32 => 10 ^ 8 | F64 => 10 ^ 17 | F80 => 4 * 10 ^ 20 end.
Lemma cos_far f : exists x : flt f, finite x = true /\ 0 < B2R x <= bpow radix2 (prec f + 5) /\ (exists w, gcem_cos (AFlt f x) = Ok w /\ B2R w = 1) /\ (exists w, gcem_sin (AFlt f x) = Ok w /\ B2R w = 0) /\ cos (B2R x) <= - (1 / 3).
Proof.
  exists (ofZ f (far f)).
  assert (V : B2R (ofZ f (far f)) = IZR (far f) /\ finite (ofZ f (far f)) = true).
  { destruct f.
    - assert (E : B2SF (ofZ F32 (far F32)) = SpecFloat.S754_finite false 12500000 3) by (vm_compute; reflexivity). split. rewrite <- (SF2R_B2SF _ _ (ofZ F32 _)), E. change (IZR (far F32)) with 100000000. change (SF2R radix2 (SpecFloat.S754_finite false 12500000 3)) with (12500000 * 8). lra. rewrite <- is_finite_SF_B2SF, E. reflexivity.
    - assert (E : B2SF (ofZ F64 (far F64)) = SpecFloat.S754_finite false 6250000000000000 4) by (vm_compute; reflexivity). split. rewrite <- (SF2R_B2SF _ _ (ofZ F64 _)), E. change (IZR (far F64)) with 100000000000000000. change (SF2R radix2 (SpecFloat.S754_finite false 6250000000000000 4)) with (6250000000000000 * 16). lra. rewrite <- is_finite_SF_B2SF, E. reflexivity.
    - assert (E : B2SF (ofZ F80 (far F80)) = SpecFloat.S754_finite false 12500000000000000000 5) by (vm_compute; reflexivity). split. rewrite <- (SF2R_B2SF _ _ (ofZ F80 _)), E. change (IZR (far F80)) with 400000000000000000000. change (SF2R radix2 (SpecFloat.S754_finite false 12500000000000000000 5)) with (12500000000000000000 * 32). lra. rewrite <- is_finite_SF_B2SF, E. reflexivity. }
  destruct V as (V & F). split; auto. rewrite V.
  split. { destruct f; [change (IZR (far F32)) with 100000000; change (bpow radix2 (prec F32 + 5)) with 536870912|change (IZR (far F64)) with 100000000000000000; change (bpow radix2 (prec F64 + 5)) with 288230376151711744|change (IZR (far F80)) with 400000000000000000000; change (bpow radix2 (prec F80 + 5)) with 590295810358705651712]; lra. }
  split. { exists (ofZ f 1). split; [|apply (ofZ_small f 1); lia]. apply ok_sf. destruct f; vm_compute; reflexivity. }
  split. { exists (ofZ f 0). split; [|apply (ofZ_small f 0); lia]. apply ok_sf. destruct f; vm_compute; reflexivity. }
  destruct f; [change (IZR (far F32)) with 100000000|change (IZR (far F64)) with 100000000000000000|change (IZR (far F80)) with 400000000000000000000]; interval with (i_prec 140).
Qed.
