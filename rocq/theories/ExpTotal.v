(** * Argument splitting of exp: find_whole and find_fraction; totality of exp *)
From Coq Require Import Lra Psatz.
From Verif Require Import Base ModelBasic ModelInt ModelElem ModelSpecial ModelApi FltLemmas ConvLemmas Spec IntProofs BasicProofs ScaleProofs TotalProofs.
Open Scope R_scope.

(** Fractional distances of numbers of magnitude at least one are exact. *)
Lemma frac_exact {f} (x : flt f) n : 1 <= Rabs (B2R x) -> Rabs (B2R x - IZR n) <= 2 ->
  generic_format radix2 (fexpf f) (B2R x - IZR n).
Proof.
  intros H1 H2. assert (G := fmt_format x).
  assert (E : exists k, B2R x = IZR k * bpow radix2 (1 - prec f)).
  { assert (C : (1 - prec f <= cexp radix2 (fexpf f) (B2R x))%Z).
    { unfold cexp. apply Z.le_trans with (fexpf f 1)%Z; [rewrite fexpf_FLT; unfold FLT_exp; lia|].
      assert (M : (1 <= mag radix2 (B2R x))%Z).
      { apply mag_ge_bpow. change (bpow radix2 (1 - 1)) with 1. auto. }
      rewrite !fexpf_FLT. unfold FLT_exp. lia. }
    exists (Ztrunc (scaled_mantissa radix2 (fexpf f) (B2R x)) * 2 ^ (cexp radix2 (fexpf f) (B2R x) - (1 - prec f)))%Z.
    rewrite G at 1. unfold F2R. cbn [Fnum Fexp]. rewrite mult_IZR.
    rewrite <- bpow_IZR by lia. rewrite Rmult_assoc, <- bpow_plus. do 2 f_equal. lia. }
  destruct E as (k & E). pose proof (pow_prec f) as (PP & _). pose proof (prec_pos f).
  assert (E2 : B2R x - IZR n = F2R (Float radix2 (k - n * 2 ^ (prec f - 1)) (1 - prec f))).
  { unfold F2R. cbn [Fnum Fexp]. rewrite E, minus_IZR, mult_IZR, <- bpow_IZR by lia.
    rewrite Rmult_minus_distr_r, Rmult_assoc, <- bpow_plus. replace (prec f - 1 + (1 - prec f))%Z with 0%Z by lia. cbn. ring. }
  destruct (Req_dec (Rabs (B2R x - IZR n)) 2) as [E3|E3].
  - assert (B2R x - IZR n = IZR 2 \/ B2R x - IZR n = IZR (-2)) as [->| ->].
    { unfold Rabs in E3. destruct (Rcase_abs _); [right|left]; lra. }
    all: apply fmt_IZR; cbn; lia.
  - rewrite E2 in H2, E3 |- * . apply fmt_F2R.
    + apply lt_IZR. rewrite abs_IZR, <- bpow_IZR by lia.
      apply Rmult_lt_reg_r with (bpow radix2 (1 - prec f)); [apply bpow_gt_0|].
      rewrite <- bpow_plus. replace (prec f + (1 - prec f))%Z with 1%Z by lia. change (bpow radix2 1) with 2.
      unfold F2R in H2, E3. cbn [Fnum Fexp] in H2, E3. rewrite Rabs_mult, (Rabs_pos_eq (bpow _ _)) in H2, E3 by apply bpow_ge_0. lra.
    + unfold emin. destruct f; cbn; lia.
Qed.

Lemma half_le {f} (y : flt f) : finite y = true -> (half f <=. y) = Rle_bool (/2) (B2R y).
Proof. intros. destruct (half_spec f) as [V F]. rewrite fle_spec, V by auto. reflexivity. Qed.

(** For 1 <= |x| <= 2^63 - 1: x = n + r with integer n and exact remainder r.
    For positive x the remainder is in [-1/2,1/2); for negative x it is in
    [0,1/2) or [3/2,2). *)
Lemma whole_frac {f} (x : flt f) : finite x = true -> 1 <= Rabs (B2R x) <= IZR (2 ^ 63 - 1) ->
  exists n r, find_whole x = Ok n /\ find_fraction x = Ok r /\ finite r = true /\ B2R r = B2R x - IZR n /\
    in_range I64 n /\ (0 < B2R x -> -1/2 <= B2R r < 1/2) /\
    (B2R x < 0 -> 0 <= B2R r < 1/2 \/ 3/2 <= B2R r < 2).
Proof.
  intros Fx [X1 X2].
  assert (Z : zero_or_normal x).
  { split; auto. right. eapply Rle_trans; [apply fmin_small|lra]. }
  destruct (floor_ok x Z) as (w & n & E & (Fw & Vw) & Fl).
  unfold is_floor in Fl.
  unfold find_whole, find_fraction. rewrite E. cbn [bind].
  assert (Efit : generic_format radix2 (fexpf f) (B2R x - B2R w)).
  { rewrite Vw. apply frac_exact; auto. rewrite Rabs_pos_eq; lra. }
  destruct (fsub_exact x w Fx Fw Efit) as [Vs Fs].
  { rewrite Vw, Rabs_pos_eq by lra. pose proof (emax_big f). lra. }
  rewrite half_le by (rewrite abs_finite; auto). rewrite abs_B2R, Vs, Vw, Rabs_pos_eq by lra.
  assert (Rn : (- (2 ^ 63 - 1) <= n <= 2 ^ 63 - 1)%Z).
  { apply Rabs_le_inv in X2. split.
    - assert (- (2 ^ 63 - 1) < n + 1)%Z; [|lia]. apply lt_IZR. rewrite plus_IZR, opp_IZR. lra.
    - apply le_IZR. lra. }
  assert (Tr : forall (y : flt f) k, has_val y (IZR k) -> in_range I64 k -> fcast I64 y = Ok k).
  { intros y k (Fy & Vy) Rk. rewrite fcast_ok, Vy, Ztrunc_IZR; auto. rewrite Vy, Ztrunc_IZR. auto. }
  destruct (Rle_bool_spec (/2) (B2R x - IZR n)) as [H|H].
  - assert (NI : Rabs (B2R x) < bpow radix2 (prec f - 1)).
    { apply Rnot_le_lt. intros C. apply big_is_int in C. rewrite C in Fl, H.
      assert (n <= Ztrunc (B2R x) < n + 1)%Z by (split; [apply le_IZR|apply lt_IZR; rewrite plus_IZR]; lra).
      assert (ET : Ztrunc (B2R x) = n) by lia. rewrite ET in H. lra. }
    assert (Nb : (Z.abs n <= 2 ^ (prec f - 1))%Z).
    { pose proof (prec_pos f). apply Z.abs_le. split.
      - assert (- 2 ^ (prec f - 1) < n + 1)%Z; [|lia]. apply lt_IZR. rewrite plus_IZR, opp_IZR, <- bpow_IZR by lia. apply Rabs_lt_inv in NI. lra.
      - assert (n < 2 ^ (prec f - 1))%Z; [|lia]. apply lt_IZR. rewrite <- bpow_IZR by lia. apply Rabs_lt_inv in NI. lra. }
    pose proof (pow_prec f) as (PP & PL & _).
    destruct (sgn_spec x Fx) as [(Hs & ->)|[(Hs & ->)|(Hs & ->)]].
    3:{ rewrite Hs, Rabs_R0 in X1. lra. }
    + assert (T1 := ofZ_val f 1 ltac:(cbn; lia)).
      exists (n + 1)%Z, (x -. w -. ofZ f 1).
      assert (Rn1 : in_range I64 (n + 1)).
      { split; [cbn; lia|]. assert (n + 1 < 2 ^ 63)%Z; [|cbn; lia]. apply lt_IZR. rewrite plus_IZR.
        rewrite Rabs_pos_eq in X2 by lra. rewrite minus_IZR in X2. lra. }
      rewrite (Tr (w +. ofZ f 1) (n + 1)%Z); auto; [|apply fadd_int; auto; [split; auto|lia]].
      assert (G2 : generic_format radix2 (fexpf f) (B2R (x -. w) - B2R (ofZ f 1))).
      { rewrite Vs, Vw, (proj2 T1). replace (B2R x - IZR n - 1) with (B2R x - IZR (n + 1)) by (rewrite plus_IZR; ring).
        apply frac_exact; auto. rewrite plus_IZR. apply Rabs_le; lra. }
      destruct (fsub_exact (x -. w) (ofZ f 1) Fs (proj1 T1) G2) as [Vr Fr].
      { rewrite Vs, Vw, (proj2 T1). pose proof (emax_big f). apply Rabs_lt. lra. }
      rewrite Vs, Vw, (proj2 T1) in Vr.
      repeat split; auto; try lra; try apply Rn1; rewrite ?Vr, ?plus_IZR; lra.
    + assert (T1 := ofZ_val f (-1) ltac:(cbn; lia)).
      exists (n + -1)%Z, (x -. w -. ofZ f (-1)).
      assert (Rn1 : in_range I64 (n + -1)) by (split; cbn; lia).
      rewrite (Tr (w +. ofZ f (-1)) (n + -1)%Z); auto; [|apply fadd_int; auto; [split; auto|lia]].
      assert (G2 : generic_format radix2 (fexpf f) (B2R (x -. w) - B2R (ofZ f (-1)))).
      { rewrite Vs, Vw, (proj2 T1). replace (B2R x - IZR n - -1) with (B2R x - IZR (n + -1)) by (rewrite plus_IZR; ring).
        apply frac_exact; auto. rewrite plus_IZR. apply Rabs_le; lra. }
      destruct (fsub_exact (x -. w) (ofZ f (-1)) Fs (proj1 T1) G2) as [Vr Fr].
      { rewrite Vs, Vw, (proj2 T1). pose proof (emax_big f). apply Rabs_lt. lra. }
      rewrite Vs, Vw, (proj2 T1) in Vr.
      repeat split; auto; try lra; try apply Rn1; rewrite ?Vr, ?plus_IZR; lra.
  - exists n, (x -. w). rewrite (Tr w n); [|split; auto|split; cbn; lia].
    repeat split; auto; try (cbn; lia); rewrite ?Vs, ?Vw; try lra.
Qed.

(** ** exp is total up to 2^63 - 1, undefined beyond 2^63 *)
Lemma exp_split_ok v {f} (x : flt f) : finite x = true -> 1 <= Rabs (B2R x) <= IZR (2 ^ 63 - 1) -> ok (exp_split v x).
Proof.
  intros Fx X. destruct (whole_frac x Fx X) as (n & r & En & Er & _ & _ & Rn & _).
  unfold exp_split. rewrite En. cbn [bind]. destruct (pow_integral_ok I64 GCEM_E n Rn) as [p ->]. cbn [bind].
  rewrite Er. cbn [bind]. apply ok_Ok.
Qed.
Lemma two_val f : has_val (ofZ f 2) 2.
Proof. split; [apply ofZ_fin; lia|apply ofZ_B2R; lia]. Qed.
Lemma exp_ok v {f} (x : flt f) : (finite x = true -> Rabs (B2R x) <= IZR (2 ^ 63 - 1)) -> ok (exp_check v x).
Proof.
  intros H. unfold exp_check.
  destruct (is_nan x) eqn:N; [apply ok_Ok|]. destruct (is_neginf x) eqn:NI; [apply ok_Ok|].
  destruct (abs x <. fmin f); [apply ok_Ok|]. destruct (is_posinf x) eqn:I; [apply ok_Ok|].
  destruct (abs x <. ofZ f 2) eqn:L; [apply ok_Ok|].
  assert (Fx : finite x = true).
  { rewrite is_posinf_spec in I. rewrite is_neginf_spec in NI. rewrite is_nan_spec in N.
    destruct x as [|[]| |]; auto; discriminate. }
  apply flt_false_inv in L; [|rewrite abs_finite; auto|apply two_val].
  rewrite abs_B2R, (proj2 (two_val f)) in L.
  apply exp_split_ok; auto. split; [lra|auto].
Qed.
Lemma Btrunc_Z {f} (x : flt f) : Btrunc x = Ztrunc (B2R x).
Proof.
  rewrite <- (Ztrunc_IZR (Btrunc x)). apply eq_IZR. rewrite Ztrunc_IZR. rewrite Btrunc_correct by auto with typeclass_instances.
  rewrite round_FIX_IZR. reflexivity.
Qed.
Lemma find_whole_big {f} (x : flt f) : finite x = true -> (IZR (2 ^ 63) <= B2R x \/ B2R x < - IZR (2 ^ 63)) ->
  find_whole x = Ub UbCast.
Proof.
  intros Fx H. assert (B : IZR (2 ^ 63) <= Rabs (B2R x)).
  { unfold Rabs. destruct (Rcase_abs _); destruct H; lra. }
  assert (I := big_is_int x). assert (PW : bpow radix2 (prec f - 1) <= IZR (2 ^ 63)).
  { pose proof (pow_prec f). pose proof (prec_pos f). rewrite bpow_IZR by lia. apply IZR_le. lia. }
  specialize (I ltac:(lra)). set (n := Ztrunc (B2R x)) in * .
  assert (V : has_val x (IZR n)) by (split; auto).
  unfold find_whole. rewrite (floor_id x n V). cbn [bind].
  assert (E0 : has_val (x -. x) 0).
  { destruct (fsub_exact x x Fx Fx) as [A C]; rewrite ?Rminus_eq_0, ?Rabs_R0; try apply bpow_gt_0.
    apply generic_format_0. split; auto. rewrite A. ring. }
  rewrite half_le by (rewrite abs_finite; apply E0). rewrite abs_B2R, (proj2 E0), Rabs_R0.
  rewrite Rle_bool_false by lra.
  unfold fcast. change (BinarySingleNaN.is_finite x) with (finite x). rewrite Fx.
  rewrite (Btrunc_Z x). fold n.
  replace (in_rangeb I64 n) with false; auto. symmetry. apply not_true_is_false. rewrite in_rangeb_spec.
  intros [A C]. apply IZR_le in A, C. rewrite <- I in A, C. change (IZR (imin I64)) with (- IZR (2 ^ 63)) in A.
  change (imax I64) with (2 ^ 63 - 1)%Z in C. rewrite minus_IZR in C. destruct H; lra.
Qed.
Lemma exp_ub v {f} (x : flt f) : finite x = true -> (IZR (2 ^ 63) <= B2R x \/ B2R x < - IZR (2 ^ 63)) ->
  exp_check v x = Ub UbCast.
Proof.
  intros Fx H. unfold exp_check. rewrite finite_not_nan, finite_not_neginf, finite_not_posinf by auto.
  assert (B : IZR (2 ^ 63) <= Rabs (B2R x)).
  { unfold Rabs. destruct (Rcase_abs _); destruct H; lra. }
  change (IZR (2 ^ 63)) with 9223372036854775808 in B.
  rewrite below_min by auto. rewrite Rlt_bool_false. 2: { pose proof (fmin_small f). lra. }
  rewrite flt_false; [|rewrite abs_finite; auto|apply two_val|rewrite abs_B2R, (proj2 (two_val f)); lra].
  unfold exp_split. rewrite find_whole_big; auto.
Qed.
