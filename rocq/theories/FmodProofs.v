(** * fmod on integer-valued operands *)
From Coq Require Import Lra Psatz.
From Flocq Require Import Relative.
From Verif Require Import Base ModelBasic FltLemmas Spec IntProofs BasicProofs.
Open Scope R_scope.

(** Sharp relative error of rounding to nearest. *)
Lemma rnd_rel_sharp f x : bpow radix2 (2 - emax f) <= Rabs x ->
  exists e, Rabs e <= bpow radix2 (- prec f) / (1 + bpow radix2 (- prec f)) /\ rnd f x = x * (1 + e).
Proof.
  intros H. unfold rnd.
  destruct (relative_error_N_FLX'_ex radix2 (prec f) (prec_pos f) (fun x => negb (Z.even x)) x) as (e & He & E).
  exists e. split.
  - eapply Rle_trans; [exact He|]. unfold u_ro. right.
    replace (/ 2 * bpow radix2 (- prec f + 1)) with (bpow radix2 (- prec f)); auto.
    change (/ 2) with (bpow radix2 (-1)). rewrite <- bpow_plus. f_equal. lia.
  - rewrite <- E. change (fexpf f) with (FLT_exp (emin f) (prec f)).
    unfold ZnearestE. apply round_FLT_FLX. 
    replace (emin f + prec f - 1)%Z with (2 - emax f)%Z by (unfold emin; lia). auto.
Qed.

Lemma quot_floor f A B : (0 <= A < 2 ^ prec f)%Z -> (0 < B < 2 ^ prec f)%Z ->
  IZR (A / B) <= rnd f (IZR A / IZR B) < IZR (A / B) + 1.
Proof.
  intros HA HB. set (k := (A / B)%Z). pose proof (Z.div_mod A B ltac:(lia)) as D.
  pose proof (Z.mod_pos_bound A B ltac:(lia)) as M. fold k in D.
  assert (K0 : (0 <= k)%Z) by (apply Z.div_pos; lia).
  assert (B0 : 0 < IZR B) by (apply IZR_lt; lia).
  split.
  - apply rnd_ge_fmt.
    + apply fmt_IZR. nia.
    + apply Rmult_le_reg_r with (IZR B); auto. unfold Rdiv. rewrite Rmult_assoc, Rinv_l, Rmult_1_r by lra.
      rewrite <- mult_IZR. apply IZR_le. lia.
  - destruct (Z.eq_dec A 0) as [E|E].
    { rewrite E. unfold Rdiv. rewrite Rmult_0_l, rnd_0. assert (0 <= IZR k) by (apply IZR_le; auto). lra. }
    set (u := bpow radix2 (- prec f)). assert (u0 : 0 < u) by apply bpow_gt_0.
    assert (uP : u * IZR (2 ^ prec f) = 1).
    { rewrite <- bpow_IZR by (pose proof (prec_pos f); lia). unfold u. rewrite <- bpow_plus.
      replace (- prec f + prec f)%Z with 0%Z by ring. reflexivity. }
    assert (u1 : u < 1). { unfold u. change 1 with (bpow radix2 0). apply bpow_lt. pose proof (prec_pos f). lia. }
    assert (A1 : 1 <= IZR A) by (apply IZR_le; lia).
    assert (q0 : 0 < IZR A / IZR B) by (apply Rdiv_lt_0_compat; lra).
    destruct (rnd_rel_sharp f (IZR A / IZR B)) as (e & He & ->).
    { rewrite Rabs_pos_eq by lra. apply Rle_trans with u.
      - unfold u. apply bpow_le. destruct f; simpl; lia.
      - apply Rmult_le_reg_r with (IZR B); auto. unfold Rdiv. rewrite Rmult_assoc, Rinv_l, Rmult_1_r by lra.
        assert (IZR B <= IZR (2 ^ prec f)) by (apply IZR_le; lia). nra. }
    fold u in He.
    (* A/B <= K (1-u) *)
    assert (Q : IZR A / IZR B <= (IZR k + 1) * (1 - u)).
    { apply Rmult_le_reg_r with (IZR B); auto. unfold Rdiv. rewrite Rmult_assoc, Rinv_l, Rmult_1_r by lra.
      assert (H1 : IZR A + 1 <= (IZR k + 1) * IZR B).
      { rewrite <- !plus_IZR, <- mult_IZR. apply IZR_le. nia. }
      assert (H2 : u * (IZR A + 1) <= 1).
      { apply Rle_trans with (u * IZR (2 ^ prec f)); [|lra]. apply Rmult_le_compat_l; [lra|]. rewrite <- plus_IZR. apply IZR_le. lia. }
      set (X := (IZR k + 1) * IZR B) in * . replace ((IZR k + 1) * (1 - u) * IZR B) with (X * (1 - u)) by (unfold X; ring).
      assert (X * (1 - u) >= (IZR A + 1) * (1 - u)) by nra. nra. }
    assert (He' : 1 + e <= (1 + 2 * u) / (1 + u)).
    { apply Rle_trans with (1 + u / (1 + u)).
      - pose proof (Rle_abs e). lra.
      - right. field. lra. }
    apply Rle_lt_trans with ((IZR k + 1) * (1 - u) * ((1 + 2 * u) / (1 + u))).
    + apply Rle_trans with ((IZR A / IZR B) * ((1 + 2 * u) / (1 + u))).
      * apply Rmult_le_compat_l; lra.
      * apply Rmult_le_compat_r; auto. apply Rlt_le, Rdiv_lt_0_compat; lra.
    + assert (K1 : 0 <= IZR k) by (apply IZR_le; auto).
      replace ((IZR k + 1) * (1 - u) * ((1 + 2 * u) / (1 + u))) with ((IZR k + 1) * (((1 - u) * (1 + 2 * u)) / (1 + u))) by (field; lra).
      rewrite <- (Rmult_1_r (IZR k + 1)) at 2. apply Rmult_lt_compat_l; [lra|].
      apply Rmult_lt_reg_r with (1 + u); [lra|]. unfold Rdiv. rewrite Rmult_assoc, Rinv_l by lra. nra.
Qed.

Lemma Ztrunc_rnd_quot f a b : (Z.abs a < 2 ^ prec f)%Z -> (Z.abs b < 2 ^ prec f)%Z -> b <> 0%Z ->
  Ztrunc (rnd f (IZR a / IZR b)) = Z.quot a b.
Proof.
  intros Ha Hb B0.
  destruct (quot_floor f (Z.abs a) (Z.abs b)) as (L & U); [lia|lia|].
  assert (P : forall s : bool, (s = true -> 0 <= a * b)%Z -> (s = false -> a * b <= 0)%Z ->
     IZR a / IZR b = (if s then IZR (Z.abs a) / IZR (Z.abs b) else - (IZR (Z.abs a) / IZR (Z.abs b))) /\
     Z.quot a b = (if s then Z.abs a / Z.abs b else - (Z.abs a / Z.abs b))%Z).
  { intros s Hs1 Hs2. assert (bb : IZR b <> 0) by (apply IZR_neq; auto).
    destruct (Z_le_gt_dec 0 a), (Z_le_gt_dec 0 b); destruct s; specialize (Hs1) || idtac;
    try (specialize (Hs1 eq_refl)); try (specialize (Hs2 eq_refl));
    rewrite ?(Z.abs_eq a), ?(Z.abs_eq b), ?(Z.abs_neq a), ?(Z.abs_neq b) by lia; rewrite ?opp_IZR;
    try (assert (a = 0%Z) by nia; subst a); split;
    try (field; auto); try (rewrite <- Z.quot_div_nonneg by lia); rewrite ?Z.quot_opp_l, ?Z.quot_opp_r, ?Z.quot_0_l by lia; try lia. }
  destruct (Z_le_gt_dec 0 (a * b)) as [S|S].
  - destruct (P true) as (-> & ->); try (intros; lia); try discriminate.
    rewrite Ztrunc_floor. { apply Zfloor_imp. rewrite plus_IZR. auto. }
    apply Rle_trans with (2 := L). apply IZR_le. apply Z.div_pos; lia.
  - destruct (P false) as (-> & ->); try (intros; lia); try discriminate.
    rewrite rnd_opp, Ztrunc_opp. f_equal. rewrite Ztrunc_floor. { apply Zfloor_imp. rewrite plus_IZR. auto. }
    apply Rle_trans with (2 := L). apply IZR_le. apply Z.div_pos; lia.
Qed.

Lemma is_trunc_Ztrunc x n : is_trunc x n -> n = Ztrunc x.
Proof.
  intros (A & B & C). apply Rabs_lt_inv in A. destruct (Rle_or_lt 0 x) as [H|H].
  - rewrite Ztrunc_floor by auto. symmetry. apply Zfloor_imp. rewrite plus_IZR. rewrite (Rabs_pos_eq x) in B by auto.
    pose proof (Rle_abs (IZR n)). lra.
  - rewrite Ztrunc_ceil by lra. symmetry. apply Zceil_imp. rewrite minus_IZR. rewrite (Rabs_left x) in B by auto.
    pose proof (Rle_abs (- IZR n)) as Q. rewrite Rabs_Ropp in Q. lra.
Qed.

Lemma fmod_int {f} (x y : flt f) a b : has_val x (IZR a) -> has_val y (IZR b) ->
  (Z.abs a < 2 ^ prec f)%Z -> (Z.abs b < 2 ^ prec f)%Z -> b <> 0%Z ->
  exists w, fmod_check x y = Ok w /\ has_val w (IZR (Z.rem a b)).
Proof.
  intros (Fx & Vx) (Fy & Vy) Ha Hb B0. unfold fmod_check, any_nan, all_finite.
  rewrite !finite_not_nan, !is_finite_spec, Fx, Fy by auto. cbn [orb andb negb].
  pose proof (prec_pos f) as PP.
  assert (bb : 1 <= Rabs (IZR b)) by (rewrite <- abs_IZR; apply IZR_le; lia).
  assert (Q : Rabs (IZR a / IZR b) <= bpow radix2 (prec f)).
  { unfold Rdiv. rewrite Rabs_mult, Rabs_inv. apply Rle_trans with (Rabs (IZR a) * 1).
    - apply Rmult_le_compat_l; [apply Rabs_pos|]. rewrite <- Rinv_1. apply Rinv_le; lra.
    - rewrite Rmult_1_r, <- abs_IZR, bpow_IZR by lia. apply IZR_le. lia. }
  destruct (fdiv_spec x y) as (A & B); auto; rewrite ?Vx, ?Vy.
  { apply IZR_neq; auto. }
  { apply rnd_lt_emax_bpow with (prec f); auto. destruct f; unfold emin; simpl; lia. }
  rewrite Vx, Vy in A.
  destruct (trunc_ok (x /. y)) as (t & n & T & Vt & I).
  { split; auto. rewrite A. destruct (Z.eq_dec a 0) as [->|Na].
    - left. unfold Rdiv. rewrite Rmult_0_l. apply rnd_0.
    - right. rewrite rnd_abs. apply rnd_ge_fmt.
      + apply fmt_bpow. destruct f; unfold emin; simpl; lia.
      + unfold Rdiv. rewrite Rabs_mult, Rabs_inv.
        assert (1 <= Rabs (IZR a)) by (rewrite <- abs_IZR; apply IZR_le; lia).
        apply Rle_trans with (bpow radix2 (- prec f)). { apply bpow_le. destruct f; simpl; lia. }
        rewrite bpow_opp. apply Rle_trans with (1 * / Rabs (IZR b)); [|apply Rmult_le_compat_r; auto; apply Rlt_le, Rinv_0_lt_compat; lra].
        rewrite Rmult_1_l. apply Rinv_le; [lra|]. rewrite bpow_IZR, <- abs_IZR by lia. apply IZR_le. lia. }
  rewrite T. cbn [bind]. eexists. split; [reflexivity|].
  apply is_trunc_Ztrunc in I. rewrite A, Ztrunc_rnd_quot in I by auto. subst n.
  assert (AB : (Z.abs (Z.quot a b * b) <= Z.abs a)%Z).
  { pose proof (Z.quot_rem a b B0) as E. pose proof (Z.rem_bound_abs a b B0).
    pose proof (Z.mul_quot_le (Z.abs a) (Z.abs b) ltac:(lia) ltac:(lia)).
    rewrite Z.abs_mul, <- Z.quot_abs by auto. lia. }
  replace (Z.rem a b) with (a - Z.quot a b * b)%Z by (rewrite Z.rem_eq by auto; ring).
  apply fsub_int; [split; auto| |].
  - apply fmul_int; [auto|split; auto|]. lia.
  - pose proof (Z.rem_eq a b B0). assert (E : (a - Z.quot a b * b = Z.rem a b)%Z) by (rewrite H; ring). rewrite E.
    pose proof (Z.rem_bound_abs a b B0). lia.
Qed.

From Verif Require Import ModelInt ModelElem ModelApi ConvLemmas.
Lemma api_fmod_int f (x y : flt f) a b : has_val x (IZR a) -> has_val y (IZR b) ->
  (Z.abs a < 2 ^ prec f)%Z -> (Z.abs b < 2 ^ prec f)%Z -> b <> 0%Z ->
  exists w, gcem_fmod (AFlt f x) (AFlt f y) = Ok w /\ has_val w (IZR (Z.rem a b)).
Proof.
  intros. destruct (fmod_int x y a b) as (w & E & V); auto. unfold gcem_fmod, lift2.
  assert (C : forall g (z : flt g), conv g z = z) by (intros; apply conv_id).
  destruct f; cbn [cr_fmt fmt_max to_fmt] in * ; exists w; rewrite !C; auto.
Qed.
Lemma api_fmod_big : exists x y w : flt F64, gcem_fmod (AFlt F64 x) (AFlt F64 y) = Ok w /\
  finite x = true /\ finite y = true /\ B2R y <> 0 /\ Rabs (B2R y) <= Rabs (B2R w).
Proof.
  exists (ofZ F64 549525271622064704), (ofZ F64 3), (ofZ F64 64).
  assert (E : gcem_fmod (AFlt F64 (ofZ F64 549525271622064704)) (AFlt F64 (ofZ F64 3)) = Ok (ofZ F64 64)).
  { apply (@ok_sf F64). vm_compute. reflexivity. }
  rewrite E. rewrite !ofZ_B2R by (simpl; lia). rewrite !(proj1 (proj2 (ofZ_small F64 3 ltac:(simpl; lia)))).
  split; auto. split; [vm_compute; reflexivity|]. split; auto. split; [lra|].
  rewrite !Rabs_pos_eq; lra.
Qed.
