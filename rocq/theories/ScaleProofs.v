(** * Scaling recursions: mantissa, find_exponent, sqrt_simplify, pow_recur *)
From Coq Require Import Lra Psatz.
From Verif Require Import Base ModelBasic ModelInt ModelElem FltLemmas ConvLemmas Spec IntProofs BasicProofs.
Open Scope R_scope.

(** ** Values of literals *)
Lemma B2R_SF {f} (x : flt f) s m e : B2SF x = SpecFloat.S754_finite s m e ->
  B2R x = F2R (Float radix2 (cond_Zopp s (Zpos m)) e) /\ finite x = true.
Proof. destruct x; cbn; intros H; inversion H; subst; split; reflexivity. Qed.
Lemma F2R_neg m p : F2R (Float radix2 m (Zneg p)) = IZR m / IZR (2 ^ Zpos p).
Proof. unfold F2R. cbn [Fnum Fexp]. change (bpow radix2 (Zneg p)) with (/ IZR (2 ^ Zpos p)). reflexivity. Qed.
Lemma F2R_pos m p : F2R (Float radix2 m (Zpos p)) = IZR (m * 2 ^ Zpos p).
Proof. unfold F2R. cbn [Fnum Fexp]. rewrite mult_IZR. reflexivity. Qed.
Lemma F2R_zero m : F2R (Float radix2 m 0) = IZR m.
Proof. unfold F2R. cbn. ring. Qed.
(** [fval x] asserts the exact value of a closed floating-point term and its
    finiteness. *)
Ltac fval x :=
  let v := eval vm_compute in (B2SF x) in
  match v with
  | SpecFloat.S754_finite ?s ?m ?e =>
      let V := fresh "V" in let F := fresh "F" in
      assert (V : B2SF x = v) by (vm_compute; reflexivity);
      destruct (B2R_SF x s m e V) as [? F]; clear V;
      match goal with H : B2R x = _ |- _ =>
        cbn [cond_Zopp] in H; rewrite ?F2R_neg, ?F2R_pos, ?F2R_zero in H;
        match type of H with
        | _ = IZR ?a / IZR ?b => let b' := eval vm_compute in b in change (IZR b) with (IZR b') in H
        | _ = IZR ?a => let a' := eval vm_compute in a in change (IZR a) with (IZR a') in H
        end end
  end.

Lemma lit_bounds f :
  (9/10000 <= B2R (dlit f 1 3) <= 1/999) /\ finite (dlit f 1 3) = true /\
  (99/1000 <= B2R (dlit f 1 1) <= 1001/10000) /\ finite (dlit f 1 1) = true.
Proof. destruct f; [fval (dlit F32 1 3); fval (dlit F32 1 1)|fval (dlit F64 1 3); fval (dlit F64 1 1)|fval (dlit F80 1 3); fval (dlit F80 1 1)];
  rewrite H, H0; repeat split; auto; lra. Qed.
Lemma lit_ints f :
  has_val (dlit f 100 0) 100 /\ has_val (dlit f 10000 0) 10000 /\ has_val (dlit f 1000000 0) 1000000 /\
  has_val (dlit f 100000000 0) 100000000 /\ has_val (dlit f 1000 0) 1000.
Proof.
  destruct f; 
  [fval (dlit F32 100 0); fval (dlit F32 10000 0); fval (dlit F32 1000000 0); fval (dlit F32 100000000 0); fval (dlit F32 1000 0)
  |fval (dlit F64 100 0); fval (dlit F64 10000 0); fval (dlit F64 1000000 0); fval (dlit F64 100000000 0); fval (dlit F64 1000 0)
  |fval (dlit F80 100 0); fval (dlit F80 10000 0); fval (dlit F80 1000000 0); fval (dlit F80 100000000 0); fval (dlit F80 1000 0)];
  unfold has_val; rewrite H, H0, H1, H2, H3; repeat split; auto; lra.
Qed.

(** Relative error at most 2^-24 in every format. *)
Lemma prec24 f : bpow radix2 (- prec f) <= / 16777216.
Proof. replace (/ 16777216) with (bpow radix2 (-24)) by reflexivity. apply bpow_le. destruct f; cbn; lia. Qed.
Lemma fmin_le_1 f e : (2 - emax f <= e)%Z -> bpow radix2 (2 - emax f) <= bpow radix2 e.
Proof. intros. apply bpow_le. auto. Qed.
Lemma fmin_small f : bpow radix2 (2 - emax f) <= / 16777216.
Proof. replace (/ 16777216) with (bpow radix2 (-24)) by reflexivity. apply bpow_le. destruct f; cbn; lia. Qed.
Lemma emax_big f : 16777216 * 16777216 <= bpow radix2 (emax f).
Proof. replace (16777216 * 16777216) with (bpow radix2 48) by (cbn; lra). apply bpow_le. destruct f; cbn; lia. Qed.
Lemma rnd_bounds f x : bpow radix2 (2 - emax f) <= x ->
  x * (1 - bpow radix2 (- prec f)) <= rnd f x <= x * (1 + bpow radix2 (- prec f)).
Proof.
  intros H. assert (P := bpow_gt_0 radix2 (2 - emax f)).
  destruct (rnd_rel f x) as (e & E & ->). rewrite Rabs_pos_eq; lra.
  apply Rabs_le_inv in E. nra.
Qed.

Lemma in_range_i64 z : (- 2 ^ 63 <= z <= 2 ^ 63 - 1)%Z -> in_range I64 z.
Proof. intros H. exact H. Qed.

(** ** mantissa and find_exponent for x >= 1 *)
Lemma div_ten {f} (x t : flt f) r : finite x = true -> has_val t r -> 1 <= r -> r <= B2R x ->
  finite (x /. t) = true /\ 1 <= B2R (x /. t) /\
  B2R x / r * (1 - bpow radix2 (- prec f)) <= B2R (x /. t) <= B2R x / r * (1 + bpow radix2 (- prec f)).
Proof.
  intros Hx (Ht & Vt) Hr Hrx.
  assert (Q1 : 1 <= B2R x / r). { apply Rmult_le_reg_r with r; [lra|]. unfold Rdiv. rewrite Rmult_assoc, Rinv_l; lra. }
  assert (Qx : B2R x / r <= B2R x). { apply Rmult_le_reg_r with r; [lra|]. unfold Rdiv. rewrite Rmult_assoc, Rinv_l by lra. nra. }
  destruct (fdiv_spec x t Hx) as [V F]; [rewrite Vt; lra| |].
  { rewrite Vt. apply rnd_lt_emax with (B2R x); [apply fmt_format| |rewrite Rabs_pos_eq; lra].
    apply Rle_lt_trans with (Rabs (B2R x)); [apply Rle_abs|apply B2R_lt_emax]. }
  rewrite Vt in V. rewrite V. split; [auto|split].
  - replace 1 with (IZR 1) by reflexivity. apply rnd_ge_fmt; [apply fmt_IZR; pose proof (pow_prec f); lia|exact Q1].
  - apply rnd_bounds. pose proof (fmin_small f). lra.
Qed.

Definition cst : R := 999/100.
Lemma mantissa_S {f} n (x : flt f) : mantissa (S n) x =
  if x <. ofZ f 1 then mantissa n (x *. ofZ f 10) else if x >. ofZ f 10 then mantissa n (x /. ofZ f 10) else Ok x.
Proof. reflexivity. Qed.
Lemma find_exponent_S {f} n (x : flt f) e : find_exponent (S n) x e =
  if x <. dlit f 1 3 then let* e := isub I64 e 4 in find_exponent n (x *. dlit f 10000 0) e
  else if x <. dlit f 1 1 then let* e := isub I64 e 2 in find_exponent n (x *. dlit f 100 0) e
  else if x <. ofZ f 1 then let* e := isub I64 e 1 in find_exponent n (x *. ofZ f 10) e
  else if x >. ofZ f 10 then let* e := iadd I64 e 1 in find_exponent n (x /. ofZ f 10) e
  else if x >. dlit f 100 0 then let* e := iadd I64 e 2 in find_exponent n (x /. dlit f 100 0) e
  else if x >. dlit f 10000 0 then let* e := iadd I64 e 4 in find_exponent n (x /. dlit f 10000 0) e
  else Ok e.
Proof. reflexivity. Qed.

(** From x >= 1 both recursions divide by ten [k] times. *)
Lemma scale_down {f} n : forall (x : flt f), finite x = true -> 1 <= B2R x -> B2R x <= 10 * cst ^ n ->
  exists k m, (k <= n)%nat /\ mantissa (S n) x = Ok m /\
    (forall e, (Z.abs e <= 2 ^ 62)%Z -> find_exponent (S n) x e = Ok (e + Z.of_nat k)%Z \/ (2 ^ 62 < e + Z.of_nat k)%Z) /\
    finite m = true /\ 1 <= B2R m <= 10 /\
    B2R x / 10 ^ k * (1 - bpow radix2 (- prec f)) ^ k <= B2R m <= B2R x / 10 ^ k * (1 + bpow radix2 (- prec f)) ^ k.
Proof.
  induction n as [|n IH]; intros x Fx X1 Xn;
  assert (D1 : (x <. ofZ f 1) = false) by (apply flt_false; auto; [apply ofZ_fin; lia|rewrite ofZ_B2R by lia; auto]);
  destruct (lit_bounds f) as ((L1 & L2) & Lf & (M1 & M2) & Mf);
  assert (D2 : (x <. dlit f 1 3) = false) by (apply flt_false; auto; lra);
  assert (D3 : (x <. dlit f 1 1) = false) by (apply flt_false; auto; lra);
  destruct (lit_ints f) as ((H100 & V100) & (H10000 & V10000) & _);
  assert (T10 : has_val (ofZ f 10) 10) by (split; [apply ofZ_fin; lia|apply ofZ_B2R; lia]).
  - exists O, x. assert (D4 : (ofZ f 10 <. x) = false).
    { apply flt_false; auto. apply T10. destruct T10 as [_ ->]. lra. }
    assert (D5 : (dlit f 100 0 <. x) = false) by (apply flt_false; auto; rewrite V100; lra).
    assert (D6 : (dlit f 10000 0 <. x) = false) by (apply flt_false; auto; rewrite V10000; lra).
    split; [lia|]. rewrite mantissa_S, D1, D4. split; [auto|]. split.
    { intros e He. left. rewrite find_exponent_S, D2, D3, D1, D4, D5, D6. f_equal. lia. }
    cbn in Xn |- * . repeat split; auto; lra.
  - destruct (ofZ f 10 <. x) eqn:D4.
    + apply flt_true_inv in D4; auto; [|apply T10]. rewrite (proj2 T10) in D4.
      destruct (div_ten x (ofZ f 10) 10 Fx T10) as (Fq & Q1 & Qb); try lra.
      assert (U := prec24 f). assert (U0 := bpow_gt_0 radix2 (- prec f)).
      destruct (IH (x /. ofZ f 10)) as (k & m & Hk & Hm & He & Fm & Mb & Er); auto.
      { assert (C0 : 0 < cst ^ n) by (apply pow_lt; unfold cst; lra). cbn [pow] in Xn. unfold cst in Xn at 1. nra. }
      exists (S k), m. split; [lia|].
      assert (D4' : (ofZ f 10 <. x) = true) by (apply flt_true; auto; [apply T10|rewrite (proj2 T10); auto]).
      rewrite mantissa_S, D1, D4'. split; [auto|]. split.
      { intros e Ee. rewrite find_exponent_S, D2, D3, D1, D4'.
        assert (I1 : iadd I64 e 1 = Ok (e + 1)%Z).
        { apply iarith_ok. apply in_range_i64. lia. }
        rewrite I1. cbn [bind].
        destruct (Z_le_gt_dec (e + 1) (2 ^ 62)) as [Hle|Hgt].
        - destruct (He (e + 1)%Z) as [->|G]; [lia|left; f_equal; lia|right; lia].
        - right. lia. }
      repeat split; auto; try lra.
      * assert (P10 : 0 < 10 ^ k) by (apply pow_lt; lra).
        assert (P1 : 0 < (1 - bpow radix2 (- prec f)) ^ k) by (apply pow_lt; lra).
        eapply Rle_trans; [|apply Er]. 
        apply Rle_trans with ((B2R x / 10 * (1 - bpow radix2 (- prec f))) * (/ 10 ^ k * (1 - bpow radix2 (- prec f)) ^ k)).
        { cbn [pow]. right. field. lra. }
        unfold Rdiv at 2. rewrite (Rmult_assoc (B2R (x /. ofZ f 10))). apply Rmult_le_compat_r; [|apply Qb].
        apply Rmult_le_pos; [left; apply Rinv_0_lt_compat|]; lra.
      * assert (P10 : 0 < 10 ^ k) by (apply pow_lt; lra).
        assert (P1 : 0 < (1 + bpow radix2 (- prec f)) ^ k) by (apply pow_lt; lra).
        eapply Rle_trans; [apply Er|].
        apply Rle_trans with ((B2R x / 10 * (1 + bpow radix2 (- prec f))) * (/ 10 ^ k * (1 + bpow radix2 (- prec f)) ^ k)).
        2:{ cbn [pow]. right. field. lra. }
        unfold Rdiv at 1. rewrite (Rmult_assoc (B2R (x /. ofZ f 10))). apply Rmult_le_compat_r; [|apply Qb].
        apply Rmult_le_pos; [left; apply Rinv_0_lt_compat|]; lra.
    + assert (D4' := D4). apply flt_false_inv in D4; auto; [|apply T10]. rewrite (proj2 T10) in D4.
      exists O, x.
      assert (D5 : (dlit f 100 0 <. x) = false) by (apply flt_false; auto; rewrite V100; lra).
      assert (D6 : (dlit f 10000 0 <. x) = false) by (apply flt_false; auto; rewrite V10000; lra).
      split; [lia|]. rewrite mantissa_S, D1, D4'. split; [auto|]. split.
      { intros e He. left. rewrite find_exponent_S, D2, D3, D1, D4', D5, D6. f_equal. lia. }
      cbn. repeat split; auto; lra.
Qed.

(** ** mantissa and find_exponent for x < 1 *)
Lemma mul_up {f} (x t : flt f) r : finite x = true -> has_val t r -> 10 <= r <= 10000 ->
  bpow radix2 (2 - emax f) <= B2R x -> B2R x * r <= 10 * (1 + / 100) ->
  finite (x *. t) = true /\ B2R x * (r * (1 - / 16777216)) <= B2R (x *. t) /\
  (B2R x * r <= 10 -> B2R (x *. t) <= 10) /\ B2R (x *. t) <= 102/10.
Proof.
  intros Fx (Ft & Vt) Hr Hx Hxr. assert (P := bpow_gt_0 radix2 (2 - emax f)).
  destruct (fmul_spec x t Fx Ft) as [V F].
  { rewrite Vt. apply rnd_lt_emax_bpow with 4%Z. destruct f; cbn; lia.
    rewrite Rabs_pos_eq by nra. change (bpow radix2 4) with 16. lra. }
  rewrite Vt in V. rewrite V. repeat split; auto.
  - assert (B := rnd_bounds f (B2R x * r)). assert (U := prec24 f). assert (U0 := bpow_gt_0 radix2 (- prec f)).
    eapply Rle_trans; [|apply B; nra]. rewrite <- Rmult_assoc. apply Rmult_le_compat_l; [nra|lra].
  - intros. replace 10 with (IZR 10) by reflexivity. apply rnd_le_fmt; auto.
    apply fmt_IZR; pose proof (pow_prec f); lia.
  - assert (B := rnd_bounds f (B2R x * r)). assert (U := prec24 f). assert (U0 := bpow_gt_0 radix2 (- prec f)).
    eapply Rle_trans; [apply B; nra|]. nra.
Qed.
Lemma mantissa_up {f} n : forall (x : flt f), finite x = true -> bpow radix2 (2 - emax f) <= B2R x <= 10 ->
  1 <= B2R x * cst ^ n -> exists m, mantissa (S n) x = Ok m /\ finite m = true /\ 1 <= B2R m <= 10.
Proof.
  induction n as [|n IH]; intros x Fx Hx Xn;
  assert (P := bpow_gt_0 radix2 (2 - emax f));
  assert (T10 : has_val (ofZ f 10) 10) by (split; [apply ofZ_fin; lia|apply ofZ_B2R; lia]);
  assert (D4 : (ofZ f 10 <. x) = false) by (apply flt_false; auto; [apply T10|rewrite (proj2 T10); lra]);
  assert (T1 : has_val (ofZ f 1) 1) by (split; [apply ofZ_fin; lia|apply ofZ_B2R; lia]);
  rewrite mantissa_S, D4; destruct (x <. ofZ f 1) eqn:D1.
  - apply flt_true_inv in D1; auto; [|apply T1]. rewrite (proj2 T1) in D1. cbn in Xn. lra.
  - apply flt_false_inv in D1; auto; [|apply T1]. rewrite (proj2 T1) in D1. exists x. repeat split; auto; lra.
  - apply flt_true_inv in D1; auto; [|apply T1]. rewrite (proj2 T1) in D1.
    destruct (mul_up x (ofZ f 10) 10 Fx T10) as (Fm & Lo & Hi & Hi2); try lra.
    apply IH; auto. split; [nra|apply Hi; lra].
    assert (C0 : 0 < cst ^ n) by (apply pow_lt; unfold cst; lra). cbn [pow] in Xn. unfold cst in Xn at 1.
    assert (B2R x * (999 / 100) <= B2R (x *. ofZ f 10)) by nra. nra.
  - apply flt_false_inv in D1; auto; [|apply T1]. rewrite (proj2 T1) in D1. exists x. repeat split; auto; lra.
Qed.
(** Slightly above ten: one division is left (the literals 0.001 and 0.1 are
    doubles, above the decimal numbers they stand for). *)
Lemma find_exponent_end {f} n (x : flt f) e : finite x = true -> 1 <= B2R x <= 102/10 -> (Z.abs e < 2 ^ 63 - 1)%Z ->
  exists e', find_exponent (S (S n)) x e = Ok e' /\ (e <= e' <= e + 1)%Z.
Proof.
  intros Fx Hx He.
  assert (T10 : has_val (ofZ f 10) 10) by (split; [apply ofZ_fin; lia|apply ofZ_B2R; lia]).
  assert (T1 : has_val (ofZ f 1) 1) by (split; [apply ofZ_fin; lia|apply ofZ_B2R; lia]).
  destruct (lit_bounds f) as ((L1 & L2) & Lf & (M1 & M2) & Mf).
  destruct (lit_ints f) as ((H100 & V100) & (H10000 & V10000) & _).
  assert (G : forall n (y : flt f) e', finite y = true -> 1 <= B2R y <= 10 -> find_exponent (S n) y e' = Ok e').
  { intros n' y e' Fy Hy. rewrite find_exponent_S.
    rewrite !flt_false; auto; try apply T1; try apply T10; rewrite ?V100, ?V10000, ?(proj2 T1), ?(proj2 T10); lra. }
  destruct (Rle_dec (B2R x) 10).
  - exists e. rewrite G; auto. split; auto. lia. lra.
  - exists (e + 1)%Z. rewrite find_exponent_S.
    rewrite !(flt_false x); auto; try apply T1; rewrite ?(proj2 T1); try lra.
    rewrite flt_true; auto; [|apply T10|rewrite (proj2 T10); lra].
    assert (I1 : iadd I64 e 1 = Ok (e + 1)%Z). { apply iarith_ok. apply in_range_i64. lia. }
    rewrite I1. cbn [bind].
    destruct (div_ten x (ofZ f 10) 10 Fx T10) as (Fq & Q1 & Qb); try lra.
    assert (U := prec24 f). assert (U0 := bpow_gt_0 radix2 (- prec f)).
    rewrite G; auto. split; auto. lia. split; [lra|nra].
Qed.
Lemma find_exponent_up {f} n : forall (x : flt f) e, finite x = true -> bpow radix2 (2 - emax f) <= B2R x <= 102/10 ->
  1 <= B2R x * cst ^ n -> (Z.abs e + 4 * Z.of_nat n <= 2 ^ 62)%Z ->
  exists e', find_exponent (S (S n)) x e = Ok e' /\ (e - 4 * Z.of_nat n <= e' <= e + 1)%Z.
Proof.
  induction n as [|n IH]; intros x e Fx Hx Xn He.
  { cbn in Xn. destruct (find_exponent_end 0 x e) as (e' & -> & B); auto. lra. lia. exists e'. split; auto. lia. }
  destruct (Rle_dec 1 (B2R x)) as [L0|L0].
  { destruct (find_exponent_end (S n) x e) as (e' & -> & B); auto. lra. lia. exists e'. split; auto. lia. }
  assert (P := bpow_gt_0 radix2 (2 - emax f)).
  assert (T10 : has_val (ofZ f 10) 10) by (split; [apply ofZ_fin; lia|apply ofZ_B2R; lia]).
  assert (T1 : has_val (ofZ f 1) 1) by (split; [apply ofZ_fin; lia|apply ofZ_B2R; lia]).
  destruct (lit_bounds f) as ((L1 & L2) & Lf & (M1 & M2) & Mf).
  destruct (lit_ints f) as ((H100 & V100) & (H10000 & V10000) & _).
  assert (C0 : 0 < cst ^ n) by (apply pow_lt; unfold cst; lra). cbn [pow] in Xn. unfold cst in Xn at 1.
  assert (IS : forall k, (1 <= k <= 4)%Z -> isub I64 e k = Ok (e - k)%Z).
  { intros k Hk. apply iarith_ok. apply in_range_i64. lia. }
  rewrite find_exponent_S.
  destruct (x <. dlit f 1 3) eqn:D1; [|destruct (x <. dlit f 1 1) eqn:D2].
  - apply flt_true_inv in D1; auto. rewrite IS by lia. cbn [bind].
    destruct (mul_up x (dlit f 10000 0) 10000 Fx (conj H10000 V10000)) as (Fm & Lo & Hi & Hi2); try lra.
    destruct (IH (x *. dlit f 10000 0) (e - 4)%Z) as (e' & -> & B); auto; [split; [nra|auto]|nra|lia|].
    exists e'. split; auto. lia.
  - apply flt_true_inv in D2; auto. apply flt_false_inv in D1; auto. rewrite IS by lia. cbn [bind].
    destruct (mul_up x (dlit f 100 0) 100 Fx (conj H100 V100)) as (Fm & Lo & Hi & Hi2); try lra.
    destruct (IH (x *. dlit f 100 0) (e - 2)%Z) as (e' & -> & B); auto; [split; [nra|auto]|nra|lia|].
    exists e'. split; auto. lia.
  - rewrite flt_true; auto; [|apply T1|rewrite (proj2 T1); lra]. rewrite IS by lia. cbn [bind].
    destruct (mul_up x (ofZ f 10) 10 Fx T10) as (Fm & Lo & Hi & Hi2); try lra.
    destruct (IH (x *. ofZ f 10) (e - 1)%Z) as (e' & -> & B); auto; [split; [nra|lra]|nra|lia|].
    exists e'. split; auto. lia.
Qed.
