(** * Accuracy of tanh *)
From Verif Require Import Base ModelBasic ModelInt ModelElem ModelApi FltLemmas Spec IntProofs BasicProofs ConvLemmas CxxProofs TotalProofs ExpAcc MiscProofs.
From Coq Require Import Lra Psatz PrimFloat.
From Coquelicot Require Import Coquelicot.
From Verif Require Import PF FPErr CFReal CFBound CFTrunc CFAcc TanAcc.
Open Scope R_scope.

Lemma tanh_fcf v {f} (xx : flt f) : tanh_cf v xx 1 = fcf false false xx 34 1.
Proof. destruct v; reflexivity. Qed.

Lemma tanh_exp x : tanh x = (1 - exp (-2 * x)) / (1 + exp (-2 * x)).
Proof.
  unfold tanh, sinh, cosh. replace (-2 * x) with (- x + - x) by ring. rewrite exp_plus. rewrite (exp_Ropp x). assert (E := exp_pos x). field. split; nra.
Qed.
Lemma tanh_lo x : 0 <= x -> x <= tanh x * (1 + x).
Proof.
  intros H. rewrite tanh_exp. assert (E := exp_pos (-2 * x)). set (e := exp (-2 * x)) in * .
  assert (P : e * (1 + 2 * x) <= 1). { unfold e. replace (-2 * x) with (- (2 * x)) by ring. rewrite exp_Ropp. assert (G := exp_ineq1_le (2 * x)). assert (E2 := exp_pos (2 * x)). apply Rmult_le_reg_l with (exp (2 * x)); auto. rewrite <- Rmult_assoc, Rinv_r by lra. lra. }
  apply Rmult_le_reg_r with (1 + e). lra. replace ((1 - e) / (1 + e) * (1 + x) * (1 + e)) with ((1 - e) * (1 + x)) by (field; lra). nra.
Qed.
(** From the residual of the continued fraction to the relative error. *)
Lemma tanh_w x w d : 0 < x -> 0 <= w -> 0 <= d <= / 1000 -> Rabs ((1 - w) / (1 + w) - exp (-2 * x)) <= d * x -> d * x <= / 1000 -> Rabs (w - tanh x) <= 21 / 10 * d * (1 + x) * tanh x.
Proof.
  intros X W D H DX. rewrite tanh_exp. assert (E := exp_pos (-2 * x)). assert (T := tanh_lo x ltac:(lra)). rewrite tanh_exp in T. set (e := exp (-2 * x)) in * .
  assert (H2 := H). apply Rabs_le_inv in H2. set (q := (1 - w) / (1 + w)) in * . assert (Q : (1 + q) * (1 + w) = 2) by (unfold q; field; lra).
  assert (W1 : w <= 101 / 100) by nra. replace (w - (1 - e) / (1 + e)) with (- (q - e) * ((1 + w) / (1 + e))) by (unfold q; field; lra).
  rewrite Rabs_mult, Rabs_Ropp. assert (I : 0 <= (1 + w) / (1 + e) <= 21 / 10). { split. apply Rdiv_le_0_compat; lra. apply Rmult_le_reg_r with (1 + e). lra. unfold Rdiv. rewrite Rmult_assoc, Rinv_l, Rmult_1_r by lra. lra. }
  rewrite (Rabs_pos_eq ((1 + w) / (1 + e))) by lra. set (th := (1 - e) / (1 + e)) in * .
  apply Rle_trans with (d * x * (21 / 10)). apply Rmult_le_compat; try lra. apply Rabs_pos.
  replace (21 / 10 * d * (1 + x) * th) with (d * (th * (1 + x)) * (21 / 10)) by ring. apply Rmult_le_compat_r. lra. apply Rmult_le_compat_l; lra.
Qed.
Lemma tanh_gen v {f} e cnt (C rho : pf) c d (x : flt f) : call false false 34 e 0 cnt C rho = true -> (0 <= e <= 20)%Z -> finite x = true -> bpow radix2 (2 - emax f) <= B2R x -> 
  B2R x < IZR (Z.of_nat cnt) * bpow radix2 (- e) -> rv C <= c -> 2 * rv rho <= d -> 0 <= c <= 100 -> 0 <= d -> d * (1 + B2R x) <= / 100000000000 ->
  finite (tanh_begin v x) = true /\ rel_err (B2R (tanh_begin v x)) (tanh (B2R x)) (c * uf f + 22 / 10 * d * (1 + B2R x)) /\ 0 <= B2R (tanh_begin v x).
Proof.
  intros T He Fx X0 X1 Hc Hd C6 D0 D1. unfold tanh_begin. rewrite tanh_fcf. assert (x0 := bpow_gt_0 radix2 (2 - emax f)). assert (u0 := uf_pos f). assert (u1 := uf_le f). change (bpow radix2 (-24)) with (/ 16777216) in u1.
  destruct (call_round false false 34 e 0 cnt C rho He ltac:(lia) ltac:(reflexivity) T x Fx) as (F & W0 & R); auto. { rewrite Rmult_0_l, Z.add_0_l. lra. }
  destruct (tanh_trunc 34 e rho cnt C (B2R x) He ltac:(reflexivity) T) as (TR & _ & _). lra. cbn [sgn_of] in * . set (w := w_of 1 (ar false) 34 (B2R x)) in * . set (r := B2R x) in * .
  assert (d1 : d <= / 1000) by nra.
  assert (TW := tanh_w r w d ltac:(lra) ltac:(lra) ltac:(lra)). assert (TR2 : Rabs ((1 - w) / (1 + w) - exp (-2 * r)) <= d * r) by (eapply Rle_trans; [exact TR|apply Rmult_le_compat_r; lra]).
  specialize (TW TR2 ltac:(nra)). assert (th := tanh_lo r ltac:(lra)). set (t := tanh r) in * . assert (t0 : 0 < t) by nra.
  set (z := B2R (x /. fcf false false (x *. x) 34 1)) in * . split; auto. assert (cu : 0 <= c * uf f <= 100 * / 16777216) by (split; [apply Rmult_le_pos|apply Rmult_le_compat]; lra).
  assert (ZW : Rabs (z - w) <= c * uf f * w). { eapply Rle_trans. exact R. apply Rmult_le_compat_r. lra. apply Rmult_le_compat_r; lra. }
  split. 2: { apply Rabs_le_inv in ZW. nra. }
  unfold rel_err. rewrite (Rabs_pos_eq t) by lra. set (D := d * (1 + r)) in * . replace (21 / 10 * d * (1 + r) * t) with (21 / 10 * D * t) in TW by (unfold D; ring). replace (22 / 10 * d * (1 + r)) with (22 / 10 * D) by (unfold D; ring).
  assert (Dp : 0 <= D) by (unfold D; apply Rmult_le_pos; lra). assert (DT : 0 <= D * t <= / 100000000000 * t) by (split; [apply Rmult_le_pos|apply Rmult_le_compat_r]; lra).
  replace (z - t) with ((z - w) + (w - t)) by ring. eapply Rle_trans. apply Rabs_triang.
  assert (w <= t + 21 / 10 * D * t) by (apply Rabs_le_inv in TW; lra). assert (c * uf f * w <= c * uf f * (t + 21 / 10 * D * t)) by (apply Rmult_le_compat_l; lra).
  assert (c * uf f * (21 / 10 * (D * t)) <= 100 * / 16777216 * (21 / 10 * (D * t))) by (apply Rmult_le_compat_r; lra). lra.
Qed.
Lemma tanh_chk1 : call false false 34 4 0 17 3 RHO = true. Proof. vm_compute. reflexivity. Qed.
Lemma tanh_chk20 : call false false 34 3 0 161 14 0x1p-73 = true. Proof. vm_compute. reflexivity. Qed.
Lemma tanh_chk25 : call false false 34 3 0 201 16 0x1p-61 = true. Proof. vm_compute. reflexivity. Qed.
Lemma p73 : rv 0x1p-73 = bpow radix2 (-73).
Proof. destruct (lit 0x1p-73 4503599627370496 (-125) eq_refl) as (A & B). rewrite B. change 4503599627370496 with (bpow radix2 52). rewrite <- bpow_plus. reflexivity. Qed.
Lemma p61 : rv 0x1p-61 = bpow radix2 (-61).
Proof. destruct (lit 0x1p-61 4503599627370496 (-113) eq_refl) as (A & B). rewrite B. change 4503599627370496 with (bpow radix2 52). rewrite <- bpow_plus. reflexivity. Qed.
Lemma b2 e : 2 * bpow radix2 e = bpow radix2 (e + 1).
Proof. rewrite bpow_plus_1. reflexivity. Qed.
Definition tanh_b f (r : R) : R := if Rle_dec (Rabs r) 1 then 3 * uf f + bpow radix2 (-96) else if Rle_dec (Rabs r) 20 then 14 * uf f + bpow radix2 (-66) else 16 * uf f + bpow radix2 (-54).
Lemma rel_mono a r p q : p <= q -> rel_err a r p -> rel_err a r q.
Proof. intros H. unfold rel_err. intros G. eapply Rle_trans. exact G. apply Rmult_le_compat_r. apply Rabs_pos. auto. Qed.
Lemma tanh_main_acc v {f} (x : flt f) : finite x = true -> bpow radix2 (2 - emax f) <= B2R x <= 25 ->
  finite (tanh_begin v x) = true /\ rel_err (B2R (tanh_begin v x)) (tanh (B2R x)) (tanh_b f (B2R x)) /\ 0 <= B2R (tanh_begin v x).
Proof.
  intros Fx (X0 & X1). assert (x0 := bpow_gt_0 radix2 (2 - emax f)). unfold tanh_b. rewrite (Rabs_pos_eq (B2R x)) by lra. set (r := B2R x) in * .
  destruct (Rle_dec r 1) as [A|A]; [|destruct (Rle_dec r 20) as [B|B]].
  - assert (p0 := bpow_gt_0 radix2 (-99)). assert (p1 : bpow radix2 (-99) <= / 100000000000000) by (cbn; lra). assert (p2 : bpow radix2 (-96) = 8 * bpow radix2 (-99)) by (change 8 with (bpow radix2 3); rewrite <- bpow_plus; reflexivity).
    destruct (tanh_gen v 4 17 3%float RHO 3 (bpow radix2 (-99)) x tanh_chk1) as (F & R & P); auto; fold r; try lra; try lia. cbn; lra. change (rv 3) with (rv (ofZd 3)). rewrite vint; lra || lia. rewrite RHO_val, b2. apply bpow_le. lia. nra.
    split; auto. split; auto. eapply rel_mono; [|exact R]. fold r. rewrite p2. apply Rplus_le_compat_l. replace (22 / 10 * bpow radix2 (-99) * (1 + r)) with (22 / 10 * (1 + r) * bpow radix2 (-99)) by ring. apply Rmult_le_compat_r; lra.
  - assert (p0 := bpow_gt_0 radix2 (-72)). assert (p1 : bpow radix2 (-72) <= / 100000000000000) by (cbn; lra). assert (p2 : bpow radix2 (-66) = 64 * bpow radix2 (-72)) by (change 64 with (bpow radix2 6); rewrite <- bpow_plus; reflexivity).
    destruct (tanh_gen v 3 161 14%float 0x1p-73%float 14 (bpow radix2 (-72)) x tanh_chk20) as (F & R & P); auto; fold r; try lra; try lia. cbn; lra. change (rv 14) with (rv (ofZd 14)). rewrite vint; lra || lia. rewrite p73, b2. apply bpow_le. lia. nra.
    split; auto. split; auto. eapply rel_mono; [|exact R]. fold r. rewrite p2. apply Rplus_le_compat_l. replace (22 / 10 * bpow radix2 (-72) * (1 + r)) with (22 / 10 * (1 + r) * bpow radix2 (-72)) by ring. apply Rmult_le_compat_r; lra.
  - assert (p0 := bpow_gt_0 radix2 (-60)). assert (p1 : bpow radix2 (-60) <= / 100000000000000) by (cbn; lra). assert (p2 : bpow radix2 (-54) = 64 * bpow radix2 (-60)) by (change 64 with (bpow radix2 6); rewrite <- bpow_plus; reflexivity).
    destruct (tanh_gen v 3 201 16%float 0x1p-61%float 16 (bpow radix2 (-60)) x tanh_chk25) as (F & R & P); auto; fold r; try lra; try lia. cbn; lra. change (rv 16) with (rv (ofZd 16)). rewrite vint; lra || lia. rewrite p61, b2. apply bpow_le. lia. nra.
    split; auto. split; auto. eapply rel_mono; [|exact R]. fold r. rewrite p2. apply Rplus_le_compat_l. replace (22 / 10 * bpow radix2 (-60) * (1 + r)) with (22 / 10 * (1 + r) * bpow radix2 (-60)) by ring. apply Rmult_le_compat_r; lra.
Qed.
Lemma tanh_neg r : tanh (- r) = - tanh r.
Proof. unfold tanh. rewrite <- sinh_neg || idtac. unfold sinh, cosh. rewrite Ropp_involutive. assert (A := exp_pos r). assert (B := exp_pos (- r)). field. lra. Qed.
Lemma tanh_check_acc v {f} (x : flt f) : finite x = true -> bpow radix2 (2 - emax f) <= Rabs (B2R x) <= 25 ->
  exists w, tanh_check v x = Ok w /\ finite w = true /\ rel_err (B2R w) (tanh (B2R x)) (tanh_b f (B2R x)).
Proof.
  intros Fx (X0 & X2). assert (x0 := bpow_gt_0 radix2 (2 - emax f)). unfold tanh_check. rewrite finite_not_nan by auto.
  destruct (ofZ_small f 0 ltac:(lia)) as (V0 & F0 & _).
  rewrite (flt_false (ModelBasic.abs x) (fmin f)). 2: rewrite abs_finite; auto. 2: apply fmin_spec. 2: rewrite abs_B2R, (proj1 (fmin_spec f)); auto.
  destruct (x <. ofZ f 0) eqn:C; [apply flt_true_inv in C; auto|apply flt_false_inv in C; auto]; rewrite V0 in C.
  - rewrite Rabs_left in X0, X2 by auto. destruct (tanh_main_acc v (-. x)) as (F & R & _). rewrite fneg_finite; auto. rewrite fneg_B2R; auto.
    rewrite fneg_B2R in R. rewrite tanh_neg in R. exists (-. tanh_begin v (-. x)). split; [reflexivity|]. rewrite fneg_finite, fneg_B2R. split; auto. revert R. unfold rel_err, tanh_b. rewrite !Rabs_Ropp. intros R.
    replace (- B2R (tanh_begin v (-. x)) - tanh (B2R x)) with (- (B2R (tanh_begin v (-. x)) - - tanh (B2R x))) by ring. rewrite Rabs_Ropp. exact R.
  - rewrite Rabs_pos_eq in X0, X2 by auto. destruct (tanh_main_acc v x) as (F & R & _); auto. exists (tanh_begin v x). split; [reflexivity|]. auto.
Qed.
