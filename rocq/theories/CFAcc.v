(** * Accuracy of atan, tan and tanh where they are computed by continued fractions *)
From Verif Require Import Base ModelBasic ModelInt ModelElem ModelApi FltLemmas Spec IntProofs BasicProofs ConvLemmas CxxProofs TotalProofs ExpAcc.
From Coq Require Import Lra Psatz PrimFloat.
From Coquelicot Require Import Coquelicot.
From Verif Require Import PF FPErr CFReal CFBound CFTrunc.
From Interval Require Import Tactic.
Open Scope R_scope.

(** Literals *)
Ltac dv x m e := let A := fresh in let B := fresh in destruct (sf_val x false m e) as (A & B); [vm_compute; reflexivity|split; [exact A|rewrite B; unfold F2R; cbn; lra]].
Lemma lit05 f : finite (dlit f 5 1) = true /\ B2R (dlit f 5 1) = / 2.
Proof. destruct f; [dv (dlit F32 5 1) 8388608%positive (-24)%Z|dv (dlit F64 5 1) 4503599627370496%positive (-53)%Z|dv (dlit F80 5 1) 9223372036854775808%positive (-64)%Z]. Qed.
Lemma lit15 f : finite (dlit f 15 1) = true /\ B2R (dlit f 15 1) = 3 / 2.
Proof. destruct f; [dv (dlit F32 15 1) 12582912%positive (-23)%Z|dv (dlit F64 15 1) 6755399441055744%positive (-52)%Z|dv (dlit F80 15 1) 13835058055282163712%positive (-63)%Z]. Qed.
Lemma lit25 f : finite (dlit f 25 1) = true /\ B2R (dlit f 25 1) = 5 / 2.
Proof. destruct f; [dv (dlit F32 25 1) 10485760%positive (-22)%Z|dv (dlit F64 25 1) 5629499534213120%positive (-51)%Z|dv (dlit F80 25 1) 11529215046068469760%positive (-62)%Z]. Qed.

(** ** atan on [0, 5/2] *)
Lemma atan_fcf v {f} (xx : flt f) m : (1 <= m)%Z -> atan_cf_recur v xx 1 m = fcf false true xx (Z.to_nat (m - 1)) 1.
Proof.
  intros H. replace (atan_cf_recur v xx 1 m) with (atan_cf_recur Cxx11 xx 1 m). 2: { destruct v; auto. apply atan_cf_recur_11_14; auto. }
  unfold atan_cf_recur, rec_up, fcf. replace (2 * (1 + Z.of_nat (Z.to_nat (m - 1))) - 1)%Z with (2 * m - 1)%Z by lia. reflexivity.
Qed.
Definition atan_chk (n : nat) (e k0 : Z) (cnt : nat) (C : pf) (tot : nat) (tau : pf) : bool :=
  (call false true n e k0 cnt C 1 && tsum (atan_rf n e) tau tot 0 0%float)%bool.
Lemma atan_chk15 : atan_chk 14 5 0 16 7 16 0x1p-59 = true. Proof. vm_compute. reflexivity. Qed.
Lemma atan_chk25 : atan_chk 24 5 16 16 7 32 0x1p-59 = true. Proof. vm_compute. reflexivity. Qed.
Lemma atan_chk35 : atan_chk 34 5 32 16 7 48 0x1p-59 = true. Proof. vm_compute. reflexivity. Qed.
Lemma atan_chk45 : atan_chk 44 5 48 16 7 64 0x1p-59 = true. Proof. vm_compute. reflexivity. Qed.
Lemma atan_chk52 : atan_chk 51 6 128 33 7 161 0x1p-56 = true. Proof. vm_compute. reflexivity. Qed.
Lemma v7 : rv 7%float = 7.
Proof. change 7%float with (ofZd 7). apply ofZ_val. reflexivity. Qed.
Lemma p59 : nonneg 0x1p-59%float = true /\ rv 0x1p-59%float = bpow radix2 (-59).
Proof. destruct (lit 0x1p-59%float 4503599627370496 (-111) eq_refl) as (A & B). split. reflexivity. rewrite B. change 4503599627370496 with (bpow radix2 52). rewrite <- bpow_plus. reflexivity. Qed.
Lemma p56 : nonneg 0x1p-56%float = true /\ rv 0x1p-56%float = bpow radix2 (-56).
Proof. destruct (lit 0x1p-56%float 4503599627370496 (-108) eq_refl) as (A & B). split. reflexivity. rewrite B. change 4503599627370496 with (bpow radix2 52). rewrite <- bpow_plus. reflexivity. Qed.
Lemma atan_lo x : 0 <= x <= 5 / 2 -> 19 / 40 * x <= atan x.
Proof.
  intros H. destruct (Rle_or_lt x (/ 8)) as [L|L].
  - destruct (MVT_gen atan 0 x (fun c => / (1 + c²))) as (c & Hc & E).
    + intros. apply is_derive_atan.
    + intros. apply continuity_pt_filterlim, (ex_derive_continuous atan). eexists. apply is_derive_atan.
    + rewrite atan_0, !Rminus_0_r in E. rewrite E. rewrite Rmin_left, Rmax_right in Hc by lra. apply Rmult_le_compat_r. lra. replace (19 / 40) with (/ (40 / 19)) by field. apply Rinv_le; unfold Rsqr; nra.
  - assert (0 <= atan x - 19 / 40 * x); [|lra]. interval with (i_bisect x, i_prec 30, i_depth 20).
Qed.
Lemma atan_cf_gen {f} n e k0 cnt tot C tau (x : flt f) : atan_chk n e k0 cnt C tot tau = true -> (0 <= e <= 20)%Z -> (0 <= k0)%Z -> (Z.of_nat n < 900)%Z -> (Z.of_nat tot < 1000000)%Z -> nonneg tau = true ->
  finite x = true -> bpow radix2 (2 - emax f) <= B2R x -> IZR k0 * bpow radix2 (- e) <= B2R x < IZR (k0 + Z.of_nat cnt) * bpow radix2 (- e) -> B2R x < IZR (Z.of_nat tot) * bpow radix2 (- e) -> B2R x <= 5 / 2 -> rv tau <= / 1000000 ->
  let w := x /. fcf false true (x *. x) n 1 in
  finite w = true /\ Rabs (B2R w - atan (B2R x)) <= (rv C * uf f * (1 + 40 / 19 * rv tau) + 40 / 19 * rv tau) * atan (B2R x).
Proof.
  intros T He Hk Hn Ht Nt Fx X0 Hx Xt X2 T6. unfold atan_chk in T. apply andb_prop in T as (T1 & T2). destruct (nonneg_ok _ Nt) as (_ & t0). cbv zeta.
  destruct (call_round false true n e k0 cnt C 1%float He Hk Hn T1 x Fx Hx X0) as (F & W0 & R). split; auto. cbn [sgn_of] in * .
  assert (x0 := bpow_gt_0 radix2 (2 - emax f)). set (w := w_of 1 (ar true) n (B2R x)) in * .
  assert (TR := atan_trunc n e tau tot (B2R x) He Hn Ht Nt T2 ltac:(lra)). fold w in TR. assert (AL := atan_lo (B2R x) ltac:(lra)). set (a := atan (B2R x)) in * .
  assert (XA : B2R x <= 40 / 19 * a) by lra. assert (A0 : 0 < a) by lra.
  assert (TR2 : Rabs (w - a) <= 40 / 19 * rv tau * a). { eapply Rle_trans. exact TR. apply Rle_trans with (rv tau * (40 / 19 * a)). apply Rmult_le_compat_l; auto. right. ring. }
  assert (u0 := uf_pos f). assert (Wa : w <= (1 + 40 / 19 * rv tau) * a) by (apply Rabs_le_inv in TR2; lra).
  set (z := B2R (x /. fcf false true (x *. x) n 1)) in * . replace (z - a) with ((z - w) + (w - a)) by ring. eapply Rle_trans. apply Rabs_triang.
  assert (C0 : 0 <= rv C * uf f). { apply Rnot_lt_le. intros N. assert (rv C * uf f * w < 0) by nra. assert (Q := Rabs_pos (z - w)). lra. }
  assert (rv C * uf f * w <= rv C * uf f * ((1 + 40 / 19 * rv tau) * a)) by (apply Rmult_le_compat_l; auto). lra.
Qed.
Lemma fcmp_lt {f} (x y : flt f) r : finite x = true -> finite y = true /\ B2R y = r -> (x <. y) = Rlt_bool (B2R x) r.
Proof. intros Fx (Fy & V). rewrite flt_spec by auto. rewrite V. reflexivity. Qed.
Lemma atan_cf_acc v {f} (x : flt f) : finite x = true -> bpow radix2 (2 - emax f) <= B2R x <= 5 / 2 ->
  finite (atan_cf_main v x) = true /\ Rabs (B2R (atan_cf_main v x) - atan (B2R x)) <= (8 * uf f + bpow radix2 (if Rlt_dec (B2R x) 2 then -57 else -54)) * atan (B2R x).
Proof.
  intros Fx (X0 & X2). assert (x0 := bpow_gt_0 radix2 (2 - emax f)). assert (AL := atan_lo (B2R x) ltac:(lra)). assert (u0 := uf_pos f).
  assert (Z1 : forall z, (Z.abs z <= 16777216)%Z -> finite (ofZ f z) = true /\ B2R (ofZ f z) = IZR z). { intros z Hz. destruct (ofZ_small f z Hz) as (A & B & _). auto. }
  destruct p59 as (N9 & V9). destruct p56 as (N6 & V6). change (bpow radix2 (-59)) with (/ 576460752303423488) in V9. change (bpow radix2 (-56)) with (/ 72057594037927936) in V6.
  unfold atan_cf_main.
  rewrite (fcmp_lt x (dlit f 5 1) (/ 2) Fx (lit05 f)), (fcmp_lt x (ofZ f 1) 1 Fx (Z1 1%Z ltac:(lia))), (fcmp_lt x (dlit f 15 1) (3 / 2) Fx (lit15 f)), (fcmp_lt x (ofZ f 2) 2 Fx (Z1 2%Z ltac:(lia))).
  assert (G : forall e n k0 cnt tot tau, atan_chk n e k0 cnt 7 tot tau = true -> (0 <= e <= 20)%Z -> (0 <= k0)%Z -> (Z.of_nat n < 900)%Z -> (Z.of_nat tot < 1000000)%Z -> nonneg tau = true ->
    IZR k0 * bpow radix2 (- e) <= B2R x < IZR (k0 + Z.of_nat cnt) * bpow radix2 (- e) -> B2R x < IZR (Z.of_nat tot) * bpow radix2 (- e) -> rv tau <= / 1000000 -> 
    let w := x /. fcf false true (x *. x) n 1 in finite w = true /\ Rabs (B2R w - atan (B2R x)) <= (8 * uf f + 22 / 10 * rv tau) * atan (B2R x)).
  { intros e n k0 cnt tot tau T He Hk Hn Ht Nt Hx Hx2 T6 w. destruct (atan_cf_gen n e k0 cnt tot 7%float tau x T He Hk Hn Ht Nt Fx X0 Hx Hx2 X2 T6) as (F & R). split; auto. eapply Rle_trans. exact R.
    rewrite v7. destruct (nonneg_ok _ Nt) as (_ & t0). apply Rmult_le_compat_r. lra. assert (uf f * rv tau <= uf f * / 1000000) by (apply Rmult_le_compat_l; lra). assert (0 <= uf f * rv tau) by (apply Rmult_le_pos; lra). lra. }
  assert (Fin : forall w c (r : R) , finite w = true /\ Rabs (B2R w - atan (B2R x)) <= (8 * uf f + 22 / 10 * r) * atan (B2R x) -> 22 / 10 * r <= c -> finite (w : flt f) = true /\ Rabs (B2R w - atan (B2R x)) <= (8 * uf f + c) * atan (B2R x)).
  { intros w c r (F & R) L. split; auto. eapply Rle_trans. exact R. apply Rmult_le_compat_r. lra. lra. }
  assert (P5 : bpow radix2 (- (5)) = / 32) by reflexivity. assert (P6 : bpow radix2 (- (6)) = / 64) by reflexivity.
  destruct (Rlt_bool_spec (B2R x) (/ 2)) as [L1|L1]; [|destruct (Rlt_bool_spec (B2R x) 1) as [L2|L2]; [|destruct (Rlt_bool_spec (B2R x) (3 / 2)) as [L3|L3]; [|destruct (Rlt_bool_spec (B2R x) 2) as [L4|L4]]]]; rewrite atan_fcf by lia;
  (destruct (Rlt_dec (B2R x) 2) as [D|D]; [|try (exfalso; lra)]); try (exfalso; lra).
  - apply (Fin _ _ (rv 0x1p-59)). apply (G 5%Z _ 0%Z 16%nat 16%nat _ atan_chk15); rewrite ?P5; auto; try lia; cbn; lra. rewrite V9. cbn. lra.
  - apply (Fin _ _ (rv 0x1p-59)). apply (G 5%Z _ 16%Z 16%nat 32%nat _ atan_chk25); rewrite ?P5; auto; try lia; cbn; lra. rewrite V9. cbn. lra.
  - apply (Fin _ _ (rv 0x1p-59)). apply (G 5%Z _ 32%Z 16%nat 48%nat _ atan_chk35); rewrite ?P5; auto; try lia; cbn; lra. rewrite V9. cbn. lra.
  - apply (Fin _ _ (rv 0x1p-59)). apply (G 5%Z _ 48%Z 16%nat 64%nat _ atan_chk45); rewrite ?P5; auto; try lia; cbn; lra. rewrite V9. cbn. lra.
  - apply (Fin _ _ (rv 0x1p-56)). apply (G 6%Z _ 128%Z 33%nat 161%nat _ atan_chk52); rewrite ?P6; auto; try lia; cbn; lra. rewrite V6. cbn. lra.
Qed.
