(** * Accuracy of tan, sin, cos and tanh *)
From Verif Require Import Base ModelBasic ModelInt ModelElem ModelApi FltLemmas Spec IntProofs BasicProofs ConvLemmas CxxProofs TotalProofs ExpAcc MiscProofs.
From Coq Require Import Lra Psatz PrimFloat.
From Coquelicot Require Import Coquelicot.
From Verif Require Import PF FPErr CFReal CFBound CFTrunc CFAcc.
From Interval Require Import Tactic.
Open Scope R_scope.

Lemma tan_fcf {f} (xx : flt f) m : (1 <= m)%Z -> tan_cf_recur xx 1 m = fcf true false xx (Z.to_nat (m - 1)) 1.
Proof.
  intros H. unfold tan_cf_recur, rec_up, fcf. replace (2 * (1 + Z.of_nat (Z.to_nat (m - 1))) - 1)%Z with (2 * m - 1)%Z by lia. reflexivity.
Qed.
Definition RHO : pf := 0x1p-100%float.
Lemma RHO_val : rv RHO = bpow radix2 (-100).
Proof. destruct (lit RHO 4503599627370496 (-152) eq_refl) as (A & B). rewrite B. change 4503599627370496 with (bpow radix2 52). rewrite <- bpow_plus. reflexivity. Qed.
Definition tan_chk (n : nat) (e k0 : Z) (cnt tot : nat) (C : pf) : bool :=
  (call true false n e k0 cnt C 1 && call true false n e 0 tot 1000000 RHO)%bool.
Lemma tan_chk25 : tan_chk 24 6 0 65 65 4 = true. Proof. vm_compute. reflexivity. Qed.
Lemma tan_chk35 : tan_chk 34 7 127 55 182 16 = true. Proof. vm_compute. reflexivity. Qed.
Lemma tan_chk45 : tan_chk 44 9 711 58 769 36 = true. Proof. vm_compute. reflexivity. Qed.
Lemma vint z : (Z.abs z < 9007199254740992)%Z -> rv (ofZd z) = IZR z.
Proof. intros H. apply ofZ_val. exact H. Qed.
(** tan is 1000-Lipschitz below 1.51. *)
Lemma tan_lip x y : 0 <= x <= 151 / 100 -> 0 <= y <= 151 / 100 -> Rabs (tan y - tan x) <= 1000 * Rabs (y - x).
Proof.
  intros Hx Hy. apply (mvt tan (fun c => tan c ^ 2 + 1) x y). intros c Hc.
  assert (Hc2 : 0 <= c <= 151 / 100) by (unfold Rmin, Rmax in Hc; destruct Rle_dec in Hc; lra). split.
  - apply is_derive_tan. apply Rgt_not_eq. apply cos_gt_0; interval.
  - interval.
Qed.
Lemma tan_ge x : 0 <= x <= 151 / 100 -> x <= tan x.
Proof.
  intros H. destruct (MVT_gen tan 0 x (fun c => tan c ^ 2 + 1)) as (c & Hc & E).
  - intros c Hc. rewrite Rmin_left, Rmax_right in Hc by lra. assert (0 <= c <= 151 / 100) by lra. apply is_derive_tan. apply Rgt_not_eq. apply cos_gt_0; interval.
  - intros c Hc. rewrite Rmin_left, Rmax_right in Hc by lra. assert (0 <= c <= 151 / 100) by lra. apply continuity_pt_filterlim, (ex_derive_continuous tan). eexists. apply is_derive_tan. apply Rgt_not_eq. apply cos_gt_0; interval.
  - rewrite tan_0, !Rminus_0_r in E. rewrite E. assert (0 <= tan c ^ 2) by (apply pow2_ge_0). nra.
Qed.
Lemma tan_cf_gen {f} n e k0 cnt tot C (x : flt f) : tan_chk n e k0 cnt tot C = true -> (0 <= e <= 20)%Z -> (0 <= k0)%Z -> (Z.of_nat n < 900)%Z ->
  finite x = true -> bpow radix2 (2 - emax f) <= B2R x -> IZR k0 * bpow radix2 (- e) <= B2R x < IZR (k0 + Z.of_nat cnt) * bpow radix2 (- e) -> B2R x < IZR (Z.of_nat tot) * bpow radix2 (- e) -> B2R x <= 3 / 2 -> rv C <= 1000 ->
  let w := x /. fcf true false (x *. x) n 1 in
  finite w = true /\ Rabs (B2R w - tan (B2R x)) <= (rv C * uf f + bpow radix2 (-80)) * tan (B2R x).
Proof.
  intros T He Hk Hn Fx X0 Hx Xt X2 C6. unfold tan_chk in T. apply andb_prop in T as (T1 & T2). cbv zeta.
  destruct (call_round true false n e k0 cnt C 1%float He Hk Hn T1 x Fx Hx X0) as (F & W0 & R). split; auto. cbn [sgn_of] in * .
  assert (x0 := bpow_gt_0 radix2 (2 - emax f)). set (w := w_of (-1) (ar false) n (B2R x)) in * .
  destruct (tan_trunc n e RHO tot 1000000%float (B2R x) He Hn T2) as (TR & _). { rewrite Rabs_pos_eq; lra. } fold w in TR. rewrite (Rabs_pos_eq (B2R x)), RHO_val in TR by lra.
  set (r := B2R x) in * . assert (TG := tan_ge r ltac:(lra)). change (bpow radix2 (-100)) with (/ 1267650600228229401496703205376) in TR. assert (TR' := TR). apply Rabs_le_inv in TR'.
  assert (A0 : 0 < atan w) by (rewrite <- atan_0; apply atan_increasing; auto).
  assert (L := tan_lip r (atan w) ltac:(lra) ltac:(lra)). rewrite tan_atan in L.
  assert (u0 := uf_pos f). assert (u1 := uf_le f). change (bpow radix2 (-24)) with (/ 16777216) in u1. change (bpow radix2 (-80)) with (/ 1208925819614629174706176). set (t := tan r) in * .
  assert (TR2 : Rabs (w - t) <= / 1000000000000000000000000000 * t) by lra.
  set (z := B2R (x /. fcf true false (x *. x) n 1)) in * . replace (z - t) with ((z - w) + (w - t)) by ring. eapply Rle_trans. apply Rabs_triang.
  assert (C0 : 0 <= rv C * uf f). { apply Rnot_lt_le. intros N. assert (rv C * uf f * w < 0) by nra. assert (Q := Rabs_pos (z - w)). lra. }
  assert (C1 : rv C * uf f <= 1000 * / 16777216). { apply Rmult_le_compat; lra || nra. }
  assert (Wt : w <= t + / 1000000000000000000000000000 * t) by (apply Rabs_le_inv in TR2; lra).
  assert (rv C * uf f * w <= rv C * uf f * t + rv C * uf f * (/ 1000000000000000000000000000 * t)). { rewrite <- Rmult_plus_distr_l. apply Rmult_le_compat_l; auto. }
  assert (rv C * uf f * (/ 1000000000000000000000000000 * t) <= 1000 * / 16777216 * (/ 1000000000000000000000000000 * t)) by (apply Rmult_le_compat_r; lra). lra.
Qed.
Ltac dva x m e := let A := fresh in let B := fresh in destruct (sf_val x false m e) as (A & B); [vm_compute; reflexivity|split; [exact A|rewrite B; unfold F2R; cbn; apply Rabs_le; lra]].
Lemma lit155 f : finite (dlit f 155 2) = true /\ Rabs (B2R (dlit f 155 2) - 155 / 100) <= / 8388608.
Proof. destruct f; [dva (dlit F32 155 2) 13002342%positive (-23)%Z|dva (dlit F64 155 2) 6980579422424269%positive (-52)%Z|dva (dlit F80 155 2) 14296226657124902912%positive (-63)%Z]. Qed.
Lemma lit14 f : finite (dlit f 14 1) = true /\ Rabs (B2R (dlit f 14 1) - 14 / 10) <= / 8388608.
Proof. destruct f; [dva (dlit F32 14 1) 11744051%positive (-23)%Z|dva (dlit F64 14 1) 6305039478318694%positive (-52)%Z|dva (dlit F80 14 1) 12912720851596685312%positive (-63)%Z]. Qed.

Lemma fcmp_gt {f} (x y : flt f) r : finite x = true -> finite y = true /\ B2R y = r -> (y <. x) = Rlt_bool r (B2R x).
Proof. intros Fx (Fy & V). rewrite flt_spec by auto. rewrite V. reflexivity. Qed.
Lemma tan_main_acc {f} (x : flt f) : finite x = true -> bpow radix2 (2 - emax f) <= B2R x <= 3 / 2 ->
  exists w, tan_begin 3 x 0 = Ok w /\ finite w = true /\ Rabs (B2R w - tan (B2R x)) <= ((if Rle_dec (B2R x) 1 then 4 else 36) * uf f + bpow radix2 (-80)) * tan (B2R x).
Proof.
  intros Fx (X0 & X2). assert (x0 := bpow_gt_0 radix2 (2 - emax f)).
  assert (TG := tan_ge (B2R x) ltac:(lra)). assert (u0 := uf_pos f).
  destruct (pi_val f) as (Fpi & Vpi). unfold abs_err in Vpi. destruct (lit155 f) as (F155 & V155). destruct (lit14 f) as (F14 & V14). destruct (ofZ_small f 1 ltac:(lia)) as (V1 & F1 & _).
  assert (bpow radix2 (1 - prec f) <= / 8388608). { change (/ 8388608) with (bpow radix2 (-23)). apply bpow_le. destruct f; discriminate. }
  apply Rabs_le_inv in Vpi. apply Rabs_le_inv in V155. apply Rabs_le_inv in V14.
  assert (3 <= PI) by interval.
  cbn [tan_begin]. rewrite (flt_false (conv f GCEM_PI) x) by (auto; lra). unfold tan_cf_main. rewrite (flt_false (dlit f 155 2) x) by (auto; lra). cbn [andb].
  assert (P6 : bpow radix2 (- (6)) = / 64) by reflexivity. assert (P7 : bpow radix2 (- (7)) = / 128) by reflexivity. assert (P9 : bpow radix2 (- (9)) = / 512) by reflexivity.
  assert (v4 : rv 4%float = 4) by (change 4%float with (ofZd 4); apply vint; reflexivity). assert (v16 : rv 16%float = 16) by (change 16%float with (ofZd 16); apply vint; reflexivity). assert (v36 : rv 36%float = 36) by (change 36%float with (ofZd 36); apply vint; reflexivity).
  assert (Fin : forall (w : flt f) c d, finite w = true /\ Rabs (B2R w - tan (B2R x)) <= (c * uf f + bpow radix2 (-80)) * tan (B2R x) -> c <= d ->
    exists w', Ok w = Ok w' /\ finite w' = true /\ Rabs (B2R w' - tan (B2R x)) <= (d * uf f + bpow radix2 (-80)) * tan (B2R x)).
  { intros w c d (F & R) L. exists w. split; auto. split; auto. eapply Rle_trans. exact R. apply Rmult_le_compat_r. lra. apply Rplus_le_compat_r. apply Rmult_le_compat_r; lra. }
  destruct (dlit f 14 1 <. x) eqn:C1; [apply flt_true_inv in C1; auto|apply flt_false_inv in C1; auto].
  - rewrite tan_fcf by lia. apply (Fin _ (rv 36)). apply (tan_cf_gen _ 9 711 58 769 _ x tan_chk45); rewrite ?P9; auto; try lia; try lra; cbn; lra. destruct Rle_dec; lra.
  - destruct (ofZ f 1 <. x) eqn:C2; [apply flt_true_inv in C2; auto|apply flt_false_inv in C2; auto]; rewrite V1 in C2.
    + rewrite tan_fcf by lia. apply (Fin _ (rv 16)). apply (tan_cf_gen _ 7 127 55 182 _ x tan_chk35); rewrite ?P7; auto; try lia; try lra; cbn; lra. destruct Rle_dec; lra.
    + rewrite tan_fcf by lia. apply (Fin _ (rv 4)). apply (tan_cf_gen _ 6 0 65 65 _ x tan_chk25); rewrite ?P6; auto; try lia; try lra; cbn; lra. destruct Rle_dec; lra.
Qed.
Definition tan_c (r : R) : R := if Rle_dec (Rabs r) 1 then 4 else 36.
Lemma tan_neg r : tan (- r) = - tan r.
Proof. unfold tan. rewrite sin_neg, cos_neg. unfold Rdiv. ring. Qed.
Lemma tan_check_acc {f} (x : flt f) : finite x = true -> bpow radix2 (2 - emax f) <= Rabs (B2R x) <= 3 / 2 ->
  exists w, tan_check x = Ok w /\ finite w = true /\ rel_err (B2R w) (tan (B2R x)) (tan_c (B2R x) * uf f + bpow radix2 (-80)).
Proof.
  intros Fx (X0 & X2). assert (x0 := bpow_gt_0 radix2 (2 - emax f)). unfold tan_check. rewrite finite_not_nan by auto.
  destruct (ofZ_small f 0 ltac:(lia)) as (V0 & F0 & _).
  rewrite (flt_false (ModelBasic.abs x) (fmin f)). 2: rewrite abs_finite; auto. 2: apply fmin_spec. 2: rewrite abs_B2R, (proj1 (fmin_spec f)); auto.
  unfold rel_err, tan_c. destruct (x <. ofZ f 0) eqn:C; [apply flt_true_inv in C; auto|apply flt_false_inv in C; auto]; rewrite V0 in C.
  - rewrite Rabs_left in X0, X2 by auto. destruct (tan_main_acc (-. x)) as (w & E & F & R). rewrite fneg_finite; auto. rewrite fneg_B2R; auto.
    rewrite fneg_B2R in R. rewrite tan_neg in R. assert (TG := tan_ge (- B2R x) ltac:(lra)). rewrite tan_neg in TG. rewrite E. exists (-. w). split; [reflexivity|]. rewrite fneg_finite, fneg_B2R. split; auto.
    replace (- B2R w - tan (B2R x)) with (- (B2R w - - tan (B2R x))) by ring. rewrite Rabs_Ropp. rewrite (Rabs_left (tan _)), (Rabs_left (B2R x)) by lra. exact R.
  - rewrite Rabs_pos_eq in X0, X2 by auto. assert (TG := tan_ge (B2R x) ltac:(lra)). rewrite (Rabs_pos_eq (tan _)), (Rabs_pos_eq (B2R x)) by lra. apply tan_main_acc; auto.
Qed.
