(** * Argument reduction of tan; sin and cos of large arguments *)
From Verif Require Import Base ModelBasic ModelInt ModelElem ModelApi FltLemmas Spec IntProofs BasicProofs ConvLemmas CxxProofs TotalProofs ExpAcc MiscProofs SymLemmas.
From Coq Require Import Lra Psatz.
From Coquelicot Require Import Coquelicot.
From Verif Require Import PF FPErr CFReal CFBound CFTrunc TanAcc SinAcc TrigReal TrigAng TrigWide TrigPole.
From Interval Require Import Tactic.
Open Scope R_scope.

Definition tcap f : R := 3 / uf f + 20000000000000000.
Definition pif f : R := B2R (conv f GCEM_PI).
Lemma pif_near f : Rabs (pif f - PI) <= 2 * uf f.
Proof. destruct (pi_val f) as (_ & V). unfold abs_err in V. replace (bpow radix2 (1 - prec f)) with (2 * uf f) in V by (unfold uf; replace (1 - prec f)%Z with (- prec f + 1)%Z by ring; rewrite bpow_plus_1; reflexivity). exact V. Qed.
Lemma pif_rng f : 314159 / 100000 <= pif f <= 31416 / 10000.
Proof. assert (P := pif_near f). apply Rabs_le_inv in P. assert (u0 := uf_small f). assert (3141592 / 1000000 <= PI <= 3141593 / 1000000) by (split; interval). lra. Qed.
Lemma tcap_big f : 1000000 <= tcap f.
Proof. unfold tcap, Rdiv. assert (u0 := uf_small f). assert (0 < / uf f) by (apply Rinv_0_lt_compat; lra). lra. Qed.
Lemma lit160 f : finite (dlit f 160 2) = true /\ Rabs (B2R (dlit f 160 2) - 16 / 10) <= / 8388608.
Proof. destruct f; [dva (dlit F32 160 2) 13421773%positive (-23)%Z|dva (dlit F64 160 2) 7205759403792794%positive (-52)%Z|dva (dlit F80 160 2) 14757395258967642112%positive (-63)%Z]. Qed.
Definition mainok {f} (x w : flt f) : Prop := tan_cf_main x = Ok w /\ finite w = true /\ Rabs (B2R w) <= tcap f /\ ang (B2R w) (B2R x) <= 19 * uf f + bpow radix2 (-53).

Lemma main_pos {f} (x : flt f) : finite x = true -> bpow radix2 (2 - emax f) <= B2R x <= pif f -> exists w, mainok x w.
Proof.
  intros Fx (X0 & X1). unfold mainok. assert (u0 := uf_small f). assert (pr := pif_rng f). assert (tb := tcap_big f). assert (fm0 := bpow_gt_0 radix2 (2 - emax f)).
  assert (b53 : bpow radix2 (-53) = / 9007199254740992) by reflexivity.
  assert (b80 : bpow radix2 (-80) <= / 1000000 * bpow radix2 (-53)) by (cbn; lra). assert (b100 : bpow radix2 (-100) <= bpow radix2 (-53)) by (apply bpow_le; lia).
  destruct (Rle_or_lt (B2R x) (3 / 2)) as [L|L].
  - destruct (tan_main_acc x Fx ltac:(lra)) as (w & E & Fw & R). exists w. cbn [tan_begin] in E. destruct (pi_val f) as (Fp & _). rewrite (flt_false (conv f GCEM_PI) x) in E by auto. split; auto. split; auto.
    set (c := (if Rle_dec (B2R x) 1 then 4 else 36)) in * . assert (Hc : 0 <= c <= 36) by (unfold c; destruct (Rle_dec (B2R x) 1); lra).
    assert (T := tan_ge (B2R x) ltac:(lra)). assert (TU : tan (B2R x) <= 20). { interval_intro (tan (3 / 2)) upper. apply Rle_trans with (tan (3 / 2)); [|lra]. destruct (Req_dec (B2R x) (3 / 2)) as [->|N]. lra. left. assert (3.1 < PI) by interval. apply tan_increasing; lra. }
    assert (cu : 0 <= c * uf f <= 36 * uf f) by (split; [apply Rmult_le_pos; lra|apply Rmult_le_compat_r; lra]). set (t := tan (B2R x)) in * . assert (b0 := bpow_gt_0 radix2 (-80)). assert (b1 : bpow radix2 (-80) <= / 1000000) by (cbn; lra).
    split. { replace (B2R w) with ((B2R w - t) + t) by ring. eapply Rle_trans. apply Rabs_triang. rewrite (Rabs_pos_eq t) by lra. assert ((c * uf f + bpow radix2 (-80)) * t <= 1 * t) by (apply Rmult_le_compat_r; lra). lra. }
    set (p := (B2R w - t) / t). assert (Hp : Rabs p <= c * uf f + bpow radix2 (-80)). { unfold p, Rdiv. rewrite Rabs_mult, Rabs_inv, (Rabs_pos_eq t) by lra. apply Rmult_le_reg_r with t. lra. rewrite Rmult_assoc, Rinv_l, Rmult_1_r by lra. exact R. }
    assert (A := ang_tan (B2R w) (B2R x) p). assert (ang (B2R w) (B2R x) <= 51 / 100 * Rabs p). { apply A. apply Rgt_not_eq, cos_gt_0; assert (3.1 < PI) by interval; lra. lra. fold t. unfold p. field. lra. } lra.
  - destruct (lit155 f) as (F155 & V155). destruct (lit160 f) as (F160 & V160). destruct (lit14 f) as (F14 & V14). apply Rabs_le_inv in V155. apply Rabs_le_inv in V160. apply Rabs_le_inv in V14. unfold tan_cf_main.
    rewrite (flt_true (dlit f 14 1) x) by (auto; lra). 
    assert (CF : (B2R x <= 1551 / 1000 \/ 1599 / 1000 <= B2R x) -> exists w, Ok (x /. tan_cf_recur (x *. x) 1 45) = Ok w /\ finite w = true /\ Rabs (B2R w) <= tcap f /\ ang (B2R w) (B2R x) <= 19 * uf f + bpow radix2 (-53)).
    { intros D. rewrite tan_fcf by lia. change (Z.to_nat (45 - 1)) with 44%nat. destruct (cf_wide x Fx ltac:(lra)) as (Fw & Bw & Aw). eexists. split; [reflexivity|]. split; auto. split; lra. }
    destruct (dlit f 155 2 <. x) eqn:C1; [apply flt_true_inv in C1; auto|apply flt_false_inv in C1; auto]. destruct (x <. dlit f 160 2) eqn:C2; [apply flt_true_inv in C2; auto|apply flt_false_inv in C2; auto]; cbn [andb].
    + destruct (pole_acc x Fx ltac:(lra)) as (w & E & Fw & Bw & Aw). exists w. split; auto. split; auto. split. exact Bw. lra.
    + apply CF. lra.
    + cbn [andb]. apply CF. lra.
Qed.
Lemma main_zero {f} (s : bool) : tan_cf_main (B754_zero s : flt f) = Ok (B754_zero s).
Proof. destruct f, s; vm_compute; reflexivity. Qed.
Lemma main_all {f} (x : flt f) : finite x = true -> - / 16 <= B2R x <= pif f -> B2R x = 0 \/ bpow radix2 (2 - emax f) <= Rabs (B2R x) -> exists w, mainok x w.
Proof.
  intros Fx X N. assert (u0 := uf_small f). assert (pr := pif_rng f). assert (tb := tcap_big f). assert (fm0 := bpow_gt_0 radix2 (2 - emax f)). assert (b0 := bpow_gt_0 radix2 (-53)).
  destruct N as [Z|N].
  - destruct (zero_of x Fx Z) as (s & ->). exists (B754_zero s). split. apply main_zero. split; auto. change (B2R (B754_zero s)) with 0. rewrite Rabs_R0. split. lra. unfold ang. rewrite atan_0, Rminus_0_r, sin_0, Rabs_R0. lra.
  - destruct (Rle_or_lt 0 (B2R x)) as [P|P].
    + apply main_pos; auto. rewrite Rabs_pos_eq in N; lra.
    + rewrite Rabs_left in N by auto. destruct (main_pos (-. x)) as (w & E & Fw & Bw & Aw). rewrite fneg_finite; auto. rewrite fneg_B2R; lra.
      rewrite fneg_B2R in Aw. exists (-. w). unfold mainok. rewrite fneg_finite, fneg_B2R, Rabs_Ropp. rewrite <- ang_opp, Ropp_involutive. split; [|repeat split; auto].
      destruct (lit155 f) as (F155 & V155). destruct (lit14 f) as (F14 & V14). apply Rabs_le_inv in V155. apply Rabs_le_inv in V14. destruct (ofZ_small f 1 ltac:(lia)) as (V1 & F1 & _).
      assert (Fn : finite (-. x) = true) by (rewrite fneg_finite; auto). assert (Vn := fneg_B2R x). unfold tan_cf_main in * .
      rewrite (flt_false (dlit f 155 2) (-. x)), (flt_false (dlit f 14 1) (-. x)), (flt_false (ofZ f 1) (-. x)) in E by (auto; rewrite ?Vn; lra).
      rewrite (flt_false (dlit f 155 2) x), (flt_false (dlit f 14 1) x), (flt_false (ofZ f 1) x) by (auto; lra). cbn [andb] in * . rewrite fmul_neg_neg, fdiv_neg_l in E. injection E as <-. rewrite fneg_involutive. reflexivity.
Qed.
Lemma p6_u f : bpow radix2 (prec f - 6) * uf f = / 64.
Proof. unfold uf. rewrite <- bpow_plus. replace (prec f - 6 + - prec f)%Z with (-6)%Z by ring. reflexivity. Qed.
Lemma p6_le f : bpow radix2 (prec f - 6) <= 288230376151711744.
Proof. change 288230376151711744 with (bpow radix2 58). apply bpow_le. destruct f; discriminate. Qed.
(** One reduction step. *)
Lemma red_step {f} (x : flt f) : finite x = true -> pif f < B2R x <= bpow radix2 (prec f - 6) ->
  exists fl n (x1 : flt f), floor_check (x /. conv f GCEM_PI) = Ok fl /\ (1 <= n)%nat /\ x1 = x -. conv f GCEM_PI *. fl /\ finite x1 = true /\ - / 16 <= B2R x1 <= pif f + / 32 /\ (B2R x1 = 0 \/ uf f / 2 <= Rabs (B2R x1)) /\
    Rabs (B2R x - INR n * PI - B2R x1) <= (165 / 100 * B2R x + 33 / 10) * uf f.
Proof.
  intros Fx X. assert (u0 := uf_small f). assert (pr := pif_rng f). assert (pn := pif_near f). destruct (pi_val f) as (Fp & _). fold (pif f) in * . set (P := pif f) in * . assert (p6 := p6_u f). assert (p6l := p6_le f).
  set (r := B2R x) in * . assert (r0 : 0 < r) by lra. assert (ru : r * uf f <= / 64) by (rewrite <- p6; apply Rmult_le_compat_r; lra).
  assert (Q1 : 1 <= r / P) by (apply Rmult_le_reg_r with P; [lra|]; replace (r / P * P) with r by (field; lra); lra). assert (Q2 : r / P <= 3184 / 10000 * r). { unfold Rdiv. rewrite Rmult_comm. apply Rmult_le_compat_r. lra. apply Rle_trans with (/ (314159 / 100000)). apply Rinv_le; lra. lra. }
  destruct (op_div x (conv f GCEM_PI) Fx) as (Fy & Vy). fold (pif f). fold P. lra. { fold r. fold (pif f). fold P. rewrite Rabs_pos_eq; lra. } fold r (pif f) in Vy. fold P in Vy.
  assert (Y1 : 1 <= B2R (x /. conv f GCEM_PI)). { rewrite Vy. apply rnd_ge_fmt; auto. apply (fmt_IZR f 1). destruct f; cbn; lia. }
  destruct (rnd_u f (r / P)) as (e & He & Ve). { apply norm_le. rewrite Rabs_pos_eq; lra. } assert (He' := He). apply Rabs_le_inv in He'.
  destruct (floor_ok (x /. conv f GCEM_PI)) as (fl & n & E & (Ffl & Vfl) & (N1 & N2)). { split; auto. right. rewrite Rabs_pos_eq by lra. apply norm_le. lra. }
  set (y := B2R (x /. conv f GCEM_PI)) in * . assert (Yu : y <= r / P * (1 + uf f)). { rewrite Vy, Ve. apply Rmult_le_compat_l; lra. }
  assert (n0 : (0 <= n)%Z). { apply le_IZR. assert (0 < IZR n + 1) by lra. assert (0 < n + 1)%Z by (apply lt_IZR; rewrite plus_IZR; lra). apply IZR_le. lia. }
  assert (n1 : (1 <= n)%Z). { assert (1 < n + 1)%Z by (apply lt_IZR; rewrite plus_IZR; lra). lia. }
  assert (Nr : IZR n <= 319 / 1000 * r). { assert (r / P * (1 + uf f) <= 3184 / 10000 * r * (1 + / 16777216)) by (apply Rmult_le_compat; lra). lra. }
  assert (Nb : (n + 1 <= 2 ^ prec f)%Z). { apply le_IZR. rewrite plus_IZR, (IZR_Zpower radix2) by (destruct f; discriminate). assert (bpow radix2 (prec f - 6) <= / 64 * bpow radix2 (prec f)). { unfold Zminus. rewrite bpow_plus. cbn. lra. } assert (1000 <= bpow radix2 (prec f)). { apply Rle_trans with (bpow radix2 10). cbn; lra. apply bpow_le. destruct f; discriminate. } lra. }
  assert (Qn : r / P < IZR n + 1). { apply Rnot_le_lt. intros K. assert (IZR (n + 1) <= y). { rewrite Vy. apply rnd_ge_fmt. apply fmt_IZR. lia. rewrite plus_IZR. lra. } rewrite plus_IZR in H. lra. }
  set (N := IZR n) in * . assert (N1' : 1 <= N) by (apply IZR_le; auto).
  assert (Pn1 : r - P * N < P). { assert (r / P * P < (N + 1) * P) by (apply Rmult_lt_compat_r; lra). replace (r / P * P) with r in H by (field; lra). lra. }
  assert (Pn2 : - (r * uf f) <= r - P * N). { assert (N * P <= r / P * (1 + uf f) * P) by (apply Rmult_le_compat_r; lra). replace (r / P * (1 + uf f) * P) with (r * (1 + uf f)) in H by (field; lra). lra. }
  assert (PN : 3 <= P * N <= 101 / 100 * r). { split. apply Rle_trans with (P * 1). lra. apply Rmult_le_compat_l; lra. assert (r * uf f <= r * / 16777216) by (apply Rmult_le_compat_l; lra). lra. }
  destruct (op_mul (conv f GCEM_PI) fl Fp Ffl) as (Fpn & Vpn). { fold (pif f). fold P. rewrite Vfl. rewrite Rabs_pos_eq; lra. } fold (pif f) in Vpn. fold P in Vpn. rewrite Vfl in Vpn.
  destruct (rnd_u f (P * N)) as (e2 & He2 & Ve2). { apply norm_le. rewrite Rabs_pos_eq; lra. } rewrite Ve2 in Vpn. set (p := B2R (conv f GCEM_PI *. fl)) in * . assert (He2' := He2). apply Rabs_le_inv in He2'.
  assert (Ep : Rabs (p - P * N) <= 1001 / 1000 * r * uf f). { rewrite Vpn. replace (P * N * (1 + e2) - P * N) with (P * N * e2) by ring. rewrite Rabs_mult, (Rabs_pos_eq (P * N)) by lra. apply Rmult_le_compat; auto using Rabs_pos; try lra. assert (r * uf f <= r * / 16777216) by (apply Rmult_le_compat_l; lra). lra. }
  assert (Ep' := Ep). apply Rabs_le_inv in Ep'.
  destruct (diff_far x (conv f GCEM_PI *. fl) Fx Fpn) as (F1 & V1 & Far). { fold r. rewrite Rabs_pos_eq; lra. } { fold p. rewrite Rabs_pos_eq; lra. } fold r p in V1.
  exists fl, (Z.to_nat n), (x -. conv f GCEM_PI *. fl). split; auto. split. lia. split; auto. split; auto. set (x1 := B2R (x -. conv f GCEM_PI *. fl)) in * .
  assert (En := rnd_small f (r - p)). rewrite <- V1 in En. assert (b := b100). assert (Rp : Rabs (r - p) <= 316 / 100) by (apply Rabs_le; lra).
  assert (uf f * Rabs (r - p) <= uf f * (316 / 100)) by (apply Rmult_le_compat_l; lra). assert (uf f * bpow radix2 (-100) <= uf f * / 1000000000) by (apply Rmult_le_compat_l; lra).
  assert (En2 : Rabs (x1 - (r - p)) <= 32 / 10 * uf f) by lra. assert (En3 := En2). apply Rabs_le_inv in En3. split. lra. split; auto.
  rewrite INR_IZR_INZ, Z2Nat.id by auto. fold N. replace (r - N * PI - x1) with (- (x1 - (r - p)) + (p - P * N) + N * (P - PI)) by ring.
  eapply Rle_trans. apply Rabs_triang. eapply Rle_trans. apply Rplus_le_compat_r. apply Rabs_triang. rewrite Rabs_Ropp.
  assert (Rabs (N * (P - PI)) <= 319 / 1000 * r * (2 * uf f)). { rewrite Rabs_mult, (Rabs_pos_eq N) by lra. apply Rmult_le_compat; auto using Rabs_pos; lra. } lra.
Qed.
Definition tang (x : R) (f : fmt) : R := (31 + 165 / 100 * Rabs x) * uf f + bpow radix2 (-53).
Lemma far_norm {f} (x : R) : x = 0 \/ uf f / 2 <= Rabs x -> x = 0 \/ bpow radix2 (2 - emax f) <= Rabs x.
Proof. intros [Z|K]; auto. right. apply norm_u. assert (u0 := uf_small f). lra. Qed.
Lemma tan_begin_ang {f} (x : flt f) : finite x = true -> bpow radix2 (2 - emax f) <= B2R x <= bpow radix2 (prec f - 6) ->
  exists w, tan_begin 3 x 0 = Ok w /\ finite w = true /\ Rabs (B2R w) <= tcap f /\ ang (B2R w) (B2R x) <= tang (B2R x) f.
Proof.
  intros Fx X. unfold tang. assert (u0 := uf_small f). assert (pr := pif_rng f). assert (pn := pif_near f). apply Rabs_le_inv in pn. destruct (pi_val f) as (Fp & _). assert (fm0 := bpow_gt_0 radix2 (2 - emax f)). rewrite (Rabs_pos_eq (B2R x)) by lra.
  set (r := B2R x) in * . assert (ru : 0 <= r * uf f) by (apply Rmult_le_pos; lra).
  cbn [tan_begin]. destruct (conv f GCEM_PI <. x) eqn:C0.
  2: { apply flt_false_inv in C0; auto. fold r (pif f) in C0. destruct (main_pos x Fx ltac:(fold r; lra)) as (w & E & Fw & Bw & Aw). exists w. repeat split; auto. fold r in Aw. lra. }
  apply flt_true_inv in C0; auto. fold r (pif f) in C0. destruct (red_step x Fx ltac:(fold r; lra)) as (fl & n & x1 & E & _ & -> & F1 & B1 & Far1 & Er1). fold r in Er1. set (x1 := x -. conv f GCEM_PI *. fl) in * .
  change (1 <? 0)%Z with false. cbn match. rewrite E. cbn [bind]. fold x1. change (0 + 1)%Z with 1%Z. change (1 <? 1)%Z with false. cbn match.
  destruct (conv f GCEM_PI <. x1) eqn:C1.
  - apply flt_true_inv in C1; auto. fold (pif f) in C1. assert (p8 : 4 <= bpow radix2 (prec f - 6)). { apply Rle_trans with (bpow radix2 2). cbn; lra. apply bpow_le. destruct f; discriminate. }
    destruct (red_step x1 F1 ltac:(lra)) as (fl2 & n2 & x2 & E2 & Hn2 & -> & F2 & B2 & Far2 & Er2). set (x2 := x1 -. conv f GCEM_PI *. fl2) in * . rewrite E2. cbn [bind]. fold x2. change (1 + 1)%Z with 2%Z.
    assert (Er2' : Rabs (B2R x1 - INR n2 * PI - B2R x2) <= 86 / 10 * uf f). { eapply Rle_trans. exact Er2. apply Rmult_le_compat_r; lra. } clear Er2.
    assert (N2 : 1 <= INR n2) by (apply (le_INR 1); auto). assert (3 <= PI) by interval. assert (3.14 <= INR n2 * PI). { assert (1 * PI <= INR n2 * PI) by (apply Rmult_le_compat_r; lra). assert (314159 / 100000 <= PI) by interval. lra. }
    assert (K := Er2'). apply Rabs_le_inv in K.
    rewrite (flt_false (conv f GCEM_PI) x2) by (auto; fold (pif f); lra).
    destruct (main_all x2 F2 ltac:(lra) (far_norm _ Far2)) as (w & Em & Fw & Bw & Aw). exists w. split; auto. split; auto. split; auto.
    assert (A1 := ang_x (B2R w) (B2R x1 - INR n2 * PI) (B2R x2)). assert (A2 := ang_per (B2R w) (B2R x1 - INR n2 * PI) n2). replace (B2R x1 - INR n2 * PI + INR n2 * PI) with (B2R x1) in A2 by ring.
    assert (A3 := ang_x (B2R w) (r - INR n * PI) (B2R x1)). assert (A4 := ang_per (B2R w) (r - INR n * PI) n). replace (r - INR n * PI + INR n * PI) with r in A4 by ring. lra.
  - apply flt_false_inv in C1; auto. fold (pif f) in C1. destruct (main_all x1 F1 ltac:(lra) (far_norm _ Far1)) as (w & Em & Fw & Bw & Aw). exists w. split; auto. split; auto. split; auto.
    assert (A3 := ang_x (B2R w) (r - INR n * PI) (B2R x1)). assert (A4 := ang_per (B2R w) (r - INR n * PI) n). replace (r - INR n * PI + INR n * PI) with r in A4 by ring. lra.
Qed.
Lemma tan_check_ang {f} (x : flt f) : finite x = true -> Rabs (B2R x) <= bpow radix2 (prec f - 6) ->
  exists w, tan_check x = Ok w /\ finite w = true /\ Rabs (B2R w) <= tcap f /\ ang (B2R w) (B2R x) <= tang (B2R x) f.
Proof.
  intros Fx X. assert (u0 := uf_small f). destruct (fmin_spec f) as (Vm & Fm). destruct (ofZ_small f 0 ltac:(lia)) as (V0 & F0 & _). assert (tb := tcap_big f). assert (b0 := bpow_gt_0 radix2 (-53)).
  unfold tan_check. rewrite finite_not_nan by auto. destruct (ModelBasic.abs x <. fmin f) eqn:C.
  - apply flt_true_inv in C; auto. 2: rewrite abs_finite; auto. rewrite abs_B2R, Vm in C. exists (ofZ f 0). split; auto. split; auto. rewrite V0, Rabs_R0. split. lra. eapply Rle_trans. apply ang_small. rewrite Rabs_R0. assert (fs := fm_small f).
    unfold tang. assert (0 <= Rabs (B2R x) * uf f) by (apply Rmult_le_pos; [apply Rabs_pos|lra]). lra.
  - apply flt_false_inv in C; auto. 2: rewrite abs_finite; auto. rewrite abs_B2R, Vm in C. destruct (x <. ofZ f 0) eqn:D; [apply flt_true_inv in D; auto|apply flt_false_inv in D; auto]; rewrite V0 in D.
    + rewrite Rabs_left in C, X by auto. destruct (tan_begin_ang (-. x)) as (w & E & Fw & Bw & Aw). rewrite fneg_finite; auto. rewrite fneg_B2R; auto. rewrite E. cbn [bind]. exists (-. w). split; auto. rewrite fneg_finite, fneg_B2R, Rabs_Ropp. split; auto. split; auto.
      rewrite fneg_B2R in Aw. rewrite <- ang_opp, Ropp_involutive. unfold tang in * . rewrite Rabs_Ropp in Aw. exact Aw.
    + rewrite Rabs_pos_eq in C, X by auto. apply tan_begin_ang; auto.
Qed.
(** ** The half-angle formulas for any tangent in range *)
Lemma tcap_sq f : tcap f * tcap f <= bpow radix2 (emax f - 3).
Proof. unfold tcap, uf. destruct f; cbn -[Z.pow_pos]; vm_compute Z.pow_pos; lra. Qed.
Lemma fin_sq f z : Rabs z <= bpow radix2 (emax f - 1) -> Rabs (rnd f z) < bpow radix2 (emax f).
Proof. intros H. apply rnd_lt_emax_bpow with (emax f - 1)%Z; auto. unfold emin; destruct f; split; try discriminate; reflexivity. Qed.
Section Half.
Context {f : fmt} (t : flt f).
Hypothesis Ft : finite t = true.
Hypothesis Tb : Rabs (B2R t) <= tcap f.
Let r := B2R t.
Let u0 := uf_small f.
Lemma hsq : 0 <= r * r <= bpow radix2 (emax f - 3) /\ 1024 <= bpow radix2 (emax f - 3) /\ bpow radix2 (emax f - 1) = 4 * bpow radix2 (emax f - 3).
Proof.
  split; [|split]. { split. nra. replace (r * r) with (Rabs r * Rabs r) by (rewrite <- Rabs_mult, Rabs_pos_eq; nra). eapply Rle_trans. apply Rmult_le_compat; try apply Rabs_pos; exact Tb. apply tcap_sq. }
  change 1024 with (bpow radix2 10). apply bpow_le. destruct f; discriminate. replace (emax f - 1)%Z with (emax f - 3 + 2)%Z by ring. rewrite bpow_plus. cbn. ring.
Qed.
Lemma hq : finite (t *. t) = true /\ Rabs (B2R (t *. t) - r * r) <= uf f * (r * r) + uf f * bpow radix2 (-100).
Proof.
  destruct hsq as (H1 & H2 & H3). destruct (fmul_spec t t Ft Ft) as (V & F). { apply fin_sq. fold r. rewrite Rabs_pos_eq; lra. } fold r in V. split; auto. rewrite V. assert (E := rnd_small f (r * r)). rewrite (Rabs_pos_eq (r * r)) in E by lra. exact E.
Qed.
Lemma hd : finite (ofZ f 1 +. t *. t) = true /\ exists e, B2R (ofZ f 1 +. t *. t) = (1 + r * r) * (1 + e) /\ Rabs e <= 201 / 100 * uf f.
Proof.
  destruct hsq as (H1 & H2 & H3). destruct hq as (Fq & Eq). set (q := B2R (t *. t)) in * . destruct (ofZ_small f 1 ltac:(lia)) as (V1 & F1 & _). assert (b := b100). set (s := r * r) in * .
  assert (us : 0 <= uf f * s <= / 16777216 * s) by (split; [apply Rmult_le_pos; lra|apply Rmult_le_compat_r; lra]). assert (ub : 0 < uf f * bpow radix2 (-100) <= uf f * / 1000000000) by (split; [apply Rmult_lt_0_compat; lra|apply Rmult_le_compat_l; lra]).
  assert (Eq' := Eq). apply Rabs_le_inv in Eq'. destruct (fadd_spec (ofZ f 1) (t *. t) F1 Fq) as (Vd & Fd). { apply fin_sq. rewrite V1. fold q. rewrite Rabs_pos_eq; lra. } rewrite V1 in Vd. fold q in Vd. split; auto.
  destruct (rnd_u f (1 + q)) as (e & He & Ve). { apply norm_le. rewrite Rabs_pos_eq; lra. } rewrite Vd, Ve. set (D := 1 + s). assert (D1 : 1 <= D) by (unfold D; lra). exists ((1 + q) * (1 + e) / D - 1). split. field; lra.
  replace ((1 + q) * (1 + e) / D - 1) with (((q - s) * (1 + e) + D * e) / D) by (unfold D; field; fold D; lra).
  unfold Rdiv at 1. rewrite Rabs_mult, (Rabs_pos_eq (/ D)) by (left; apply Rinv_0_lt_compat; lra). apply Rmult_le_reg_r with D. lra. replace (Rabs ((q - s) * (1 + e) + D * e) * / D * D) with (Rabs ((q - s) * (1 + e) + D * e)) by (field; lra).
  eapply Rle_trans. apply Rabs_triang. rewrite !Rabs_mult, (Rabs_pos_eq D) by lra. assert (Rabs (1 + e) <= 1 + / 16777216) by (apply Rabs_le_inv in He; apply Rabs_le; lra).
  assert (Rabs (q - s) * Rabs (1 + e) <= (uf f * s + uf f * bpow radix2 (-100)) * (1 + / 16777216)) by (apply Rmult_le_compat; auto using Rabs_pos). assert (D * Rabs e <= D * uf f) by (apply Rmult_le_compat_l; lra).
  assert (uf f * D = uf f + uf f * s) by (unfold D; ring). lra.
Qed.
(** a quotient whose numerator is known within k u D *)
Lemma hquot (n : flt f) N k : finite n = true -> 0 <= k <= 3 -> Rabs (B2R n - N) <= k * uf f * (1 + r * r) -> Rabs (N / (1 + r * r)) <= 1 ->
  finite (n /. (ofZ f 1 +. t *. t)) = true /\ Rabs (B2R (n /. (ofZ f 1 +. t *. t)) - N / (1 + r * r)) <= (k + 302 / 100) * uf f.
Proof.
  intros Fn K En Nb. destruct hd as (Fd & e & Vd & He). destruct hsq as (H1 & _). set (d := ofZ f 1 +. t *. t) in * . set (D := 1 + r * r) in * . assert (D1 : 1 <= D) by (unfold D; lra). assert (He' := He). apply Rabs_le_inv in He'.
  assert (d0 : 0 < B2R d) by (rewrite Vd; apply Rmult_lt_0_compat; lra). set (g := (B2R n - N) / D). assert (Hg : Rabs g <= k * uf f). { unfold g, Rdiv. rewrite Rabs_mult, Rabs_inv, (Rabs_pos_eq D) by lra. apply Rmult_le_reg_r with D. lra. rewrite Rmult_assoc, Rinv_l, Rmult_1_r by lra. exact En. }
  assert (ku : k * uf f <= 3 * / 16777216) by (apply Rmult_le_compat; lra). set (v := N / D) in * .
  assert (Q : B2R n / B2R d = (v + g) * / (1 + e)) by (rewrite Vd; unfold v, g; field; lra).
  assert (i : 1 - 2011 / 1000 * uf f <= / (1 + e) <= 1 + 2011 / 1000 * uf f).
  { assert (uu : uf f * uf f <= / 16777216 * uf f) by (apply Rmult_le_compat_r; lra). split; apply Rmult_le_reg_r with (1 + e); try lra; rewrite Rinv_l by lra.
    - assert (e * uf f <= 201 / 100 * uf f * uf f) by (apply Rmult_le_compat_r; lra). assert (- (201 / 100 * uf f) * uf f <= e * uf f) by (apply Rmult_le_compat_r; lra). lra.
    - assert (e * uf f <= 201 / 100 * uf f * uf f) by (apply Rmult_le_compat_r; lra). assert (- (201 / 100 * uf f) * uf f <= e * uf f) by (apply Rmult_le_compat_r; lra). lra. }
  assert (E1 : Rabs (B2R n / B2R d - v) <= (k + 2012 / 1000) * uf f).
  { rewrite Q. replace ((v + g) * / (1 + e) - v) with (v * (/ (1 + e) - 1) + g * / (1 + e)) by ring. eapply Rle_trans. apply Rabs_triang. rewrite !Rabs_mult.
    assert (Rabs (/ (1 + e) - 1) <= 2011 / 1000 * uf f) by (apply Rabs_le; lra). assert (Rabs v * Rabs (/ (1 + e) - 1) <= 1 * (2011 / 1000 * uf f)) by (apply Rmult_le_compat; auto using Rabs_pos).
    assert (Rabs g * Rabs (/ (1 + e)) <= k * uf f * (1 + 2011 / 1000 * uf f)). { apply Rmult_le_compat; auto using Rabs_pos. rewrite Rabs_pos_eq; lra. }
    assert (k * uf f * (2011 / 1000 * uf f) <= 3 * / 16777216 * (2011 / 1000 * uf f)) by (apply Rmult_le_compat_r; lra). lra. }
  assert (zb : Rabs (B2R n / B2R d) <= 1 + 6 * / 16777216). { replace (B2R n / B2R d) with ((B2R n / B2R d - v) + v) by ring. eapply Rle_trans. apply Rabs_triang. lra. }
  destruct (op_div n d Fn) as (Fw & Vw). lra. lra. split; auto. rewrite Vw. assert (E2 := rnd_small f (B2R n / B2R d)). assert (b := b100). set (z := B2R n / B2R d) in * .
  assert (uf f * Rabs z <= uf f * (1 + 6 * / 16777216)) by (apply Rmult_le_compat_l; lra). assert (uf f * bpow radix2 (-100) <= uf f * / 1000000000) by (apply Rmult_le_compat_l; lra).
  replace (rnd f z - v) with ((rnd f z - z) + (z - v)) by ring. eapply Rle_trans. apply Rabs_triang. lra.
Qed.
Lemma hsin : finite (sin_compute t) = true /\ Rabs (B2R (sin_compute t) - 2 * r / (1 + r * r)) <= 5 * uf f.
Proof.
  destruct hsq as (H1 & H2 & H3). destruct (ofZ_small f 2 ltac:(lia)) as (V2 & F2 & _). assert (ab : 2 * Rabs r <= 1 + r * r). { assert (Rabs r * Rabs r = r * r) by (rewrite <- Rabs_mult, Rabs_pos_eq; nra). assert (K := Rle_0_sqr (Rabs r - 1)). unfold Rsqr in K. lra. }
  assert (A2 : Rabs (2 * r) = 2 * Rabs r) by (rewrite Rabs_mult, (Rabs_pos_eq 2); lra).
  destruct (fmul_spec (ofZ f 2) t F2 Ft) as (Vn & Fn). { apply fin_sq. rewrite V2. fold r. rewrite A2. lra. } rewrite V2 in Vn. fold r in Vn. unfold sin_compute.
  assert (E := rnd_small f (2 * r)). rewrite <- Vn, A2 in E. assert (b := b100). assert (uf f * (2 * Rabs r) <= uf f * (1 + r * r)) by (apply Rmult_le_compat_l; lra). assert (uf f * bpow radix2 (-100) <= uf f * / 1000000000) by (apply Rmult_le_compat_l; lra). assert (0 <= uf f * (r * r)) by (apply Rmult_le_pos; lra).
  destruct (hquot (ofZ f 2 *. t) (2 * r) (101 / 100) Fn ltac:(lra)) as (Fw & Ew). lra. { unfold Rdiv. rewrite Rabs_mult, A2, Rabs_inv, (Rabs_pos_eq (1 + r * r)) by lra. apply Rmult_le_reg_r with (1 + r * r). lra. rewrite Rmult_assoc, Rinv_l, Rmult_1_r by lra. lra. } split; auto. lra.
Qed.
Lemma hcos : finite (cos_compute t) = true /\ Rabs (B2R (cos_compute t) - (1 - r * r) / (1 + r * r)) <= 6 * uf f.
Proof.
  destruct hsq as (H1 & H2 & H3). destruct hq as (Fq & Eq). set (q := B2R (t *. t)) in * . destruct (ofZ_small f 1 ltac:(lia)) as (V1 & F1 & _). assert (b := b100). set (s := r * r) in * .
  assert (us : 0 <= uf f * s <= / 16777216 * s) by (split; [apply Rmult_le_pos; lra|apply Rmult_le_compat_r; lra]). assert (ub : 0 < uf f * bpow radix2 (-100) <= uf f * / 1000000000) by (split; [apply Rmult_lt_0_compat; lra|apply Rmult_le_compat_l; lra]).
  assert (Eq' := Eq). apply Rabs_le_inv in Eq'. assert (qb : Rabs (1 - q) <= 1 + s + (/ 16777216 * s + / 16777216)) by (apply Rabs_le; lra).
  destruct (fsub_spec (ofZ f 1) (t *. t) F1 Fq) as (Vn & Fn). { apply fin_sq. rewrite V1. fold q. lra. } rewrite V1 in Vn. fold q in Vn. unfold cos_compute.
  assert (E := rnd_small f (1 - q)). rewrite <- Vn in E. assert (uf f * Rabs (1 - q) <= uf f * (1 + s + (/ 16777216 * s + / 16777216))) by (apply Rmult_le_compat_l; lra).
  destruct (hquot (ofZ f 1 -. t *. t) (1 - s) (202 / 100) Fn ltac:(lra)) as (Fw & Ew).
  { fold s. replace (B2R (ofZ f 1 -. t *. t) - (1 - s)) with ((B2R (ofZ f 1 -. t *. t) - (1 - q)) + - (q - s)) by ring. eapply Rle_trans. apply Rabs_triang. rewrite Rabs_Ropp. lra. }
  { fold s. unfold Rdiv. rewrite Rabs_mult, Rabs_inv, (Rabs_pos_eq (1 + s)) by lra. apply Rmult_le_reg_r with (1 + s). lra. rewrite Rmult_assoc, Rinv_l, Rmult_1_r by lra. apply Rabs_le. lra. }
  fold s in Ew. split; auto. lra.
Qed.
End Half.
(** ** sin and cos *)
Lemma half_near {f} (x : flt f) : finite x = true -> Rabs (B2R x) <= bpow radix2 (prec f - 5) ->
  finite (x /. ofZ f 2) = true /\ Rabs (B2R (x /. ofZ f 2) - B2R x / 2) <= / 1000 * uf f /\ Rabs (B2R (x /. ofZ f 2)) <= bpow radix2 (prec f - 6).
Proof.
  intros Fx X. assert (u0 := uf_small f). assert (A2 : Rabs (B2R x / 2) = Rabs (B2R x) / 2) by (unfold Rdiv; rewrite Rabs_mult, (Rabs_pos_eq (/ 2)); lra).
  assert (P5 : bpow radix2 (prec f - 5) = 2 * bpow radix2 (prec f - 6)) by (replace (prec f - 5)%Z with (prec f - 6 + 1)%Z by ring; rewrite bpow_plus_1; reflexivity). assert (p6 := p6_le f).
  destruct (Rle_or_lt (bpow radix2 (3 - emax f)) (Rabs (B2R x))) as [L|L].
  - destruct (half_exact x Fx L) as (Fy & Vy). split; auto. rewrite Vy, Rminus_diag_eq, Rabs_R0 by auto. split. lra. rewrite A2. lra.
  - destruct (ofZ_small f 2 ltac:(lia)) as (V2 & F2 & _). destruct (op_div x (ofZ f 2) Fx) as (Fy & Vy). rewrite V2; lra. rewrite V2, A2. lra. split; auto. rewrite V2 in Vy. assert (E := rnd_small f (B2R x / 2)). rewrite <- Vy, A2 in E.
    assert (fs := fm_small f). assert (B3 : bpow radix2 (3 - emax f) = 2 * bpow radix2 (2 - emax f)) by (replace (3 - emax f)%Z with (2 - emax f + 1)%Z by ring; rewrite bpow_plus_1; reflexivity). assert (b := b100).
    assert (uf f * (Rabs (B2R x) / 2) <= uf f * / 1000000). { apply Rmult_le_compat_l; lra. } assert (uf f * bpow radix2 (-100) <= uf f * / 1000000000) by (apply Rmult_le_compat_l; lra). split. lra.
    replace (B2R (x /. ofZ f 2)) with ((B2R (x /. ofZ f 2) - B2R x / 2) + B2R x / 2) by ring. eapply Rle_trans. apply Rabs_triang. rewrite A2. apply Rle_trans with (bpow radix2 2). change (bpow radix2 2) with 4; lra. apply bpow_le. destruct f; discriminate.
Qed.
Lemma near_cmp {f} (x : flt f) : finite x = true -> Rabs (B2R x) <= bpow radix2 (prec f - 5) ->
  ((ModelBasic.abs (x -. conv f GCEM_HALF_PI) <. fmin f) = true -> Rabs (B2R x - PI / 2) <= 3 * uf f) /\
  ((ModelBasic.abs (x +. conv f GCEM_HALF_PI) <. fmin f) = true -> Rabs (B2R x - - (PI / 2)) <= 3 * uf f) /\
  ((ModelBasic.abs (x -. conv f GCEM_PI) <. fmin f) = true -> Rabs (B2R x - PI) <= 3 * uf f) /\
  ((ModelBasic.abs (x +. conv f GCEM_PI) <. fmin f) = true -> Rabs (B2R x - - PI) <= 3 * uf f).
Proof.
  intros Fx X. assert (u0 := uf_small f). assert (p6 := p6_le f). assert (P5 : bpow radix2 (prec f - 5) = 2 * bpow radix2 (prec f - 6)) by (replace (prec f - 5)%Z with (prec f - 6 + 1)%Z by ring; rewrite bpow_plus_1; reflexivity).
  apply Rabs_le_inv in X. assert (fm := fm_small f). destruct (half_pi_val f) as (Fh & _). destruct (pi_val f) as (Fp & _). assert (H := hpi_near f). unfold hpi in H. apply Rabs_le_inv in H. assert (Vp := pif_near f). unfold pif in Vp. apply Rabs_le_inv in Vp.
  assert (P : 314 / 100 < PI < 3142 / 1000) by (split; interval).
  destruct (op_sub x (conv f GCEM_HALF_PI)) as (F1 & V1); auto. apply Rabs_le; lra.
  destruct (op_add x (conv f GCEM_HALF_PI)) as (F2 & V2); auto. apply Rabs_le; lra.
  destruct (op_sub x (conv f GCEM_PI)) as (F3 & V3); auto. apply Rabs_le; lra.
  destruct (op_add x (conv f GCEM_PI)) as (F4 & V4); auto. apply Rabs_le; lra.
  repeat split; intros C.
  - apply (near_true _ _ F1 V1) in C. apply Rabs_lt_inv in C. apply Rabs_le. lra.
  - apply (near_true _ _ F2 V2) in C. apply Rabs_lt_inv in C. apply Rabs_le. lra.
  - apply (near_true _ _ F3 V3) in C. apply Rabs_lt_inv in C. apply Rabs_le. lra.
  - apply (near_true _ _ F4 V4) in C. apply Rabs_lt_inv in C. apply Rabs_le. lra.
Qed.
Definition sc_err (f : fmt) (x : R) : R := (70 + 17 / 10 * Rabs x) * uf f + bpow radix2 (-52).
Lemma half_ang {f} (x : flt f) : finite x = true -> Rabs (B2R x) <= bpow radix2 (prec f - 5) ->
  exists t, tan_check (x /. ofZ f 2) = Ok t /\ finite t = true /\ Rabs (B2R t) <= tcap f /\ 2 * ang (B2R t) (B2R x / 2) + 6 * uf f <= sc_err f (B2R x).
Proof.
  intros Fx X. destruct (half_near x Fx X) as (Fy & Ey & By). destruct (tan_check_ang (x /. ofZ f 2) Fy By) as (t & E & Ft & Bt & At). exists t. repeat split; auto.
  assert (u0 := uf_small f). set (y := B2R (x /. ofZ f 2)) in * . assert (A := ang_x (B2R t) (B2R x / 2) y). rewrite (Rabs_minus_sym (B2R x / 2)) in A. unfold tang, sc_err in * .
  replace (bpow radix2 (-52)) with (2 * bpow radix2 (-53)) by (replace (-52)%Z with (-53 + 1)%Z by ring; rewrite bpow_plus_1; reflexivity).
  assert (Ab : Rabs y <= Rabs (B2R x) / 2 + / 1000). { replace y with ((y - B2R x / 2) + B2R x / 2) by ring. eapply Rle_trans. apply Rabs_triang. assert (A2 : Rabs (B2R x / 2) = Rabs (B2R x) / 2) by (unfold Rdiv; rewrite Rabs_mult, (Rabs_pos_eq (/ 2)); lra). lra. }
  assert (Rabs y * uf f <= (Rabs (B2R x) / 2 + / 1000) * uf f) by (apply Rmult_le_compat_r; lra). assert (0 <= Rabs (B2R x) * uf f) by (apply Rmult_le_pos; [apply Rabs_pos|lra]). lra.
Qed.
Lemma sin_wide {f} (x : flt f) : finite x = true -> Rabs (B2R x) <= bpow radix2 (prec f - 5) ->
  exists w, sin_check x = Ok w /\ finite w = true /\ abs_err (B2R w) (sin (B2R x)) (sc_err f (B2R x)).
Proof.
  intros Fx X. assert (u0 := uf_small f). destruct (near_cmp x Fx X) as (C1 & C2 & C3 & C4). destruct (fmin_spec f) as (Vm & Fm). destruct (ofZ_small f 1 ltac:(lia)) as (V1 & F1 & _). destruct (ofZ_small f 0 ltac:(lia)) as (V0 & F0 & _).
  assert (se : 3 * uf f <= sc_err f (B2R x)). { unfold sc_err. assert (0 <= Rabs (B2R x) * uf f) by (apply Rmult_le_pos; [apply Rabs_pos|lra]). assert (b := bpow_gt_0 radix2 (-52)). lra. }
  unfold sin_check. rewrite finite_not_nan by auto.
  assert (Fin : forall (w : flt f) y, finite w = true -> B2R w = sin y -> Rabs (B2R x - y) <= 3 * uf f -> exists w', Ok w = Ok w' /\ finite w' = true /\ abs_err (B2R w') (sin (B2R x)) (sc_err f (B2R x))).
  { intros w y Fw Vw D. exists w. split; auto. split; auto. unfold abs_err. rewrite Vw. eapply Rle_trans. apply lip_sin. rewrite Rabs_minus_sym. lra. }
  destruct (ModelBasic.abs x <. fmin f) eqn:D0.
  { apply flt_true_inv in D0; auto. 2: rewrite abs_finite; auto. rewrite abs_B2R, Vm in D0. apply (Fin _ 0); auto. rewrite V0, sin_0; auto. rewrite Rminus_0_r. assert (fs := fm_small f). lra. }
  destruct (ModelBasic.abs (x -. conv f GCEM_HALF_PI) <. fmin f) eqn:D1. { apply (Fin _ (PI / 2)); auto. rewrite V1, sin_PI2; auto. }
  destruct (ModelBasic.abs (x +. conv f GCEM_HALF_PI) <. fmin f) eqn:D2. { apply (Fin _ (- (PI / 2))); auto. rewrite fneg_finite; auto. rewrite fneg_B2R, V1, sin_neg, sin_PI2; auto. }
  destruct (ModelBasic.abs (x -. conv f GCEM_PI) <. fmin f) eqn:D3. { apply (Fin _ PI); auto. rewrite V0, sin_PI; auto. }
  destruct (ModelBasic.abs (x +. conv f GCEM_PI) <. fmin f) eqn:D4. { apply (Fin _ (- PI)); auto. rewrite fneg_B2R, V0, sin_neg, sin_PI; auto. }
  destruct (half_ang x Fx X) as (t & E & Ft & Bt & At). rewrite E. cbn [bind]. destruct (hsin t Ft Bt) as (Fw & Ew). exists (sin_compute t). split; auto. split; auto. unfold abs_err.
  assert (S := ang_sin (B2R t) (B2R x / 2)). replace (2 * (B2R x / 2)) with (B2R x) in S by field. set (v := 2 * B2R t / (1 + B2R t * B2R t)) in * .
  replace (B2R (sin_compute t) - sin (B2R x)) with ((B2R (sin_compute t) - v) + (v - sin (B2R x))) by ring. eapply Rle_trans. apply Rabs_triang. lra.
Qed.
Lemma cos_wide {f} (x : flt f) : finite x = true -> Rabs (B2R x) <= bpow radix2 (prec f - 5) ->
  exists w, cos_check x = Ok w /\ finite w = true /\ abs_err (B2R w) (cos (B2R x)) (sc_err f (B2R x)).
Proof.
  intros Fx X. assert (u0 := uf_small f). destruct (near_cmp x Fx X) as (C1 & C2 & C3 & C4). destruct (fmin_spec f) as (Vm & Fm). destruct (ofZ_small f 1 ltac:(lia)) as (V1 & F1 & _). destruct (ofZ_small f 0 ltac:(lia)) as (V0 & F0 & _).
  assert (se : 3 * uf f <= sc_err f (B2R x)). { unfold sc_err. assert (0 <= Rabs (B2R x) * uf f) by (apply Rmult_le_pos; [apply Rabs_pos|lra]). assert (b := bpow_gt_0 radix2 (-52)). lra. }
  unfold cos_check. rewrite finite_not_nan by auto.
  assert (Fin : forall (w : flt f) y, finite w = true -> B2R w = cos y -> Rabs (B2R x - y) <= 3 * uf f -> exists w', Ok w = Ok w' /\ finite w' = true /\ abs_err (B2R w') (cos (B2R x)) (sc_err f (B2R x))).
  { intros w y Fw Vw D. exists w. split; auto. split; auto. unfold abs_err. rewrite Vw. eapply Rle_trans. apply cos_lip. rewrite Rabs_minus_sym. lra. }
  destruct (ModelBasic.abs x <. fmin f) eqn:D0.
  { apply flt_true_inv in D0; auto. 2: rewrite abs_finite; auto. rewrite abs_B2R, Vm in D0. apply (Fin _ 0); auto. rewrite V1, cos_0; auto. rewrite Rminus_0_r. assert (fs := fm_small f). lra. }
  destruct (ModelBasic.abs (x -. conv f GCEM_HALF_PI) <. fmin f) eqn:D1. { apply (Fin _ (PI / 2)); auto. rewrite V0, cos_PI2; auto. }
  destruct (ModelBasic.abs (x +. conv f GCEM_HALF_PI) <. fmin f) eqn:D2. { apply (Fin _ (- (PI / 2))); auto. rewrite V0, cos_neg, cos_PI2; auto. }
  destruct (ModelBasic.abs (x -. conv f GCEM_PI) <. fmin f) eqn:D3. { apply (Fin _ PI); auto. rewrite fneg_finite; auto. rewrite fneg_B2R, V1, cos_PI; auto. }
  destruct (ModelBasic.abs (x +. conv f GCEM_PI) <. fmin f) eqn:D4. { apply (Fin _ (- PI)); auto. rewrite fneg_finite; auto. rewrite fneg_B2R, V1, cos_neg, cos_PI; auto. }
  destruct (half_ang x Fx X) as (t & E & Ft & Bt & At). rewrite E. cbn [bind]. destruct (hcos t Ft Bt) as (Fw & Ew). exists (cos_compute t). split; auto. split; auto. unfold abs_err.
  assert (S := ang_cos (B2R t) (B2R x / 2)). replace (2 * (B2R x / 2)) with (B2R x) in S by field. set (v := (1 - B2R t * B2R t) / (1 + B2R t * B2R t)) in * .
  replace (B2R (cos_compute t) - cos (B2R x)) with ((B2R (cos_compute t) - v) + (v - cos (B2R x))) by ring. eapply Rle_trans. apply Rabs_triang. lra.
Qed.
(** ** tan is the tangent of a nearby argument *)
Lemma small_angle a e : 0 <= e <= / 20 -> Rabs (sin a) <= e -> exists n : Z, Rabs (a - IZR n * PI) <= 1001 / 1000 * e.
Proof.
  intros E H. assert (P : 314159 / 100000 < PI < 31416 / 10000) by (split; interval). exists (Znearest (fun _ => true) (a / PI)). set (n := Znearest _ (a / PI)). set (b := a - IZR n * PI).
  assert (Hb : Rabs b <= PI / 2). { assert (N := Znearest_half (fun _ => true) (a / PI)). fold n in N. replace b with ((a / PI - IZR n) * PI) by (unfold b; field; lra). rewrite Rabs_mult, (Rabs_pos_eq PI) by lra. assert (Rabs (a / PI - IZR n) * PI <= / 2 * PI) by (apply Rmult_le_compat_r; lra). lra. }
  assert (Sb : Rabs (sin b) <= e).
  { replace (Rabs (sin b)) with (Rabs (sin a)); auto. unfold b. destruct (Z_le_gt_dec 0 n) as [L|L].
    - rewrite <- (Z2Nat.id n) by auto. rewrite <- INR_IZR_INZ. rewrite sin_shift_nat. reflexivity.
    - set (m := Z.to_nat (- n)). assert (Em : IZR n = - INR m) by (unfold m; rewrite INR_IZR_INZ, Z2Nat.id, opp_IZR by lia; ring). rewrite Em. rewrite <- (sin_shift_nat m (a - - INR m * PI)). f_equal. f_equal. ring. }
  assert (G : forall c, 0 <= c <= PI / 2 -> sin c <= e -> c <= 1001 / 1000 * e).
  { intros c C S. assert (c <= 6 / 100). { apply Rnot_lt_le. intros K. assert (sin (6 / 100) < sin c) by (apply sin_increasing_1; lra). assert (59 / 1000 < sin (6 / 100)) by interval. lra. }
    assert (B := SIN c ltac:(lra) ltac:(lra)). destruct B as (B & _). unfold sin_lb, sin_approx, sum_f_R0, sin_term in B. cbn in B. assert (c * c * c <= 36 / 10000 * c). { replace (c * c * c) with (c * c * c) by ring. assert (c * c <= 36 / 10000) by nra. apply Rmult_le_compat_r; lra. }
    assert (c - c * c * c / 6 <= sin c). { assert (K := pow_le c 5 ltac:(lra)). assert (K7 : c ^ 7 <= c ^ 5). { replace (c ^ 7) with (c ^ 5 * (c * c)) by ring. rewrite <- (Rmult_1_r (c ^ 5)) at 2. apply Rmult_le_compat_l; auto. nra. } cbn in K, K7. lra. } lra. }
  destruct (Rle_or_lt 0 b) as [L|L].
  - rewrite Rabs_pos_eq in * by auto. apply G; auto. apply Rle_trans with (2 := Sb). apply RRle_abs.
  - rewrite (Rabs_left b) in * by auto. apply G. lra. rewrite sin_neg. apply Rle_trans with (2 := Sb). rewrite <- Rabs_Ropp. apply RRle_abs.
Qed.
Definition tan_err (f : fmt) (x : R) : R := (32 + 17 / 10 * Rabs x) * uf f + bpow radix2 (-52).
Lemma tan_wide {f} (x : flt f) : finite x = true -> Rabs (B2R x) <= bpow radix2 (prec f - 6) ->
  exists w y, tan_check x = Ok w /\ finite w = true /\ Rabs (y - B2R x) <= tan_err f (B2R x) /\ cos y <> 0 /\ B2R w = tan y.
Proof.
  intros Fx X. destruct (tan_check_ang x Fx X) as (w & E & Fw & Bw & Aw). assert (u0 := uf_small f). assert (p6 := p6_u f).
  assert (xu : 0 <= Rabs (B2R x) * uf f <= / 64). { split. apply Rmult_le_pos; [apply Rabs_pos|lra]. rewrite <- p6. apply Rmult_le_compat_r; lra. } unfold tang in Aw. assert (b0 : 0 < bpow radix2 (-53) <= / 1000000) by (split; [apply bpow_gt_0|cbn; lra]).
  destruct (small_angle (atan (B2R w) - B2R x) ((31 + 165 / 100 * Rabs (B2R x)) * uf f + bpow radix2 (-53))) as (n & Hn). lra. exact Aw.
  exists w, (atan (B2R w) - IZR n * PI). split; auto. split; auto. split. { replace (atan (B2R w) - IZR n * PI - B2R x) with (atan (B2R w) - B2R x - IZR n * PI) by ring. eapply Rle_trans. exact Hn. unfold tan_err. replace (bpow radix2 (-52)) with (2 * bpow radix2 (-53)) by (replace (-52)%Z with (-53 + 1)%Z by ring; rewrite bpow_plus_1; reflexivity). lra. }
  assert (Per : forall k a, sin (a - INR k * PI) = (-1) ^ k * sin a /\ cos (a - INR k * PI) = (-1) ^ k * cos a).
  { induction k; intros a. cbn [INR]. rewrite Rmult_0_l, Rminus_0_r. cbn. lra. rewrite S_INR. replace (a - (INR k + 1) * PI) with (a - INR k * PI - PI) by ring. destruct (IHk a) as (I1 & I2). rewrite (sin_minus (a - INR k * PI) PI), (cos_minus (a - INR k * PI) PI), cos_PI, sin_PI, I1, I2. cbn [pow]. split; ring. }
  assert (C0 : cos (atan (B2R w)) <> 0). { apply Rgt_not_eq, cos_gt_0; assert (B := atan_bound (B2R w)); lra. }
  assert (Q : exists s, s <> 0 /\ sin (atan (B2R w) - IZR n * PI) = s * sin (atan (B2R w)) /\ cos (atan (B2R w) - IZR n * PI) = s * cos (atan (B2R w))).
  { destruct (Z_le_gt_dec 0 n) as [L|L].
    - rewrite <- (Z2Nat.id n), <- INR_IZR_INZ by auto. exists ((-1) ^ Z.to_nat n). split. apply pow_nonzero; lra. apply Per.
    - set (m := Z.to_nat (- n)). assert (Em : IZR n = - INR m) by (unfold m; rewrite INR_IZR_INZ, Z2Nat.id, opp_IZR by lia; ring). rewrite Em. set (a := atan (B2R w)) in * . destruct (Per m (a - - INR m * PI)) as (I1 & I2). replace (a - - INR m * PI - INR m * PI) with a in I1, I2 by ring.
      exists (/ (-1) ^ m). assert (N : (-1) ^ m <> 0) by (apply pow_nonzero; lra). split. apply Rinv_neq_0_compat; auto. split; [rewrite I1|rewrite I2]; field; auto. }
  destruct Q as (s & S0 & Q1 & Q2). split. rewrite Q2. apply Rmult_integral_contrapositive_currified; auto. unfold tan. rewrite Q1, Q2. rewrite <- (tan_atan (B2R w)) at 1. unfold tan. field. auto.
Qed.
