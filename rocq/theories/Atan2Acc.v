(** * Accuracy of atan2 away from the y axis *)
From Verif Require Import Base ModelBasic ModelInt ModelElem ModelApi FltLemmas Spec IntProofs BasicProofs ConvLemmas ExpAcc MiscProofs CxxProofs.
From Coq Require Import Lra.
From Coquelicot Require Import Coquelicot.
From Verif Require Import FPErr CFBound CFTrunc CFAcc TanAcc SinAcc TanhAcc SqrtAcc SqrtSimp LogAcc TrigApi SinhAcc LogBad InvTrig.
From Interval Require Import Tactic.
Open Scope R_scope.

Lemma atan_lower t : 0 < t -> t / (1 + t * t) <= atan t.
Proof.
  intros T. assert (A : 0 < atan t) by (rewrite <- atan_0; apply atan_increasing; auto). assert (S := sin_lt_x _ A). rewrite sin_atan in S. assert (E : 0 < 1 + t * t) by nra. unfold Rsqr in S. rewrite <- Rsqr_pow2 in S || idtac.
  assert (Q : sqrt (1 + t * t) <= 1 + t * t). { apply Rsqr_incr_0_var; [|lra]. rewrite Rsqr_sqrt by lra. unfold Rsqr. nra. } assert (0 < sqrt (1 + t * t)) by (apply sqrt_lt_R0; auto).
  assert (t / (1 + t * t) <= t / sqrt (1 + t * t)). { apply Rmult_le_compat_l. lra. apply Rinv_le; auto. } lra.
Qed.
Lemma atan_pert_rel t e E : Rabs e <= E -> E <= / 1000 -> Rabs (atan (t * (1 + e)) - atan t) <= 1003 / 1000 * E * Rabs (atan t).
Proof.
  intros H HE. assert (E0 : 0 <= E) by (assert (P := Rabs_pos e); lra).
  assert (G : forall t, 0 < t -> Rabs (atan (t * (1 + e)) - atan t) <= 1003 / 1000 * E * atan t).
  { clear t. intros t T. apply Rle_trans with (1 := atan_pert t e E T H ltac:(lra)). assert (0 < t / (1 + t * t)) by (apply Rdiv_lt_0_compat; nra). apply Rmult_le_compat; [nra|lra|nra|apply atan_lower; auto]. }
  assert (At : forall t, 0 < t -> 0 < atan t) by (intros; rewrite <- atan_0; apply atan_increasing; auto).
  destruct (Rtotal_order t 0) as [N|[->|P]].
  - assert (Q := G (- t) ltac:(lra)). assert (AN := At (- t) ltac:(lra)). rewrite Ropp_mult_distr_l_reverse, !atan_opp in Q. rewrite atan_opp in AN. rewrite (Rabs_left (atan t)) by lra. replace (- atan (t * (1 + e)) - - atan t) with (- (atan (t * (1 + e)) - atan t)) in Q by ring. rewrite Rabs_Ropp in Q. exact Q.
  - rewrite Rmult_0_l, atan_0, Rminus_0_r, Rabs_R0. lra.
  - rewrite (Rabs_pos_eq (atan t)) by (assert (Q := At t P); lra). apply G; auto.
Qed.
Lemma atan_le_abs t : Rabs (atan t) <= Rabs t.
Proof.
  assert (B : forall z : R, is_derive atan z (/ (1 + z * z)) /\ Rabs (/ (1 + z * z)) <= 1). { intros z. assert (Z : 1 <= 1 + z * z) by nra. split. auto_derive; auto. unfold Rsqr. field. lra. rewrite Rabs_pos_eq by (left; apply Rinv_0_lt_compat; lra). rewrite <- Rinv_1. apply Rinv_le; lra. }
  assert (M := fun H => mvt atan (fun z => / (1 + z * z)) 0 t 1 H). rewrite atan_0, !Rminus_0_r, Rmult_1_l in M. apply M. intros; apply B.
Qed.
Section Q.
Variables (v : cxx) (f : fmt) (y x : flt f).
Hypothesis (Fy : finite y = true) (Fx : finite x = true) (X0 : bpow radix2 (2 - emax f) <= Rabs (B2R x)).
Hypothesis (QU : Rabs (B2R y / B2R x) <= bpow radix2 (emax f - 1)).
Let u0 := uf_pos f.
Let u1 : uf f <= / 16777216 := uf_le f.
Let T := B2R y / B2R x.
Lemma xn0 : B2R x <> 0.
Proof. intros E. rewrite E, Rabs_R0 in X0. assert (b := bpow_gt_0 radix2 (2 - emax f)). lra. Qed.
Lemma quo : finite (y /. x) = true /\ B2R (y /. x) = rnd f T.
Proof.
  destruct (fdiv_spec y x Fy xn0) as (V & F); [|auto]. apply Rle_lt_trans with (bpow radix2 (emax f - 1)); [|apply bpow_lt; lia].
  rewrite rnd_abs. rewrite <- (rnd_id f (bpow radix2 (emax f - 1))). apply rnd_le; auto. apply generic_format_bpow. unfold fexpf, SpecFloat.fexp, SpecFloat.emin. destruct f; cbn; lia.
Qed.
Lemma fm_fmt : generic_format radix2 (fexpf f) (bpow radix2 (2 - emax f)).
Proof. apply generic_format_bpow. unfold fexpf, SpecFloat.fexp, SpecFloat.emin. destruct f; cbn; lia. Qed.
Lemma quo_big : bpow radix2 (2 - emax f) <= Rabs T -> exists w, atan_check v (y /. x) = Ok w /\ finite w = true /\ rel_err (B2R w) (atan T) (91 / 10 * uf f + bpow radix2 (-54)).
Proof.
  intros L. destruct quo as (F & V). destruct (rnd_u f T L) as (e & He & Ve). assert (U0 := u0). assert (U1 := u1).
  destruct (atan_check_acc v (y /. x) F) as (w & E & Fw & R & _). { rewrite V, rnd_abs. apply rnd_ge_fmt; auto. apply fm_fmt. } exists w. split; auto. split; auto.
  rewrite V, Ve in R. assert (P := atan_pert_rel T e (uf f) He ltac:(lra)). 
  assert (R' : rel_err (B2R w) (atan (T * (1 + e))) (8 * uf f + bpow radix2 (-54))). { eapply rel_mono; [|exact R]. apply Rplus_le_compat_l. apply bpow_le. destruct Rlt_dec; lia. }
  unfold rel_err in * . set (a := atan T) in * . set (b := atan (T * (1 + e))) in * . assert (A0 := Rabs_pos a).
  assert (BB : Rabs b <= (1 + 1003 / 1000 * uf f) * Rabs a). { replace b with (a + (b - a)) by ring. apply Rle_trans with (1 := Rabs_triang _ _). lra. }
  replace (B2R w - a) with ((B2R w - b) + (b - a)) by ring. apply Rle_trans with (1 := Rabs_triang _ _). assert (b54 : 0 < bpow radix2 (-54) <= / 16777216) by (split; [apply bpow_gt_0|cbn; lra]). 
  assert ((8 * uf f + bpow radix2 (-54)) * Rabs b <= (8 * uf f + bpow radix2 (-54)) * ((1 + 1003 / 1000 * uf f) * Rabs a)) by (apply Rmult_le_compat_l; lra).
  assert (K : (8 * uf f + bpow radix2 (-54)) * (1 + 1003 / 1000 * uf f) + 1003 / 1000 * uf f <= 91 / 10 * uf f + bpow radix2 (-54)) by nra.
  assert (((8 * uf f + bpow radix2 (-54)) * (1 + 1003 / 1000 * uf f) + 1003 / 1000 * uf f) * Rabs a <= (91 / 10 * uf f + bpow radix2 (-54)) * Rabs a) by (apply Rmult_le_compat_r; auto). lra.
Qed.
Lemma quo_any : exists w, atan_check v (y /. x) = Ok w /\ finite w = true /\ Rabs (B2R w - atan T) <= (91 / 10 * uf f + bpow radix2 (-54)) * Rabs (atan T) + / 100 * uf f.
Proof.
  assert (U0 := u0). assert (U1 := u1). assert (b54 : 0 < bpow radix2 (-54) <= / 16777216) by (split; [apply bpow_gt_0|cbn; lra]). destruct (Rle_or_lt (bpow radix2 (2 - emax f)) (Rabs T)) as [L|L].
  - destruct (quo_big L) as (w & E & F & R). exists w. split; auto. split; auto. unfold rel_err in R. lra.
  - destruct quo as (F & V). assert (A := atan_le_abs T). assert (A0 := Rabs_pos (atan T)). assert (FM := SinhAcc.fm_uf f). assert (fm0 := bpow_gt_0 radix2 (2 - emax f)).
    assert (LR : Rabs (B2R (y /. x)) <= bpow radix2 (2 - emax f)). { rewrite V, rnd_abs. rewrite <- (rnd_id f _ fm_fmt). apply rnd_le. lra. }
    assert (G : exists w, atan_check v (y /. x) = Ok w /\ finite w = true /\ Rabs (B2R w) <= 2 * bpow radix2 (2 - emax f)).
    { destruct LR as [LR|LR].
      - exists (ofZ f 0). destruct (ofZ_small f 0 ltac:(lia)) as (V0 & F0 & _). split; [|split; auto; rewrite V0, Rabs_R0; lra]. unfold atan_check. rewrite finite_not_nan by auto. rewrite flt_true; auto. rewrite abs_finite; auto. apply fmin_spec. rewrite abs_B2R, (proj1 (fmin_spec f)). auto.
      - destruct (atan_check_acc v (y /. x) F) as (w & E & Fw & R & _). rewrite LR; lra. exists w. split; auto. split; auto. assert (A' := atan_le_abs (B2R (y /. x))). rewrite LR in A'. unfold rel_err in R. set (b := atan (B2R (y /. x))) in * .
        assert (C : bpow radix2 (if Rlt_dec (Rabs (B2R (y /. x))) 2 then -57 else -54) <= / 100). { apply Rle_trans with (bpow radix2 (-54)); [|lra]. apply bpow_le. destruct Rlt_dec; lia. } assert (C0 := bpow_gt_0 radix2 (if Rlt_dec (Rabs (B2R (y /. x))) 2 then -57 else -54)). set (c := bpow radix2 (if Rlt_dec _ _ then _ else _)) in * .
        assert (0 <= Rabs b) by apply Rabs_pos. assert ((8 * uf f + c) * Rabs b <= 1 / 2 * Rabs b) by (apply Rmult_le_compat_r; lra). replace (B2R w) with ((B2R w - b) + b) by ring. apply Rle_trans with (1 := Rabs_triang _ _). lra. }
    destruct G as (w & E & Fw & W). exists w. split; auto. split; auto. apply Rle_trans with (Rabs (B2R w) + Rabs (atan T)). { unfold Rminus. apply Rle_trans with (1 := Rabs_triang _ _). rewrite Rabs_Ropp. lra. } assert (0 <= (91 / 10 * uf f + bpow radix2 (-54)) * Rabs (atan T)) by (apply Rmult_le_pos; lra). lra.
Qed.
Lemma atan2_guards : any_nan y x = false /\ (ModelBasic.abs x <. fmin f) = false.
Proof.
  split. unfold any_nan. rewrite !finite_not_nan; auto. apply flt_false. rewrite abs_finite; auto. apply fmin_spec. rewrite abs_B2R, (proj1 (fmin_spec f)). auto.
Qed.
Lemma atan2_right_acc : 0 < B2R x -> bpow radix2 (2 - emax f) <= Rabs T -> exists w, atan2_compute v y x = Ok w /\ finite w = true /\ rel_err (B2R w) (atan T) (91 / 10 * uf f + bpow radix2 (-54)).
Proof.
  intros P L. destruct atan2_guards as (G1 & G2). unfold atan2_compute. rewrite G1, G2. destruct (ofZ_small f 0 ltac:(lia)) as (V0 & F0 & _). rewrite (flt_false x (ofZ f 0)) by (auto; rewrite V0; lra). apply quo_big; auto.
Qed.
Lemma pm_pi (w : flt f) s : finite w = true -> (s = 1 \/ s = -1) -> 0 <= - s * T -> Rabs (B2R w - atan T) <= (91 / 10 * uf f + bpow radix2 (-54)) * Rabs (atan T) + / 100 * uf f ->
  forall r : flt f, (Rabs (B2R w + s * B2R (conv f GCEM_PI)) <= 18446744073709551616 -> finite r = true /\ B2R r = rnd f (B2R w + s * B2R (conv f GCEM_PI))) ->
  finite r = true /\ rel_err (B2R r) (atan T + s * PI) (13 * uf f + bpow radix2 (-54)).
Proof.
  intros Fw S SG R r HR. assert (U0 := u0). assert (U1 := u1). destruct (pi_val f) as (Fp & Ep). unfold abs_err in Ep. replace (bpow radix2 (1 - prec f)) with (2 * uf f) in Ep by (unfold uf, Zminus; rewrite bpow_plus; reflexivity).
  set (p := B2R (conv f GCEM_PI)) in * . assert (PI4 : 314 / 100 < PI < 3142 / 1000) by (split; interval). assert (b54 : 0 < bpow radix2 (-54) <= / 16777216) by (split; [apply bpow_gt_0|cbn; lra]).
  assert (AT : Rabs (atan T) <= PI / 2) by (assert (Q := atan_bound T); apply Rabs_le; lra). assert (AS : 0 <= - s * atan T). { assert (AI : forall t, 0 <= t -> 0 <= atan t) by (intros t [Ht|<-]; [left; rewrite <- atan_0; apply atan_increasing; auto|rewrite atan_0; lra]). destruct S as [-> | ->]. assert (Q := AI (- T) ltac:(lra)). rewrite atan_opp in Q. lra. assert (Q := AI T ltac:(lra)). lra. }
  set (a := atan T) in * . assert (SA : Rabs s = 1) by (destruct S as [-> | ->]; [apply Rabs_R1|rewrite Rabs_left; lra]). assert (SS : s * s = 1) by (destruct S as [-> | ->]; lra).
  assert (Aa : Rabs a = - s * a). { destruct S as [-> | ->]. rewrite Rabs_left1; lra. rewrite Rabs_pos_eq; lra. }
  assert (RR : Rabs (a + s * PI) = PI - Rabs a). { rewrite Aa in * . destruct S as [-> | ->]. rewrite Rabs_pos_eq; lra. rewrite Rabs_left1; lra. }
  assert (ER : Rabs (B2R w + s * p - (a + s * PI)) <= (91 / 10 * uf f + bpow radix2 (-54)) * Rabs a + 201 / 100 * uf f). { replace (B2R w + s * p - (a + s * PI)) with ((B2R w - a) + s * (p - PI)) by ring. apply Rle_trans with (1 := Rabs_triang _ _). rewrite Rabs_mult, SA. lra. }
  set (m := a + s * PI) in * . assert (A0 := Rabs_pos a). assert (KA : (91 / 10 * uf f + bpow radix2 (-54)) * Rabs a <= / 100000). { apply Rle_trans with (/ 1000000 * (PI / 2)); [|lra]. apply Rmult_le_compat; lra. }
  assert (MB : 15 / 10 <= Rabs m <= 32 / 10) by lra. assert (Zb : Rabs (B2R w + s * p) <= Rabs m + / 10000). { replace (B2R w + s * p) with (m + (B2R w + s * p - m)) by ring. apply Rle_trans with (1 := Rabs_triang _ _). lra. }
  destruct HR as (Fr & Vr). lra. split; auto. assert (RS := rnd_small f (B2R w + s * p)). rewrite <- Vr in RS. set (z := B2R w + s * p) in * . assert (b100 : 0 < bpow radix2 (-100) <= / 16777216) by (split; [apply bpow_gt_0|cbn; lra]).
  unfold rel_err. replace (B2R r - m) with ((B2R r - z) + (z - m)) by ring. apply Rle_trans with (1 := Rabs_triang _ _).
  assert (Rabs a <= PI / (PI / 2) * Rabs m - Rabs m). { replace (PI / (PI / 2)) with 2 by (field; lra). rewrite RR. lra. } assert (AM : Rabs a <= Rabs m) by (replace (PI / (PI / 2)) with 2 in H by (field; lra); lra). clear H.
  assert ((91 / 10 * uf f + bpow radix2 (-54)) * Rabs a <= (91 / 10 * uf f + bpow radix2 (-54)) * Rabs m) by (apply Rmult_le_compat_l; lra).
  assert (uf f * Rabs z <= uf f * (Rabs m + / 10000)) by (apply Rmult_le_compat_l; lra). assert (uf f * bpow radix2 (-100) <= uf f * / 16777216) by (apply Rmult_le_compat_l; lra). assert (uf f * (15 / 10) <= uf f * Rabs m) by (apply Rmult_le_compat_l; lra). lra.
Qed.
Lemma atan2_left_up : B2R x < 0 -> 0 <= B2R y -> exists w, atan2_compute v y x = Ok w /\ finite w = true /\ rel_err (B2R w) (atan T + PI) (13 * uf f + bpow radix2 (-54)).
Proof.
  intros P L. destruct atan2_guards as (G1 & G2). unfold atan2_compute. rewrite G1, G2. destruct (ofZ_small f 0 ltac:(lia)) as (V0 & F0 & _). rewrite (flt_true x (ofZ f 0)) by (auto; rewrite V0; lra). rewrite (flt_false y (ofZ f 0)) by (auto; rewrite V0; lra).
  destruct quo_any as (w & E & F & R). rewrite E. cbn [bind]. eexists. split; [reflexivity|]. replace (atan T + PI) with (atan T + 1 * PI) by ring. apply (pm_pi w 1); auto.
  - unfold T, Rdiv. assert (I : / B2R x < 0) by (apply Rinv_lt_0_compat; auto). nra.
  - intros B. rewrite Rmult_1_l in * . apply op_add; auto. apply pi_val.
Qed.
Lemma atan2_left_down : B2R x < 0 -> B2R y < 0 -> exists w, atan2_compute v y x = Ok w /\ finite w = true /\ rel_err (B2R w) (atan T - PI) (13 * uf f + bpow radix2 (-54)).
Proof.
  intros P L. destruct atan2_guards as (G1 & G2). unfold atan2_compute. rewrite G1, G2. destruct (ofZ_small f 0 ltac:(lia)) as (V0 & F0 & _). rewrite (flt_true x (ofZ f 0)) by (auto; rewrite V0; lra). rewrite (flt_true y (ofZ f 0)) by (auto; rewrite V0; lra).
  destruct quo_any as (w & E & F & R). rewrite E. cbn [bind]. eexists. split; [reflexivity|]. replace (atan T - PI) with (atan T + -1 * PI) by ring. apply (pm_pi w (-1)); auto.
  - unfold T, Rdiv. assert (I : / B2R x < 0) by (apply Rinv_lt_0_compat; auto). nra.
  - intros B. replace (B2R w + -1 * B2R (conv f GCEM_PI)) with (B2R w - B2R (conv f GCEM_PI)) in * by ring. apply op_sub; auto. apply pi_val.
Qed.
End Q.
Section Api.
Variables (v : cxx) (f : fmt) (y x : flt f).
Hypothesis (Fy : finite y = true) (Fx : finite x = true) (X0 : bpow radix2 (2 - emax f) <= Rabs (B2R x)).
Hypothesis (QU : Rabs (B2R y / B2R x) <= bpow radix2 (emax f - 1)).
Lemma api_atan2_right : 0 < B2R x -> bpow radix2 (2 - emax f) <= Rabs (B2R y / B2R x) -> exists w : flt f, rmap (AFlt _) (gcem_atan2 v (AFlt f y) (AFlt f x)) = Ok (AFlt f w) /\ finite w = true /\ rel_err (B2R w) (atan (B2R y / B2R x)) (10 * bpow radix2 (- prec f) + bpow radix2 (-54)).
Proof. intros A B. rewrite atan2_same. destruct (atan2_right_acc v f y x Fy Fx X0 QU A B) as (w & E & F & R). exists w. rewrite E. split; auto. split; auto. eapply rel_mono; [|exact R]. assert (u0 := uf_pos f). unfold uf in * . lra. Qed.
Lemma api_atan2_left : B2R x < 0 -> exists w : flt f, rmap (AFlt _) (gcem_atan2 v (AFlt f y) (AFlt f x)) = Ok (AFlt f w) /\ finite w = true /\ 
  (0 <= B2R y -> rel_err (B2R w) (atan (B2R y / B2R x) + PI) (13 * bpow radix2 (- prec f) + bpow radix2 (-54))) /\
  (B2R y < 0 -> rel_err (B2R w) (atan (B2R y / B2R x) - PI) (13 * bpow radix2 (- prec f) + bpow radix2 (-54))).
Proof.
  intros A. rewrite atan2_same. destruct (Rle_or_lt 0 (B2R y)) as [B|B].
  - destruct (atan2_left_up v f y x Fy Fx X0 QU A B) as (w & E & F & R). exists w. rewrite E. repeat split; auto. intros; lra.
  - destruct (atan2_left_down v f y x Fy Fx X0 QU A B) as (w & E & F & R). exists w. rewrite E. repeat split; auto. intros; lra.
Qed.
End Api.
