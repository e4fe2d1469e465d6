(** * Accuracy of inv_sqrt *)
From Verif Require Import Base ModelBasic ModelInt ModelApi FltLemmas Spec IntProofs BasicProofs ConvLemmas ScaleProofs TotalProofs SymLemmas.
From Coq Require Import Lra Psatz.
From Flocq Require Import Mult_error.
From Verif Require Import PF FPErr CFBound PowAcc ExpAcc SqrtAcc SqrtSimp.
From Interval Require Import Tactic.
Open Scope R_scope.

Definition iqd {f} (x xn : flt f) : flt f := ofZ f 1 /. (x *. xn).
(** ** Arguments in [2^-58, 2^58] *)
Section S.
Variables (f : fmt) (x : flt f).
Hypotheses (Fx : finite x = true) (X0 : bpow radix2 (-58) <= B2R x) (X1 : B2R x <= bpow radix2 58).
Notation r := (sqrt (B2R x)).
Notation s := (/ sqrt (B2R x)).
Notation u := (uf f).
Notation m := (bpow radix2 (2 - emax f)).
Notation iq := (iqd x).
Lemma r_rng : bpow radix2 (-29) <= r <= bpow radix2 29 /\ r * r = B2R x.
Proof.
  assert (b0 := bpow_gt_0 radix2 (-58)). assert (r0 : 0 < r) by (apply sqrt_lt_R0; lra). assert (rr : r * r = B2R x) by (apply sqrt_sqrt; lra).
  split; auto. split; (apply Rsqr_incr_0_var; [|try apply bpow_ge_0; lra]); unfold Rsqr; rewrite rr, <- bpow_plus; assumption.
Qed.
Lemma s_rng : bpow radix2 (-29) <= s <= bpow radix2 29.
Proof.
  destruct r_rng as (R & _). assert (b0 := bpow_gt_0 radix2 (-29)). split.
  - change (-29)%Z with (- (29))%Z. rewrite bpow_opp. apply Rinv_le; lra.
  - change 29%Z with (- (-29))%Z. rewrite bpow_opp. apply Rinv_le; lra.
Qed.
Lemma m_small : m <= bpow radix2 (-60) * u.
Proof. unfold uf. rewrite <- bpow_plus. apply bpow_le. destruct f; discriminate. Qed.
Lemma iq_ok (xn : flt f) : finite xn = true -> bpow radix2 (-118) <= B2R x * B2R xn <= bpow radix2 118 ->
  finite (iq xn) = true /\ 0 <= B2R (iq xn) <= bpow radix2 118 /\
  exists e1 d, Rabs e1 <= 201 / 100 * u /\ Rabs d <= / 1000 * u /\ B2R (iq xn) = s * ((1 + e1) / (B2R xn * r) + d).
Proof.
  intros Fn H. destruct r_rng as (R & RR). assert (SR := s_rng). assert (b0 := bpow_gt_0 radix2 (-29)). assert (b1 := bpow_gt_0 radix2 (-118)). destruct (u_rng f) as (U & _). assert (bx := bpow_gt_0 radix2 (-58)).
  destruct (ofZ_small f 1 ltac:(lia)) as (V1 & F1 & _). change (IZR 1) with 1 in V1.
  assert (xn0 : 0 < B2R xn) by (apply Rmult_lt_reg_l with (B2R x); lra).
  destruct (fmul_spec x xn Fx Fn) as (Vp & Fp). { apply wide_fin. rewrite Rabs_pos_eq by lra. apply Rle_trans with (1 := proj2 H). apply bpow_le; lia. }
  destruct (rnd_rel f (B2R x * B2R xn)) as (a & Ha & Ea). { rewrite Rabs_pos_eq by lra. apply Rle_trans with (2 := proj1 H). apply bpow_le. destruct f; discriminate. } change (bpow radix2 (- prec f)) with u in Ha.
  set (pr := x *. xn) in * . assert (PL : bpow radix2 (-118) <= B2R pr). { rewrite Vp. apply rnd_ge_fmt. apply fmt_bpow. unfold emin; destruct f; cbn; lia. tauto. }
  assert (PU : 1 / B2R pr <= bpow radix2 118). { change 118%Z with (- (-118))%Z. rewrite bpow_opp. unfold Rdiv. rewrite Rmult_1_l. apply Rinv_le; lra. }
  assert (P0 : 0 < 1 / B2R pr) by (apply Rmult_lt_0_compat; [lra|apply Rinv_0_lt_compat; lra]).
  destruct (fdiv_spec (ofZ f 1) pr F1) as (V & F). lra. { rewrite V1. apply wide_fin. rewrite Rabs_pos_eq by lra. apply Rle_trans with (1 := PU). apply bpow_le; lia. }
  rewrite V1 in V. change (ofZ f 1 /. pr) with (iq xn) in V, F. split; auto. split. { rewrite V. split. apply rnd_ge_0; lra. apply rnd_le_fmt; [|exact PU]. apply fmt_bpow. unfold emin; destruct f; cbn; lia. }
  destruct (rnd_err f (1 / B2R pr)) as (b & d & Hb & Hd & _ & Eb). change (bpow radix2 (- prec f)) with u in Hb. apply Rabs_le_inv in Ha, Hb.
  exists ((1 + b) / (1 + a) - 1), (d * r). split; [|split].
  - assert (uu : 0 <= u * u <= / 16777216 * u) by (split; [apply Rmult_le_pos; lra|apply Rmult_le_compat_r; lra]). apply Rabs_le. split; apply Rmult_le_reg_r with (1 + a); try lra; replace (((1 + b) / (1 + a) - 1) * (1 + a)) with (b - a) by (field; lra).
    assert (u * - u <= u * a) by (apply Rmult_le_compat_l; lra). lra. assert (u * - u <= u * a) by (apply Rmult_le_compat_l; lra). lra.
  - rewrite Rabs_mult, (Rabs_pos_eq r) by lra. apply Rle_trans with ((m * u) * bpow radix2 29). apply Rmult_le_compat; try apply Rabs_pos; try lra. apply Rle_trans with (1 := Hd). replace (emin f - 1)%Z with ((2 - emax f) + - prec f)%Z by (unfold emin; ring). rewrite bpow_plus. apply Rle_refl.
    replace (m * u * bpow radix2 29) with (m * bpow radix2 29 * u) by ring. apply Rmult_le_compat_r. lra. rewrite <- bpow_plus. apply Rle_trans with (bpow radix2 (-10)). apply bpow_le. destruct f; discriminate. cbn; lra.
  - rewrite V, Eb, Vp, Ea. set (t := r) in * . rewrite <- RR. field. repeat split; lra.
Qed.
Lemma recur_acc j : forall xn : flt f, finite xn = true -> B2R xn <= bpow radix2 118 -> B2R x * B2R xn <= bpow radix2 118 -> 1 - 22 / 10 * u <= B2R xn * r -> B2R xn * r - 1 <= LB (22 / 10 * u) j -> (j <= 100)%nat ->
  exists w, inv_sqrt_recur (S j) x xn (100 - Z.of_nat j) = Ok w /\ finite w = true /\ Rabs (B2R w - s) <= 22 / 10 * u * s.
Proof.
  destruct r_rng as (R & RR). assert (SR := s_rng). destruct (u_rng f) as (U & U64). assert (m0 := bpow_gt_0 radix2 (2 - emax f)). assert (MS := m_small). assert (b0 := bpow_gt_0 radix2 (-29)). assert (bx := bpow_gt_0 radix2 (-58)).
  assert (FIN : forall w : flt f, Rabs (B2R w * r - 1) <= 22 / 10 * u -> Rabs (B2R w - s) <= 22 / 10 * u * s).
  { intros w H. replace (B2R w - s) with ((B2R w * r - 1) * s) by (field; lra). rewrite Rabs_mult, (Rabs_pos_eq s) by lra. apply Rmult_le_compat_r; lra. }
  induction j as [|j IH]; intros xn Fn N8 N9 NL NU J; set (E := B2R xn * r) in *;
  (assert (N0 : B2R xn = E * s) by (unfold E; field; lra));
  (assert (N7 : B2R x * B2R xn = E * r) by (unfold E; rewrite Rmult_assoc, RR; ring));
  (assert (E9 : 9 / 10 <= E) by lra);
  (assert (N6 : bpow radix2 (-30) <= B2R x * B2R xn) by (rewrite N7; apply Rle_trans with (9 / 10 * bpow radix2 (-29)); [cbn; lra|apply Rmult_le_compat; lra]));
  (assert (N5 : bpow radix2 (-30) <= B2R xn) by (rewrite N0; apply Rle_trans with (9 / 10 * bpow radix2 (-29)); [cbn; lra|apply Rmult_le_compat; lra]));
  (assert (N4 : bpow radix2 (-118) <= B2R x * B2R xn) by (apply Rle_trans with (2 := N6); apply bpow_le; lia));
  destruct (iq_ok xn Fn (conj N4 N9)) as (Fq & QB & e1 & d & He1 & Hd & Vq); fold E in Vq;
  (assert (QV : B2R (iq xn) * r = (1 + e1) / E + d) by (rewrite Vq; field; split; lra)); (assert (N1 : 0 < B2R xn) by (apply Rlt_le_trans with (2 := N5); apply bpow_gt_0)).
  - cbn [inv_sqrt_recur]. exists xn. split. destruct (_ <. _); reflexivity. split; auto. apply FIN. cbn [LB] in NU. apply Rabs_le. fold E. lra.
  - remember (S j) as n eqn:En. cbn [inv_sqrt_recur]. change (ofZ f 1 /. (x *. xn)) with (iq xn). assert (B119 : bpow radix2 118 + bpow radix2 118 = bpow radix2 119) by (cbn; lra). assert (B120 : bpow radix2 119 <= bpow radix2 120) by (apply bpow_le; lia). assert (B118 := bpow_gt_0 radix2 118).
    destruct (_ <. fmin f) eqn:C.
    + exists xn. split; auto. split; auto. apply FIN. fold E. apply exit_float in C; auto. 2: lra. 2: apply Rabs_le; lra.
      eapply Rle_trans. apply (newton_exit u (201 / 100 * u) E e1 d); auto; try lra. 2: lra.
      rewrite <- QV. unfold E. replace (B2R xn * r - B2R (iq xn) * r) with ((B2R xn - B2R (iq xn)) * r) by ring. rewrite Rabs_mult, (Rabs_pos_eq r) by lra.
      apply Rle_trans with (3 * m * (1 + B2R xn) * r). apply Rmult_le_compat_r; lra. replace (3 * m * (1 + B2R xn) * r) with (3 * m * (r + B2R xn * r)) by ring. fold E.
      apply Rle_trans with (3 * (bpow radix2 (-60) * u) * (bpow radix2 29 + E)). apply Rmult_le_compat; lra.
      replace (3 * (bpow radix2 (-60) * u) * (bpow radix2 29 + E)) with (u * (3 * (bpow radix2 (-60) * bpow radix2 29)) + u * E * (3 * bpow radix2 (-60))) by ring. rewrite <- bpow_plus. change (-60 + 29)%Z with (-31)%Z.
      assert (A1 : 3 * bpow radix2 (-31) <= / 1000) by (cbn; lra). assert (A2 : 3 * bpow radix2 (-60) <= / 1000) by (cbn; lra). assert (uE : 0 <= u * E) by (apply Rmult_le_pos; lra).
      assert (u * (3 * bpow radix2 (-31)) <= u * / 1000) by (apply Rmult_le_compat_l; lra). assert (u * E * (3 * bpow radix2 (-60)) <= u * E * / 1000) by (apply Rmult_le_compat_l; lra). lra.
    + replace (100 - Z.of_nat n <? GCEM_INV_SQRT_MAX_ITER)%Z with true by (symmetry; apply Z.ltb_lt; change GCEM_INV_SQRT_MAX_ITER with 100%Z; lia).
      replace (100 - Z.of_nat n + 1)%Z with (100 - Z.of_nat j)%Z by lia. subst n.
      destruct (step_float xn (iq xn) Fn Fq) as (F' & e2 & He2 & V'). { split. apply Rle_trans with (bpow radix2 (-30)). apply bpow_le. destruct f; discriminate. lra. lra. }
      assert (VE : B2R (half f *. (xn +. iq xn)) * r = (E + ((1 + e1) / E + d)) / 2 * (1 + e2)). { rewrite V', <- QV. unfold E. field. }
      assert (QS : B2R (iq xn) <= bpow radix2 31). { rewrite Vq. apply Rle_trans with (bpow radix2 29 * 4). 2: cbn; lra. apply Rabs_le_inv in He1, Hd. apply Rmult_le_compat; try lra.
        { apply Rmult_le_reg_l with s. lra. rewrite <- Vq, Rmult_0_r. tauto. } apply Rle_trans with (2 + 1); [|lra]. apply Rplus_le_compat; [|lra]. apply Rmult_le_reg_r with E. lra. unfold Rdiv. rewrite Rmult_assoc, Rinv_l, Rmult_1_r by lra. lra. }
      assert (Q31 : bpow radix2 31 <= bpow radix2 89) by (apply bpow_le; lia). assert (Q89 : bpow radix2 89 <= / 100 * bpow radix2 118) by (cbn; lra). apply Rabs_le_inv in He2.
      apply IH; auto; try lia.
      * rewrite V'. apply Rle_trans with ((bpow radix2 118 + / 100 * bpow radix2 118) / 2 * (1 + / 16777216)). apply Rmult_le_compat; lra. lra.
      * rewrite V'. replace (B2R x * ((B2R xn + B2R (iq xn)) / 2 * (1 + e2))) with ((B2R x * B2R xn + B2R x * B2R (iq xn)) / 2 * (1 + e2)) by field. assert (B2R x * B2R (iq xn) <= bpow radix2 89). { replace 89%Z with (58 + 31)%Z by reflexivity. rewrite bpow_plus. apply Rmult_le_compat; lra. } assert (0 <= B2R x * B2R (iq xn)) by (apply Rmult_le_pos; lra).
        apply Rle_trans with ((bpow radix2 118 + / 100 * bpow radix2 118) / 2 * (1 + / 16777216)). assert (b30 := bpow_gt_0 radix2 (-30)). apply Rmult_le_compat; try lra. lra.
      * rewrite VE. assert (E0 : 0 < E) by lra. assert (H := newton_lower u (201 / 100 * u) E e1 d e2 U E0 He1 ltac:(lra) Hd ltac:(apply Rabs_le; lra)). lra.
      * rewrite VE. assert (H := newton_upper u (201 / 100 * u) E e1 d e2 U ltac:(lra) He1 ltac:(lra) Hd ltac:(apply Rabs_le; lra)). apply Rle_trans with (1 := H).
        replace E with (1 + (E - 1)) at 3 by ring. apply (LB_step u (201 / 100 * u) (22 / 10 * u) (E - 1) j); lra.
Qed.
Lemma istart : finite (x /. ofZ f 2) = true /\ B2R (x /. ofZ f 2) = B2R x / 2.
Proof.
  destruct (ofZ_small f 2 ltac:(lia)) as (V2 & F2 & _). change (IZR 2) with 2 in V2. assert (bx := bpow_gt_0 radix2 (-58)).
  assert (G : generic_format radix2 (fexpf f) (B2R x / 2)).
  { replace (B2R x / 2) with (B2R x * bpow radix2 (-1)) by (cbn; lra). apply (mult_bpow_exact_FLT radix2 (emin f) (prec f)). apply (fmt_format x).
    assert (-57 <= mag radix2 (B2R x))%Z by (apply mag_ge_bpow; rewrite Rabs_pos_eq by lra; exact X0). unfold emin. assert (forall g, (3 - emax g <= -60)%Z) by (intros []; discriminate). specialize (H0 f). lia. }
  destruct (fdiv_spec x (ofZ f 2) Fx) as (V & F). rewrite V2; lra. { rewrite V2. rewrite rnd_id by exact G. apply Rle_lt_trans with (2 := B2R_lt_emax x). rewrite !Rabs_pos_eq; lra. }
  split; auto. rewrite V, V2. apply rnd_id. exact G.
Qed.
Lemma iter_acc : exists w, inv_sqrt_recur (Z.to_nat (GCEM_INV_SQRT_MAX_ITER + 1)) x (x /. ofZ f 2) 0 = Ok w /\ finite w = true /\ Rabs (B2R w - s) <= 22 / 10 * u * s.
Proof.
  destruct r_rng as (R & RR). assert (SR := s_rng). destruct (u_rng f) as (U & U64). assert (m0 := bpow_gt_0 radix2 (2 - emax f)). assert (MS := m_small). assert (b0 := bpow_gt_0 radix2 (-29)). assert (bx := bpow_gt_0 radix2 (-58)).
  destruct istart as (Fn & N). set (xn := x /. ofZ f 2) in * . set (E := B2R xn * r) in * .
  assert (En : exists n, n = 100%nat /\ Z.to_nat (GCEM_INV_SQRT_MAX_ITER + 1) = S n) by (exists 100%nat; split; reflexivity). destruct En as (n & En & ->). cbn [inv_sqrt_recur].
  assert (X2 : bpow radix2 (-118) <= B2R x * B2R xn <= bpow radix2 116). { rewrite N. split. apply Rle_trans with (bpow radix2 (-58) * (bpow radix2 (-58) / 2)). cbn; lra. apply Rmult_le_compat; lra. apply Rle_trans with (bpow radix2 58 * bpow radix2 58). apply Rmult_le_compat; lra. rewrite <- bpow_plus. apply Rle_refl. }
  assert (B116 : bpow radix2 116 <= / 4 * bpow radix2 118) by (cbn; lra). assert (B118 := bpow_gt_0 radix2 118). assert (B58 : bpow radix2 58 <= / 100 * bpow radix2 118) by (cbn; lra). assert (B119 : bpow radix2 118 + bpow radix2 118 = bpow radix2 119) by (cbn; lra). assert (B120 : bpow radix2 119 <= bpow radix2 120) by (apply bpow_le; lia).
  assert (NN : bpow radix2 (-59) <= B2R xn <= bpow radix2 58). { rewrite N. assert (bpow radix2 (-59) = bpow radix2 (-58) / 2) by (cbn; lra). lra. } assert (N1 : 0 < B2R xn) by lra.
  assert (E0 : 0 < E) by (apply Rmult_lt_0_compat; lra).
  assert (EL : bpow radix2 (-88) <= E <= bpow radix2 87). { unfold E. split. replace (-88)%Z with (-59 + -29)%Z by reflexivity. rewrite bpow_plus. apply Rmult_le_compat; try apply bpow_ge_0; lra. replace 87%Z with (58 + 29)%Z by reflexivity. rewrite bpow_plus. apply Rmult_le_compat; lra. }
  destruct (iq_ok xn Fn) as (Fq & QB & e1 & d & He1 & Hd & Vq). lra. fold E in Vq. change (ofZ f 1 /. (x *. xn)) with (iq xn).
  assert (QV : B2R (iq xn) * r = (1 + e1) / E + d) by (rewrite Vq; field; split; lra).
  destruct (_ <. fmin f) eqn:C.
  - exists xn. split; auto. split; auto. apply exit_float in C; auto. 2: lra. 2: apply Rabs_le; lra.
    replace (B2R xn - s) with ((E - 1) * s) by (unfold E; field; lra). rewrite Rabs_mult, (Rabs_pos_eq s) by lra. apply Rmult_le_compat_r. lra.
    eapply Rle_trans. apply (newton_exit u (201 / 100 * u) E e1 d); auto; try lra. 2: lra.
    rewrite <- QV. unfold E. replace (B2R xn * r - B2R (iq xn) * r) with ((B2R xn - B2R (iq xn)) * r) by ring. rewrite Rabs_mult, (Rabs_pos_eq r) by lra.
    apply Rle_trans with (3 * m * (1 + B2R xn) * r). apply Rmult_le_compat_r; lra. replace (3 * m * (1 + B2R xn) * r) with (3 * m * (r + B2R xn * r)) by ring. fold E.
    apply Rle_trans with (3 * (bpow radix2 (-60) * u) * (bpow radix2 29 + E)). apply Rmult_le_compat; lra.
    replace (3 * (bpow radix2 (-60) * u) * (bpow radix2 29 + E)) with (u * (3 * (bpow radix2 (-60) * bpow radix2 29)) + u * E * (3 * bpow radix2 (-60))) by ring. rewrite <- bpow_plus. change (-60 + 29)%Z with (-31)%Z.
    assert (A1 : 3 * bpow radix2 (-31) <= / 1000) by (cbn; lra). assert (A2 : 3 * bpow radix2 (-60) <= / 1000) by (cbn; lra). assert (uE : 0 <= u * E) by (apply Rmult_le_pos; lra).
    assert (u * (3 * bpow radix2 (-31)) <= u * / 1000) by (apply Rmult_le_compat_l; lra). assert (u * E * (3 * bpow radix2 (-60)) <= u * E * / 1000) by (apply Rmult_le_compat_l; lra). lra.
  - change (0 <? GCEM_INV_SQRT_MAX_ITER)%Z with true. cbv iota. replace (0 + 1)%Z with (100 - Z.of_nat 99)%Z by reflexivity. assert (En2 : n = S 99) by exact En. clear En. rewrite En2.
    apply Rabs_le_inv in He1, Hd.
    destruct (step_float xn (iq xn) Fn Fq) as (F' & e2 & He2 & V'). { split. apply Rle_trans with (bpow radix2 (-59)). apply bpow_le. destruct f; discriminate. lra. lra. }
    assert (VE : B2R (half f *. (xn +. iq xn)) * r = (E + ((1 + e1) / E + d)) / 2 * (1 + e2)). { rewrite V', <- QV. unfold E. field. }
    assert (IE : 0 < / E <= bpow radix2 88). { split. apply Rinv_0_lt_compat; auto. change 88%Z with (- (-88))%Z. rewrite bpow_opp. apply Rinv_le; [apply bpow_gt_0|tauto]. }
    assert (QE : (1 + e1) / E <= (1 + / 1000) * bpow radix2 88) by (apply Rmult_le_compat; lra). assert (Q88 : 1000 <= bpow radix2 88) by (cbn; lra). assert (B87 : bpow radix2 87 + bpow radix2 87 = bpow radix2 88) by (cbn; lra).
    assert (QE0 : 0 <= (1 + e1) / E) by (apply Rmult_le_pos; lra).
    assert (ES : 0 <= E + ((1 + e1) / E + d)) by (rewrite <- QV; unfold E; assert (0 <= B2R (iq xn) * r) by (apply Rmult_le_pos; lra); fold E; lra).
    assert (EU : E + ((1 + e1) / E + d) <= 16 / 10 * bpow radix2 88) by lra.
    apply Rabs_le_inv in He2.
    apply (recur_acc 99); auto; try lia.
    + rewrite V'. apply Rle_trans with ((/ 100 * bpow radix2 118 + bpow radix2 118) / 2 * (1 + / 16777216)). apply Rmult_le_compat; lra. lra.
    + replace (B2R x * B2R (half f *. (xn +. iq xn))) with (r * (B2R (half f *. (xn +. iq xn)) * r)) by (rewrite <- Rmult_assoc, (Rmult_comm r), Rmult_assoc, RR; ring). rewrite VE. apply Rle_trans with (bpow radix2 29 * bpow radix2 88). 2: rewrite <- bpow_plus; apply bpow_le; lia. apply Rmult_le_compat; try lra. apply Rmult_le_pos; lra.
      apply Rle_trans with (16 / 10 * bpow radix2 88 / 2 * (1 + / 16777216)). apply Rmult_le_compat; lra. lra.
    + rewrite VE. assert (H := newton_lower u (201 / 100 * u) E e1 d e2 U E0 ltac:(apply Rabs_le; lra) ltac:(lra) ltac:(apply Rabs_le; lra) ltac:(apply Rabs_le; lra)). lra.
    + rewrite VE. replace (LB (22 / 10 * u) 99) with (/ 4 * (199 / 100) ^ 94 + 22 / 10 * u) by reflexivity. assert (P : bpow radix2 90 <= / 4 * (199 / 100) ^ 94) by (cbn [bpow Z.pow_pos Pos.iter radix2 radix_val]; interval).
      apply Rle_trans with (bpow radix2 88). 2: { apply Rle_trans with (bpow radix2 90); [|lra]. apply bpow_le; lia. } apply Rle_trans with ((E + ((1 + e1) / E + d)) / 2 * (1 + e2)). lra.
      apply Rle_trans with (16 / 10 * bpow radix2 88 / 2 * (1 + / 16777216)). apply Rmult_le_compat; lra. lra.
Qed.
Lemma inv_sqrt_check_acc : exists w, inv_sqrt_check x = Ok w /\ finite w = true /\ rel_err (B2R w) s (22 / 10 * u).
Proof.
  assert (m0 := bpow_gt_0 radix2 (2 - emax f)). destruct (u_rng f) as (U & _). assert (m1 := m_small). assert (bx := bpow_gt_0 radix2 (-58)). assert (m2 : m <= bpow radix2 (-58)) by (apply bpow_le; destruct f; discriminate). assert (SR := s_rng). assert (b29 := bpow_gt_0 radix2 (-29)). destruct r_rng as (R & RR).
  destruct (ofZ_small f 0 ltac:(lia)) as (V0 & F0 & _). destruct (ofZ_small f 1 ltac:(lia)) as (V1 & F1 & _). change (IZR 0) with 0 in V0. change (IZR 1) with 1 in V1. destruct (fmin_spec f) as (Vm & Fm).
  unfold inv_sqrt_check, rel_err. rewrite finite_not_nan by auto. rewrite (flt_false x (ofZ f 0)) by (rewrite ?V0; auto; lra). replace (is_posinf x) with false by (destruct x; try discriminate; reflexivity).
  rewrite (flt_false (ModelBasic.abs x) (fmin f)). 2: rewrite abs_finite; auto. 2: auto. 2: rewrite abs_B2R, Vm, Rabs_pos_eq; lra. rewrite (Rabs_pos_eq s) by lra.
  destruct (ModelBasic.abs (ofZ f 1 -. x) <. fmin f) eqn:C.
  { exists x. split; auto. split; auto. assert (N := near_one f x Fx ltac:(lra) C). assert (M : m <= / 100 * u). { apply Rle_trans with (1 := m1). apply Rmult_le_compat_r. lra. cbn; lra. } assert (Na := Rabs_lt_inv _ _ N).
    assert (RB : / 2 <= r <= 2). { assert (0 <= r) by lra. split; (apply Rsqr_incr_0_var; [|try lra]); unfold Rsqr; rewrite ?RR. all: lra. }
    replace (B2R x - s) with ((B2R x * r - 1) * s) by (field; lra). rewrite Rabs_mult, (Rabs_pos_eq s) by lra. apply Rmult_le_compat_r. lra.
    replace (B2R x * r - 1) with ((r - 1) * (r * r + r + 1)) by (replace (B2R x * r) with (r * r * r) by (rewrite RR; reflexivity); ring). assert (K : (r - 1) * (r + 1) = B2R x - 1) by (replace (B2R x - 1) with (r * r - 1) by (rewrite RR; reflexivity); ring).
    assert (KA : Rabs (r - 1) <= m). { apply Rle_trans with (Rabs (B2R x - 1)). rewrite <- K, Rabs_mult, (Rabs_pos_eq (r + 1)) by lra. rewrite <- (Rmult_1_r (Rabs (r - 1))) at 1. apply Rmult_le_compat_l. apply Rabs_pos. lra. rewrite Rabs_minus_sym. lra. }
    rewrite Rabs_mult. apply Rle_trans with (m * 7). apply Rmult_le_compat; auto using Rabs_pos. rewrite Rabs_pos_eq; [|nra]. nra. lra. }
  exact iter_acc.
Qed.
End S.

(** ** Arguments outside [2^-80, 2^80]: the iteration limit is reached far from the root *)
Definition atl {f} (y : flt f) (b : R) : Prop := y = B754_infinity false \/ (finite y = true /\ b <= B2R y).
Lemma nonneg_cases {f} (y : flt f) : nonneg y -> y = B754_infinity false \/ (finite y = true /\ 0 <= B2R y).
Proof. intros (N & S). destruct y as [b|b| |b m e B]; cbn in *; try discriminate; subst. right; split; auto; lra. left; auto. right; split; auto. apply F2R_ge_0. cbn. lia. Qed.
Lemma nonneg_inv1 {f} (y : flt f) : nonneg y -> nonneg (ofZ f 1 /. y).
Proof.
  intros (N & S). destruct (ofZ_small f 1 ltac:(lia)) as (V1 & F1 & _). change (IZR 1) with 1 in V1. assert (S1 : Bsign (ofZ f 1) = false) by (apply pos_sign; auto; lra).
  destruct y as [b|b| |b m e B]; try discriminate; cbn in S; try subst b.
  - destruct (ofZ f 1) as [c|c| |c m' e' B']; try discriminate; cbn in V1, S1; try lra. subst c. split; reflexivity.
  - destruct (ofZ f 1) as [c|c| |c m' e' B']; try discriminate; cbn in V1, S1; try lra. subst c. split; reflexivity.
  - destruct (fdiv_full (ofZ f 1) (B754_finite false m e B : flt f) F1) as [(_ & _ & F & S')|(_ & ->)]. { cbn. apply Rgt_not_eq. apply F2R_gt_0. cbn. lia. }
    + split. apply fin_nan; auto. rewrite S', S1. reflexivity.
    + rewrite S1. split; reflexivity.
Qed.
Lemma atl_nonneg {f} (y : flt f) b : 0 < b -> atl y b -> nonneg y.
Proof. intros B [->|(F & H)]. split; reflexivity. split. apply fin_nan; auto. apply pos_sign; auto. lra. Qed.
Lemma atl_add {f} (y q : flt f) b : 0 < b -> atl y b -> nonneg q -> atl (y +. q) b.
Proof.
  intros B Hy Hq. destruct (nonneg_cases q Hq) as [->|(Fq & Q)].
  - left. destruct Hy as [->|(F & H)]. reflexivity. destruct y; try discriminate; reflexivity.
  - destruct Hy as [->|(F & H)]. left. destruct q; try discriminate; reflexivity.
    destruct (fadd_full y q F Fq) as [(_ & V & F' & _)|(_ & E & S)].
    + right. split; auto. rewrite V. apply Rle_trans with (1 := H). apply rnd_ge_fmt. apply fmt_format. lra.
    + left. rewrite E. f_equal. apply pos_sign; auto. lra.
Qed.
Lemma atl_half {f} (y : flt f) b : bpow radix2 (3 - emax f) <= b -> atl y b -> atl (half f *. y) (b / 2).
Proof.
  intros B [->|(F & H)]. left. apply (inf_mul_pos (half f)); destruct (half_spec f) as (V & F); auto. rewrite V. lra.
  right. assert (b0 := bpow_gt_0 radix2 (3 - emax f)). destruct (half_mul y F) as (F' & V). rewrite Rabs_pos_eq; lra. split; auto. rewrite V. lra.
Qed.
Lemma iq_nonneg {f} (x xn : flt f) : finite x = true -> 0 < B2R x -> nonneg xn -> nonneg (iqd x xn).
Proof. intros Fx X N. apply nonneg_inv1. rewrite fmul_comm. apply mul_nonneg; auto. Qed.
Lemma recur_far {f} (x : flt f) : finite x = true -> 0 < B2R x -> forall n (xn : flt f) b, (n <= 100)%nat -> bpow radix2 (-60) * 2 ^ n <= b -> atl xn b ->
  exists w, inv_sqrt_recur (S n) x xn (100 - Z.of_nat n) = Ok w /\ atl w (b / 2 ^ n).
Proof.
  intros Fx X. assert (b60 := bpow_gt_0 radix2 (-60)). induction n as [|n IH]; intros xn b Hn Hb H.
  - cbn [inv_sqrt_recur]. exists xn. split. destruct (_ <. _); reflexivity. replace (b / 2 ^ 0) with b by (cbn; field). exact H.
  - remember (S n) as k eqn:Ek. cbn [inv_sqrt_recur]. assert (P : 1 <= 2 ^ n) by (apply pow_R1_Rle; lra). assert (P2 : 2 ^ k = 2 * 2 ^ n) by (subst k; reflexivity). rewrite P2 in * .
    assert (B1 : bpow radix2 (-60) <= b). { apply Rle_trans with (2 := Hb). assert (bpow radix2 (-60) * 1 <= bpow radix2 (-60) * (2 * 2 ^ n)) by (apply Rmult_le_compat_l; lra). lra. }
    destruct (_ <. fmin f).
    + exists xn. split; auto. destruct H as [->|(F & H)]; [left; auto|right; split; auto]. apply Rle_trans with (2 := H). apply Rmult_le_reg_r with (2 * 2 ^ n). lra. unfold Rdiv. rewrite Rmult_assoc, Rinv_l, Rmult_1_r by lra. rewrite <- (Rmult_1_r b) at 1. apply Rmult_le_compat_l; lra.
    + replace (100 - Z.of_nat k <? GCEM_INV_SQRT_MAX_ITER)%Z with true by (symmetry; apply Z.ltb_lt; change GCEM_INV_SQRT_MAX_ITER with 100%Z; lia).
      replace (100 - Z.of_nat k + 1)%Z with (100 - Z.of_nat n)%Z by lia. change (ofZ f 1 /. (x *. xn)) with (iqd x xn). subst k.
      replace (b / (2 * 2 ^ n)) with (b / 2 / 2 ^ n) by (field; lra). apply IH. lia. lra.
      apply atl_half. apply Rle_trans with (bpow radix2 (-60)); [|exact B1]. apply bpow_le. destruct f; discriminate. apply atl_add; auto. lra. apply iq_nonneg; auto. apply atl_nonneg with b; auto. lra.
Qed.
Lemma bpow_2 n : bpow radix2 (Z.of_nat n) = 2 ^ n.
Proof. induction n as [|n IH]. reflexivity. replace (Z.of_nat (S n)) with (1 + Z.of_nat n)%Z by lia. rewrite bpow_plus, IH. reflexivity. Qed.
Lemma checks {f} (x : flt f) : finite x = true -> bpow radix2 (2 - emax f) <= B2R x -> B2R x <= / 2 \/ 2 <= B2R x ->
  inv_sqrt_check x = inv_sqrt_recur (Z.to_nat (GCEM_INV_SQRT_MAX_ITER + 1)) x (x /. ofZ f 2) 0.
Proof.
  intros Fx X0 X1. assert (m0 := bpow_gt_0 radix2 (2 - emax f)). destruct (ofZ_small f 0 ltac:(lia)) as (V0 & F0 & _). destruct (fmin_spec f) as (Vm & Fm). change (IZR 0) with 0 in V0.
  assert (m1 : bpow radix2 (2 - emax f) <= / 2) by (change (/ 2) with (bpow radix2 (-1)); apply bpow_le; destruct f; discriminate).
  unfold inv_sqrt_check. rewrite finite_not_nan by auto. rewrite (flt_false x (ofZ f 0)) by (rewrite ?V0; auto; lra). replace (is_posinf x) with false by (destruct x; try discriminate; reflexivity).
  rewrite (flt_false (ModelBasic.abs x) (fmin f)). 2: rewrite abs_finite; auto. 2: auto. 2: rewrite abs_B2R, Vm, Rabs_pos_eq; lra.
  destruct (ModelBasic.abs (ofZ f 1 -. x) <. fmin f) eqn:C; auto. exfalso. apply near_one in C; auto; try lra. apply Rabs_lt_inv in C. lra.
Qed.
Lemma far_large {f} (x : flt f) : finite x = true -> bpow radix2 80 <= B2R x -> exists w, inv_sqrt_check x = Ok w /\ atl w (bpow radix2 19 * / sqrt (B2R x)).
Proof.
  intros Fx X. assert (b80 : bpow radix2 1 <= bpow radix2 80) by (apply bpow_le; lia). change (bpow radix2 1) with 2 in b80. assert (m1 := fm_one f).
  rewrite checks; auto; try lra.
  destruct (istart f x Fx) as (Fn & N). { apply Rle_trans with (2 := X). apply bpow_le; lia. }
  assert (En : exists n, n = 100%nat /\ Z.to_nat (GCEM_INV_SQRT_MAX_ITER + 1) = S n) by (exists 100%nat; split; reflexivity). destruct En as (n & En & ->).
  assert (P : 2 ^ n = bpow radix2 100) by (rewrite <- bpow_2; f_equal; subst n; reflexivity).
  assert (b81 : bpow radix2 (-60) * bpow radix2 100 <= bpow radix2 80 / 2) by (rewrite <- bpow_plus; cbn; lra).
  destruct (recur_far x Fx ltac:(lra) n (x /. ofZ f 2) (B2R x / 2)) as (w & E & W). subst n; lia. rewrite P. lra. right. split; auto. lra.
  exists w. split. replace 0%Z with (100 - Z.of_nat n)%Z by (subst n; reflexivity). exact E.
  destruct W as [->|(F & W)]; [left; auto|right; split; auto]. apply Rle_trans with (2 := W). rewrite P. set (r := sqrt (B2R x)). assert (R : bpow radix2 40 <= r). { apply Rsqr_incr_0_var. 2: apply sqrt_pos. unfold Rsqr, r. rewrite sqrt_sqrt by lra. rewrite <- bpow_plus. exact X. }
  assert (b40 := bpow_gt_0 radix2 40). replace (B2R x) with (r * r) by (apply sqrt_sqrt; lra). apply Rmult_le_reg_r with (r * (2 * bpow radix2 100)). apply Rmult_lt_0_compat. lra. assert (b100 := bpow_gt_0 radix2 100). lra.
  replace (bpow radix2 19 * / r * (r * (2 * bpow radix2 100))) with (2 * (bpow radix2 19 * bpow radix2 100)) by (field; lra). replace (r * r / 2 / bpow radix2 100 * (r * (2 * bpow radix2 100))) with (r * r * r) by (field; apply Rgt_not_eq; apply bpow_gt_0).
  apply Rle_trans with (bpow radix2 40 * bpow radix2 40 * bpow radix2 40). rewrite <- !bpow_plus. cbn; lra. apply Rmult_le_compat; try lra. apply Rmult_le_pos; lra. apply Rmult_le_compat; lra.
Qed.
Lemma inv_atl {f} (y : flt f) e : nonneg y -> finite y = true -> B2R y <= bpow radix2 e -> (emin f <= - e)%Z -> atl (ofZ f 1 /. y) (bpow radix2 (- e)).
Proof.
  intros (N & S) Fy Y E. destruct (ofZ_small f 1 ltac:(lia)) as (V1 & F1 & _). change (IZR 1) with 1 in V1. assert (S1 : Bsign (ofZ f 1) = false) by (apply pos_sign; auto; lra).
  destruct y as [b|b| |b m e' B]; try discriminate; cbn in S; try subst b.
  - left. destruct (ofZ f 1) as [c|c| |c m' e' B']; try discriminate; cbn in V1, S1; try lra. subst c. reflexivity.
  - set (y := B754_finite false m e' B : flt f) in * . assert (Y0 : 0 < B2R y) by (apply F2R_gt_0; cbn; lia).
    destruct (fdiv_full (ofZ f 1) y F1) as [(_ & V & F & S')|(_ & ->)]. lra.
    + right. split; auto. rewrite V, V1. apply rnd_ge_fmt. apply fmt_bpow; auto. unfold Rdiv. rewrite Rmult_1_l, bpow_opp. apply Rinv_le; lra.
    + left. rewrite S1. reflexivity.
Qed.
Lemma test_far {f} (xn q : flt f) : finite xn = true -> 0 <= B2R xn <= 1 -> Bsign xn = false -> atl q 4 -> (ModelBasic.abs (xn -. q) /. (ofZ f 1 +. xn) <. fmin f) = false.
Proof.
  intros Fn N Sn Q. destruct (ofZ_small f 1 ltac:(lia)) as (V1 & F1 & _). change (IZR 1) with 1 in V1. destruct (fmin_spec f) as (Vm & Fm). assert (m1 := fm_one f).
  destruct (fadd_spec (ofZ f 1) xn F1 Fn) as (Va & Fa). { apply wide_fin. rewrite V1, Rabs_pos_eq by lra. apply Rle_trans with 2. lra. cbn; lra. } rewrite V1 in Va.
  set (a := ofZ f 1 +. xn) in * . assert (A : 1 <= B2R a <= 2). { rewrite Va. split. apply rnd_ge_fmt; [|lra]. change 1 with (bpow radix2 0). apply fmt_bpow. unfold emin; destruct f; discriminate. apply rnd_le_fmt; [|lra]. change 2 with (bpow radix2 1). apply fmt_bpow. unfold emin; destruct f; discriminate. }
  assert (SA : Bsign a = false) by (apply pos_sign; auto; lra).
  assert (D : atl (ModelBasic.abs (xn -. q)) 2).
  { destruct Q as [->|(Fq & Q)]. left. destruct xn; try discriminate; reflexivity.
    destruct (fsub_full xn q Fn Fq) as [(_ & V & F & _)|(_ & _ & S)]. 2: { rewrite Sn, (pos_sign q Fq) in S by lra. discriminate. }
    right. split. rewrite abs_finite; auto. rewrite abs_B2R, V. rewrite <- Rabs_Ropp, <- rnd_opp. rewrite Rabs_pos_eq. apply rnd_ge_fmt; [|lra]. change 2 with (bpow radix2 1). apply fmt_bpow. unfold emin; destruct f; discriminate. apply rnd_ge_0. lra. }
  set (g := ModelBasic.abs (xn -. q)) in * . assert (D2 : atl (g /. a) 1).
  { destruct D as [->|(Fg & G)]. left. destruct a as [c|c| |c m' e' B']; try discriminate; cbn in A, SA; try lra; subst c; reflexivity.
    destruct (fdiv_full g a Fg ltac:(lra)) as [(_ & V & F & _)|(_ & ->)]. right. split; auto. rewrite V. apply rnd_ge_fmt. change 1 with (bpow radix2 0). apply fmt_bpow. unfold emin; destruct f; discriminate. apply Rmult_le_reg_r with (B2R a). lra. unfold Rdiv. rewrite Rmult_assoc, Rinv_l by lra. lra.
    left. rewrite (pos_sign g Fg), SA by lra. reflexivity. }
  destruct D2 as [->|(F & D2)]. destruct (fmin f) as [c|c| |c m' e' B']; try discriminate; try destruct c; reflexivity. apply flt_false; auto. lra.
Qed.
Lemma far_small {f} (x : flt f) : finite x = true -> bpow radix2 (2 - emax f) <= B2R x -> B2R x <= bpow radix2 (-80) -> exists w, inv_sqrt_check x = Ok w /\ atl w (bpow radix2 19 * / sqrt (B2R x)).
Proof.
  intros Fx X0 X. assert (m0 := bpow_gt_0 radix2 (2 - emax f)). assert (b80 : bpow radix2 (-80) <= / 2) by (change (/ 2) with (bpow radix2 (-1)); apply bpow_le; lia). rewrite checks; auto; try lra.
  destruct (ofZ_small f 2 ltac:(lia)) as (V2 & F2 & _). change (IZR 2) with 2 in V2.
  set (k := mag radix2 (B2R x) : Z). assert (K1 : bpow radix2 (k - 1) <= B2R x) by (rewrite <- (Rabs_pos_eq (B2R x)) by lra; apply bpow_mag_le; lra). assert (K2 : B2R x < bpow radix2 k) by (rewrite <- (Rabs_pos_eq (B2R x)) at 1 by lra; apply bpow_mag_gt).
  assert (K3 : (k <= -79)%Z). { assert (k - 1 < -79)%Z; [|lia]. apply lt_bpow with radix2. apply Rle_lt_trans with (1 := K1). apply Rle_lt_trans with (1 := X). apply bpow_lt. lia. }
  assert (K4 : (2 - emax f < k)%Z). { apply lt_bpow with radix2. lra. } assert (EM : forall g, (emin g <= 2 - emax g)%Z /\ (emax g <= - emin g)%Z /\ (emin g <= -149)%Z) by (intros []; unfold emin; cbn; lia). specialize (EM f). assert (KE := EM).
  destruct (fdiv_spec x (ofZ f 2) Fx) as (V & F). rewrite V2; lra. { rewrite V2. apply wide_fin. rewrite Rabs_pos_eq by lra. apply Rle_trans with 1. lra. cbn; lra. } rewrite V2 in V.
  set (xn := x /. ofZ f 2) in * . assert (NU : B2R xn <= bpow radix2 (k - 1)). { rewrite V. apply rnd_le_fmt. apply fmt_bpow. lia. replace (bpow radix2 (k - 1)) with (bpow radix2 k / 2). lra. unfold Zminus. rewrite bpow_plus. cbn. lra. }
  assert (NL : bpow radix2 (emin f) <= B2R xn). { rewrite V. apply rnd_ge_fmt. apply fmt_bpow; lia. apply Rle_trans with (bpow radix2 (2 - emax f) / 2). 2: lra. replace (bpow radix2 (2 - emax f) / 2) with (bpow radix2 (2 - emax f + -1)) by (rewrite bpow_plus; reflexivity). apply bpow_le. unfold emin in * . assert (forall g, 2 <= prec g)%Z by (intros []; cbn; lia). specialize (H f). lia. }
  assert (n0 := bpow_gt_0 radix2 (emin f)). assert (Sn : Bsign xn = false) by (apply pos_sign; auto; lra). assert (k1 : bpow radix2 (k - 1) <= 1) by (apply (bpow_le radix2 _ 0); lia).
  assert (XX : B2R x * B2R xn <= bpow radix2 (2 * k - 1)). { replace (2 * k - 1)%Z with (k + (k - 1))%Z by ring. rewrite bpow_plus. apply Rmult_le_compat; lra. } assert (XP : 0 < B2R x * B2R xn) by (apply Rmult_lt_0_compat; lra).
  destruct (fmul_spec x xn Fx F) as (Vp & Fp). { apply wide_fin. rewrite Rabs_pos_eq by lra. apply Rle_trans with (1 := XX). apply bpow_le. lia. }
  assert (NP : nonneg (x *. xn)) by (rewrite fmul_comm; apply mul_nonneg; auto; [split; [apply fin_nan; auto|auto]|lra]).
  set (r := sqrt (B2R x)). assert (rr : r * r = B2R x) by (apply sqrt_sqrt; lra). assert (r0 : 0 < r) by (apply sqrt_lt_R0; lra). set (T := bpow radix2 19 * / r).
  assert (T0 : 1 <= T). { unfold T. apply Rmult_le_reg_r with r; auto. rewrite Rmult_assoc, Rinv_l, Rmult_1_r, Rmult_1_l by lra. apply Rle_trans with 1. 2: cbn; lra. apply Rsqr_incr_0_var; [|lra]. unfold Rsqr. lra. }
  assert (Q : atl (iqd x xn) (bpow radix2 100 * T)).
  { destruct (Z_le_gt_dec (emin f) (2 * k - 1)) as [L|L].
    - assert (H := inv_atl (x *. xn) (2 * k - 1) NP Fp). destruct H as [H|(H1 & H2)]. rewrite Vp. apply rnd_le_fmt; auto. apply fmt_bpow; auto. lia. left; exact H. right. split. exact H1. apply Rle_trans with (2 := H2).
      unfold T. apply Rmult_le_reg_r with r; auto. replace (bpow radix2 100 * (bpow radix2 19 * / r) * r) with (bpow radix2 100 * bpow radix2 19) by (field; lra). rewrite <- bpow_plus. apply Rsqr_incr_0_var. 2: apply Rmult_le_pos; [apply bpow_ge_0|lra]. unfold Rsqr. rewrite <- bpow_plus.
      replace (bpow radix2 (- (2 * k - 1)) * r * (bpow radix2 (- (2 * k - 1)) * r)) with (bpow radix2 (- (2 * k - 1)) * bpow radix2 (- (2 * k - 1)) * (r * r)) by ring. rewrite rr, <- bpow_plus. apply Rle_trans with (bpow radix2 (- (2 * k - 1) + - (2 * k - 1)) * bpow radix2 (k - 1)). rewrite <- bpow_plus. apply bpow_le. lia. apply Rmult_le_compat_l; auto. apply bpow_ge_0.
    - left. assert (H := inv_atl (x *. xn) (emin f) NP Fp). destruct H as [H|(H1 & H2)]. rewrite Vp. apply rnd_le_fmt. apply fmt_bpow; lia. apply Rle_trans with (1 := XX). apply bpow_le. lia. lia. exact H.
      exfalso. assert (B := B2R_lt_emax (ofZ f 1 /. (x *. xn))). assert (bpow radix2 (emax f) <= bpow radix2 (- emin f)) by (apply bpow_le; lia). apply Rabs_lt_inv in B. lra. }
  assert (b100 : 4 <= bpow radix2 100) by (cbn; lra). assert (T4 : 4 <= bpow radix2 100 * T). { apply Rle_trans with (4 * 1). lra. apply Rmult_le_compat; lra. }
  assert (En : exists n, n = 100%nat /\ Z.to_nat (GCEM_INV_SQRT_MAX_ITER + 1) = S n) by (exists 100%nat; split; reflexivity). destruct En as (n & En & ->). cbn [inv_sqrt_recur]. change (ofZ f 1 /. (x *. xn)) with (iqd x xn).
  rewrite test_far; auto. 2: lra. 2: { destruct Q as [Q|(Q1 & Q2)]; [left; auto|right; split; auto; lra]. }
  change (0 <? GCEM_INV_SQRT_MAX_ITER)%Z with true. cbv iota. replace (0 + 1)%Z with (100 - Z.of_nat 99)%Z by reflexivity. assert (En2 : n = S 99) by exact En. clear En. rewrite En2.
  assert (P : 2 ^ 99 = bpow radix2 99) by (rewrite <- bpow_2; f_equal). assert (B99 : bpow radix2 100 = 2 * bpow radix2 99) by (cbn; lra). assert (b99 := bpow_gt_0 radix2 99).
  destruct (recur_far x Fx ltac:(lra) 99 (half f *. (xn +. iqd x xn)) (bpow radix2 100 * T / 2)) as (w & E & W). lia.
  - rewrite P, B99. replace (2 * bpow radix2 99 * T / 2) with (T * bpow radix2 99) by field. apply Rmult_le_compat_r. lra. apply Rle_trans with 1; auto. apply (bpow_le radix2 _ 0). discriminate.
  - apply atl_half. { apply Rle_trans with 1; [|lra]. apply (bpow_le radix2 _ 0). destruct f; discriminate. } rewrite fadd_comm. apply atl_add; auto. lra. split; auto. apply fin_nan; auto.
  - exists w. split. exact E. replace T with (bpow radix2 100 * T / 2 / 2 ^ 99). exact W. rewrite P, B99. field. lra.
Qed.

(** ** The public function *)
Lemma api_inv_sqrt_acc f (x : flt f) : finite x = true -> bpow radix2 (-58) <= B2R x <= bpow radix2 58 ->
  exists w, gcem_inv_sqrt (AFlt f x) = Ok w /\ finite w = true /\ rel_err (B2R w) (/ sqrt (B2R x)) (22 / 10 * bpow radix2 (- prec f)).
Proof. intros F (X0 & X1). exact (inv_sqrt_check_acc f x F X0 X1). Qed.
Lemma api_inv_sqrt_far f (x : flt f) : finite x = true -> bpow radix2 (2 - emax f) <= B2R x -> B2R x <= bpow radix2 (-80) \/ bpow radix2 80 <= B2R x ->
  exists w, gcem_inv_sqrt (AFlt f x) = Ok w /\ (w = B754_infinity false \/ (finite w = true /\ bpow radix2 19 * / sqrt (B2R x) <= B2R w)).
Proof. intros F X0 [H|H]. exact (far_small x F X0 H). exact (far_large x F H). Qed.
