(** * erf at the API *)
From Verif Require Import Base FltLemmas ConvLemmas ModelBasic ModelElem ModelSpecial ModelApi BasicProofs CxxProofs Spec ExpTotal LogBad.
From Coq Require Import Lra Psatz.
From Coquelicot Require Import Coquelicot.
From Interval Require Import Tactic.
From Verif Require Import RangeProofs MiscProofs ExpAcc PowReal FPErr CFBound CFAcc SinAcc SqrtSimp TanhAcc ErfReal ErfBound ErfSmall SpecErf ErfAcc ErfLarge.
Open Scope R_scope.

Lemma gint_opp x : gint (- x) = - gint x.
Proof.
  assert (H : forall y, 0 <= y -> gint (- y) = - gint y).
  { intros y Hy. destruct (Req_dec y 0) as [->|N]. rewrite Ropp_0, gint_0. ring.
    destruct (MVT_gen (fun t => gint (- t) + gint t) 0 y (fun t => 0)) as (c & _ & E).
    - intros t Ht. assert (D1 := gint_derive t). assert (D2 := gint_derive (- t)). assert (ex_derive gint t) by (eexists; eauto). assert (ex_derive gint (- t)) by (eexists; eauto).
      auto_derive. auto. eqR. change (fun x => gint x) with gint. replace (Derive gint t) with (gau t) by (symmetry; apply is_derive_unique; auto). replace (Derive gint (- t)) with (gau (- t)) by (symmetry; apply is_derive_unique; auto). unfold gau. replace (- t * - t) with (t * t) by ring. ring.
    - intros t Ht. apply continuity_pt_filterlim. apply (ex_derive_continuous (fun t => gint (- t) + gint t)). assert (D1 := gint_derive t). assert (D2 := gint_derive (- t)). assert (ex_derive gint t) by (eexists; eauto). assert (ex_derive gint (- t)) by (eexists; eauto). auto_derive. auto.
    - rewrite Ropp_0, gint_0 in E. lra. }
  destruct (Rle_or_lt 0 x). auto. assert (E := H (- x) ltac:(lra)). rewrite Ropp_involutive in E. lra.
Qed.
Lemma erf_odd x : erf_real (- x) = - erf_real x.
Proof. assert (G := gint_opp x). unfold gint in G. unfold erf_real. change (fun t => exp (- (t * t))) with gau. rewrite G. ring. Qed.
Lemma erf_mono x y : x <= y -> erf_real x <= erf_real y.
Proof.
  intros H. unfold erf_real. change (fun t => exp (- (t * t))) with gau. change (RInt gau 0 x) with (gint x). change (RInt gau 0 y) with (gint y). assert (S := sqrt_pi_rng). apply Rmult_le_compat_l. apply Rdiv_le_0_compat; lra.
  assert (M : - gint y <= - gint x); [|lra]. apply (mvt_le (fun t => - gint t) (fun t => - gau t)); auto. intros t _. assert (D1 := gint_derive t). assert (G := gau_pos t). split; [|lra]. apply (is_derive_opp (K := R_AbsRing) (V := R_NormedModule)). exact D1.
Qed.
(** Value at one point. *)
Lemma erf_point a l h : 209995 / 100000 <= a -> l <= 2 / sqrt PI * lw 59 a <= h -> 0 <= l -> h <= / 100 ->
  1 - h - bpow radix2 (-60) <= erf_real a <= 1 - l + bpow radix2 (-60).
Proof.
  intros Ha H Hl Hh. assert (N := lw_near a Ha). assert (S := sqrt_pi_rng). rewrite erf_gtail. assert (IP : 0 < 2 / sqrt PI) by (apply Rdiv_lt_0_compat; lra). set (c := 2 / sqrt PI) in * .
  assert (G := gtail_bnd a ltac:(lra)). assert (N2 : Rabs (c * lw 59 a - c * gtail a) <= bpow radix2 (-55) * (c * gtail a)).
  { rewrite <- Rmult_minus_distr_l, Rabs_mult, (Rabs_pos_eq c) by lra. replace (bpow radix2 (-55) * (c * gtail a)) with (c * (bpow radix2 (-55) * gtail a)) by ring. apply Rmult_le_compat_l; lra. }
  assert (G0 : 0 <= c * gtail a) by (apply Rmult_le_pos; lra). set (T := c * gtail a) in * . assert (b55 := bpow_gt_0 radix2 (-55)). assert (b55s : bpow radix2 (-55) <= / 1000) by (cbn; lra). assert (b60 : bpow radix2 (-60) = / 32 * bpow radix2 (-55)) by (cbn; lra).
  apply Rabs_le_inv in N2. assert (T2 : bpow radix2 (-55) * T <= / 1000 * T) by (apply Rmult_le_compat_r; lra). assert (TH : T <= / 50) by lra. assert (bpow radix2 (-55) * T <= bpow radix2 (-55) * / 50) by (apply Rmult_le_compat_l; lra). lra.
Qed.
Ltac lwi := unfold lw; cbv [lcf up_rec lcf_step Z.add Z.mul Pos.add Pos.mul Pos.succ]; unfold gau; interval with (i_prec 90).
Lemma erf_top_le : erf_real (210001 / 100000) <= 99703 / 100000.
Proof.
  destruct (erf_point (210001 / 100000) (2979 / 1000000) (2980 / 1000000)) as (_ & H). lra. split; lwi. lra. lra. assert (bpow radix2 (-60) <= / 1000000000) by (cbn; lra). lra.
Qed.
Definition er_ok {f} (a : R) (w : flt f) : Prop := finite w = true /\ rel_err (B2R w) (erf_real a) (erf_b f (Rabs a)) /\ Rabs (B2R w) <= 1 /\
  (211 / 100 <= Rabs a -> abs_err (B2R w) (erf_real a) (2 * uf f + bpow radix2 (-60))).
Lemma erf_b_lo f x : 18 * uf f + bpow radix2 (-54) <= erf_b f x <= 45700 * uf f + bpow radix2 (-53).
Proof. assert (u0 := uf_pos f). assert (b54 := bpow_gt_0 radix2 (-54)). assert (b53 : bpow radix2 (-53) = 2 * bpow radix2 (-54)) by (cbn; lra). unfold erf_b. destruct Rle_dec; [lra|]. destruct Rle_dec; [lra|]. destruct Rle_dec; lra. Qed.
Lemma erf_begin_acc v {f} (x : flt f) : finite x = true -> bpow radix2 (2 - emax f) <= B2R x <= 3000000000 -> exists w, erf_begin v x = Ok w /\ er_ok (B2R x) w.
Proof.
  intros Fx X. assert (x0 := bpow_gt_0 radix2 (2 - emax f)). assert (u0 := uf_pos f). assert (u1 : uf f <= / 16777216) by (change (/ 16777216) with (bpow radix2 (-24)); apply uf_le). unfold erf_begin, er_ok, rel_err, abs_err. destruct (lit21 f) as (Fl & Vl). apply Rabs_le_inv in Vl. rewrite (Rabs_pos_eq (B2R x)) by lra.
  destruct (dlit f 21 1 <. x) eqn:C; [apply flt_true_inv in C; auto|apply flt_false_inv in C; auto].
  - destruct (erf_large_acc v x Fx ltac:(lra)) as (w & E & F & R & D). exists w. split; auto. split; auto. assert (b60 : bpow radix2 (-60) <= / 1000) by (cbn; lra). assert (b53 : bpow radix2 (-53) = 128 * bpow radix2 (-60)) by (cbn; lra). assert (b60p := bpow_gt_0 radix2 (-60)). assert (D' := D). apply Rabs_le_inv in D'.
    split; [|split; auto]. 2: rewrite Rabs_pos_eq; lra. rewrite (Rabs_pos_eq (erf_real _)) by lra. eapply Rle_trans. exact D.
    unfold erf_b. destruct Rle_dec; [lra|]. destruct Rle_dec; [lra|]. destruct Rle_dec; [lra|]. apply Rle_trans with ((45700 * uf f + bpow radix2 (-53)) * (9 / 10)). lra. apply Rmult_le_compat_l; lra.
  - destruct (erf_small_acc v x Fx ltac:(lra)) as (w & E & F & P & D). exists w. split; auto. split; auto. rewrite (Rabs_pos_eq (erf_real _)) by lra. split; auto. split. 2: lra.
    assert (EB := erf_b_lo f (B2R x)). assert (b53 : bpow radix2 (-53) <= / 1000000000) by (cbn; lra). assert (b54 := bpow_gt_0 radix2 (-54)). assert (M := erf_mono (B2R x) (210001 / 100000) ltac:(lra)). assert (TL := erf_top_le). apply Rabs_le_inv in D.
    assert (erf_b f (B2R x) * erf_real (B2R x) <= 2725 / 1000000 * erf_real (B2R x)) by (apply Rmult_le_compat_r; lra). apply Rabs_le. lra.
Qed.
Lemma erf_check_acc v {f} (x : flt f) : finite x = true -> bpow radix2 (2 - emax f) <= Rabs (B2R x) <= 3000000000 -> exists w, erf_check v x = Ok w /\ er_ok (B2R x) w.
Proof.
  intros Fx X0. assert (x0 := bpow_gt_0 radix2 (2 - emax f)). unfold erf_check. rewrite finite_not_nan by auto.
  replace (is_posinf x) with false by (destruct x; auto; discriminate). replace (is_neginf x) with false by (destruct x; auto; discriminate).
  destruct (ofZ_small f 0 ltac:(lia)) as (V0 & F0 & _).
  rewrite (flt_false (ModelBasic.abs x) (fmin f)). 2: rewrite abs_finite; auto. 2: apply fmin_spec. 2: rewrite abs_B2R, (proj1 (fmin_spec f)); apply X0.
  destruct (x <. ofZ f 0) eqn:C; [apply flt_true_inv in C; auto|apply flt_false_inv in C; auto]; rewrite V0 in C.
  - rewrite Rabs_left in X0 by auto. destruct (erf_begin_acc v (-. x)) as (w & E & F & R & L & A). rewrite fneg_finite; auto. rewrite fneg_B2R; auto.
    rewrite E. exists (-. w). split; [reflexivity|]. unfold er_ok, rel_err, abs_err in * . rewrite fneg_finite, fneg_B2R, (Rabs_Ropp (B2R w)). rewrite fneg_B2R, erf_odd, !Rabs_Ropp in R. rewrite fneg_B2R, erf_odd, !Rabs_Ropp in A.
    replace (- B2R w - erf_real (B2R x)) with (- (B2R w - - erf_real (B2R x))) by ring. rewrite Rabs_Ropp. auto.
  - rewrite Rabs_pos_eq in X0 by auto. apply erf_begin_acc; auto.
Qed.
(** ** API *)
Lemma api_erf v f (x : flt f) : finite x = true -> bpow radix2 (2 - emax f) <= Rabs (B2R x) <= 3000000000 -> exists w, gcem_erf v (AFlt f x) = Ok w /\ finite w = true /\
  rel_err (B2R w) (erf_real (B2R x)) (if Rle_dec (Rabs (B2R x)) (/ 2) then 18 * bpow radix2 (- prec f) + bpow radix2 (-54) else
    if Rle_dec (Rabs (B2R x)) 1 then 139 * bpow radix2 (- prec f) + bpow radix2 (-54) else
    if Rle_dec (Rabs (B2R x)) (3 / 2) then 566 * bpow radix2 (- prec f) + bpow radix2 (-53) else 45700 * bpow radix2 (- prec f) + bpow radix2 (-53)).
Proof. intros Fx X. destruct (erf_check_acc v x Fx X) as (w & E & F & R & _). exists w. split; [exact E|]. split; auto. Qed.
Lemma api_erf_large v f (x : flt f) : finite x = true -> 211 / 100 <= Rabs (B2R x) <= 3000000000 -> exists w, gcem_erf v (AFlt f x) = Ok w /\ finite w = true /\
  abs_err (B2R w) (erf_real (B2R x)) (2 * bpow radix2 (- prec f) + bpow radix2 (-60)).
Proof.
  intros Fx X. assert (B : bpow radix2 (2 - emax f) <= 1) by (apply (bpow_le radix2 _ 0); destruct f; discriminate).
  destruct (erf_check_acc v x Fx ltac:(lra)) as (w & E & F & _ & _ & R). exists w. split; [exact E|]. split; auto. apply R. lra.
Qed.
Lemma api_erf_bound v f (x : flt f) : finite x = true -> Rabs (B2R x) <= 3000000000 -> exists w, gcem_erf v (AFlt f x) = Ok w /\ finite w = true /\ Rabs (B2R w) <= 1.
Proof.
  intros Fx X. destruct (Rlt_or_le (Rabs (B2R x)) (bpow radix2 (2 - emax f))) as [L|L].
  - destruct (ofZ_small f 0 ltac:(lia)) as (V0 & F0 & _). exists (ofZ f 0). unfold gcem_erf, lift1. cbn [ret_fmt ret_val]. unfold erf_check. rewrite finite_not_nan by auto.
    replace (is_posinf x) with false by (destruct x; auto; discriminate). replace (is_neginf x) with false by (destruct x; auto; discriminate).
    rewrite (flt_true (ModelBasic.abs x) (fmin f)). 2: rewrite abs_finite; auto. 2: apply fmin_spec. 2: rewrite abs_B2R, (proj1 (fmin_spec f)); auto. split; [reflexivity|]. split; auto. rewrite V0, Rabs_R0. lra.
  - destruct (erf_check_acc v x Fx ltac:(lra)) as (w & E & F & _ & R & _). exists w. split; [exact E|]. auto.
Qed.
Lemma erf_begin_ub v {f} (x : flt f) : finite x = true -> 3100000000 <= B2R x <= 9000000000000000000 -> erf_begin v x = Ub UbCast.
Proof.
  intros Fx X. unfold erf_begin. destruct (lit21 f) as (Fl & Vl). apply Rabs_le_inv in Vl. rewrite flt_true; auto. 2: lra.
  unfold erf_cf_large_main. set (a := B2R x) in * . assert (u0 := uf_pos f). assert (u1 : uf f <= / 16777216) by (change (/ 16777216) with (bpow radix2 (-24)); apply uf_le).
  assert (X2 : 9610000000000000000 <= a * a <= 81000000000000000000000000000000000000). { split. apply Rle_trans with (3100000000 * 3100000000). lra. apply Rmult_le_compat; lra. apply Rle_trans with (9000000000000000000 * 9000000000000000000). apply Rmult_le_compat; lra. lra. }
  destruct (fmul_spec (-. x) x) as (V' & F'). rewrite fneg_finite; auto. auto. { rewrite fneg_B2R. fold a. replace (- a * a) with (- (a * a)) by ring. apply rnd_lt_emax_bpow with 127%Z. split. unfold emin; destruct f; discriminate. destruct f; reflexivity. rewrite Rabs_Ropp, Rabs_pos_eq by lra. eapply Rle_trans. apply X2. cbn. lra. }
  rewrite fneg_B2R in V'. fold a in V'. replace (- a * a) with (- (a * a)) in V' by ring. rewrite rnd_opp in V'.
  destruct (rnd_fac f (a * a)) as (y & Ey & Hy). lra. { apply Rle_trans with 4. apply Rle_trans with (bpow radix2 0). apply bpow_le. destruct f; discriminate. cbn; lra. lra. }
  apply Rabs_le_inv in Hy. assert (YB := prod_rng 9610000000000000000 81000000000000000000000000000000000000 (999999 / 1000000) (1000001 / 1000000) (a * a) y ltac:(lra) ltac:(lra) ltac:(lra) ltac:(lra)). rewrite <- Ey, <- (Ropp_involutive (rnd f (a * a))), <- V' in YB.
  assert (E := ExpTotal.exp_ub v (-. x *. x) F'). unfold gcem_exp, lift1 in E. cbn [ret_fmt ret_val] in E. rewrite E. reflexivity. right. change (2 ^ 63)%Z with 9223372036854775808%Z. lra.
Qed.
Lemma api_erf_ub v f (x : flt f) : finite x = true -> 3100000000 <= Rabs (B2R x) <= 9000000000000000000 -> gcem_erf v (AFlt f x) = Ub UbCast.
Proof.
  intros Fx X. unfold gcem_erf, lift1. cbn [ret_fmt ret_val]. unfold erf_check. rewrite finite_not_nan by auto.
  replace (is_posinf x) with false by (destruct x; auto; discriminate). replace (is_neginf x) with false by (destruct x; auto; discriminate).
  destruct (ofZ_small f 0 ltac:(lia)) as (V0 & F0 & _). assert (B : bpow radix2 (2 - emax f) <= 1) by (apply (bpow_le radix2 _ 0); destruct f; discriminate).
  rewrite (flt_false (ModelBasic.abs x) (fmin f)). 2: rewrite abs_finite; auto. 2: apply fmin_spec. 2: rewrite abs_B2R, (proj1 (fmin_spec f)); lra.
  destruct (x <. ofZ f 0) eqn:C; [apply flt_true_inv in C; auto|apply flt_false_inv in C; auto]; rewrite V0 in C.
  - rewrite Rabs_left in X by auto. rewrite erf_begin_ub. reflexivity. rewrite fneg_finite; auto. rewrite fneg_B2R. auto.
  - rewrite Rabs_pos_eq in X by auto. apply erf_begin_ub; auto.
Qed.
(** ** Where the two expansions meet *)
Definition erf_x (f : fmt) : Z * Z := match f with F32 => (8808038, -22) | F64 => (4728779608739021, -51) | F80 => (9684540638697515008, -62) end%Z.
Definition erf_wx (f : fmt) : Z * Z := match f with F32 => (16730965, -24) | F64 => (8980362604896932, -53) | F80 => (18391782614824027080, -64) end%Z.
Definition erf_wy (f : fmt) : Z * Z := match f with F32 => (16727229, -24) | F64 => (8980362604894544, -53) | F80 => (18391782614824025925, -64) end%Z.
Definition z2r (p : Z * Z) : R := F2R (Float radix2 (fst p) (snd p)).
Lemma erf_at_x v f : finite (dlit f 21 1) = true /\ B2R (dlit f 21 1) = z2r (erf_x f) /\ exists w : flt f, gcem_erf v (AFlt f (dlit f 21 1)) = Ok w /\ finite w = true /\ B2R w = z2r (erf_wx f).
Proof.
  split. apply lit21. split. { destruct f; [rewrite (B2R_sf (dlit F32 21 1) (SpecFloat.S754_finite false 8808038 (-22)))|rewrite (B2R_sf (dlit F64 21 1) (SpecFloat.S754_finite false 4728779608739021 (-51)))|rewrite (B2R_sf (dlit F80 21 1) (SpecFloat.S754_finite false 9684540638697515008 (-62)))]; try (vm_compute; reflexivity); reflexivity. }
  assert (E : gcem_erf v (AFlt f (dlit f 21 1)) = gcem_erf Cxx14 (AFlt f (dlit f 21 1))) by (unfold gcem_erf, lift1; destruct v; try reflexivity; rewrite erf_11_14; reflexivity).
  rewrite E. destruct f; apply (@LogBad.res_val _ _ false); vm_compute; reflexivity.
Qed.
Lemma erf_at_y v f : let y := Bsucc (dlit f 21 1) in finite y = true /\ B2R y > B2R (dlit f 21 1) /\ exists w : flt f, gcem_erf v (AFlt f y) = Ok w /\ finite w = true /\ B2R w = z2r (erf_wy f).
Proof.
  cbv zeta. split. destruct f; vm_compute; reflexivity. rewrite (proj1 (proj2 (erf_at_x v f))). split. { destruct f; [rewrite (B2R_sf (Bsucc (dlit F32 21 1)) (SpecFloat.S754_finite false 8808039 (-22)))|rewrite (B2R_sf (Bsucc (dlit F64 21 1)) (SpecFloat.S754_finite false 4728779608739022 (-51)))|rewrite (B2R_sf (Bsucc (dlit F80 21 1)) (SpecFloat.S754_finite false 9684540638697515009 (-62)))]; try (vm_compute; reflexivity); unfold z2r, SF2R, F2R; cbn; lra. }
  assert (E : gcem_erf v (AFlt f (Bsucc (dlit f 21 1))) = gcem_erf Cxx14 (AFlt f (Bsucc (dlit f 21 1)))) by (unfold gcem_erf, lift1; destruct v; try reflexivity; rewrite erf_11_14; reflexivity).
  rewrite E. destruct f; apply (@LogBad.res_val _ _ false); vm_compute; reflexivity.
Qed.
Lemma api_erf_mono_bad v f : exists x y wx wy : flt f, finite x = true /\ finite y = true /\ B2R x < B2R y /\ gcem_erf v (AFlt f x) = Ok wx /\ gcem_erf v (AFlt f y) = Ok wy /\
  finite wx = true /\ finite wy = true /\ B2R wy + 1000 * bpow radix2 (- prec f) < B2R wx.
Proof.
  destruct (erf_at_x v f) as (Fx & Vx & wx & E1 & F1 & V1). destruct (erf_at_y v f) as (Fy & Vy & wy & E2 & F2 & V2). exists (dlit f 21 1), (Bsucc (dlit f 21 1)), wx, wy. split; [exact Fx|]. split; [exact Fy|]. split; [exact Vy|]. split; [exact E1|]. split; [exact E2|]. split; [exact F1|]. split; [exact F2|]. rewrite V1, V2. destruct f; unfold z2r, F2R; cbn; lra.
Qed.
Lemma erf_x_val f : erf_real (z2r (erf_x f)) <= z2r (erf_wy f) + 50 * uf f.
Proof.
  destruct f.
  - destruct (erf_point (z2r (erf_x F32)) (1 - 16727249 / 16777216) (/ 200)) as (_ & H). unfold z2r, F2R; cbn; lra. unfold z2r, F2R. cbn [erf_x fst snd Fnum Fexp bpow radix2]. split; lwi. lra. lra. eapply Rle_trans. exact H. unfold z2r, F2R; cbn; lra.
  - destruct (erf_point (z2r (erf_x F64)) (1 - 8980362604894574 / 9007199254740992) (/ 200)) as (_ & H). unfold z2r, F2R; cbn; lra. unfold z2r, F2R. cbn [erf_x fst snd Fnum Fexp bpow radix2]. split; lwi. lra. lra. eapply Rle_trans. exact H. unfold z2r, F2R; cbn; lra.
  - destruct (erf_point (z2r (erf_x F80)) (1 - 18391782614824025945 / 18446744073709551616) (/ 200)) as (_ & H). unfold z2r, F2R; cbn; lra. unfold z2r, F2R. cbn [erf_x fst snd Fnum Fexp bpow radix2]. split; lwi. lra. lra. eapply Rle_trans. exact H. unfold z2r, F2R; cbn; lra.
Qed.
Lemma api_erf_bad v f : exists x w : flt f, finite x = true /\ 2 <= B2R x <= 5 / 2 /\ gcem_erf v (AFlt f x) = Ok w /\ finite w = true /\ ~ rel_err (B2R w) (erf_real (B2R x)) (1000 * bpow radix2 (- prec f)).
Proof.
  destruct (erf_at_x v f) as (Fx & Vx & wx & E1 & F1 & V1). exists (dlit f 21 1), wx. split; auto. split. { destruct (lit21 f) as (_ & B). apply Rabs_le_inv in B. lra. } split; auto. split; auto.
  rewrite Vx, V1. assert (X := erf_x_val f). unfold rel_err. assert (u0 := uf_pos f). change (bpow radix2 (- prec f)) with (uf f). set (e := erf_real (z2r (erf_x f))) in * .
  assert (D : z2r (erf_wy f) + 1100 * uf f <= z2r (erf_wx f) /\ z2r (erf_wx f) <= 1) by (unfold uf, z2r, F2R; destruct f; cbn; lra).
  assert (E0 : 0 <= e). { unfold e. replace 0 with (erf_real 0). apply erf_mono. unfold z2r, F2R. destruct f; cbn; lra. unfold erf_real. rewrite RInt_point. cbv. ring. }
  intros H. rewrite (Rabs_pos_eq e) in H by auto. apply Rabs_le_inv in H. assert (1000 * uf f * e <= 1000 * uf f * 1) by (apply Rmult_le_compat_l; lra). lra.
Qed.
