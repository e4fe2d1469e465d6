(** * Accuracy of log *)
From Verif Require Import Base ModelBasic ModelInt ModelElem ModelApi FltLemmas Spec IntProofs BasicProofs ConvLemmas CxxProofs SymLemmas ScaleProofs TotalProofs ExpAcc MiscProofs.
From Coq Require Import Lra Psatz PrimFloat.
From Flocq Require Import Sterbenz.
From Coquelicot Require Import Coquelicot.
From Verif Require Import PF FPErr CFReal CFBound CFTrunc CFAcc TanAcc SinAcc SqrtSimp.
From Interval Require Import Tactic.
Open Scope R_scope.

Lemma log_fcf v {f} (xx : flt f) : log_cf_main v xx 1 = fcf true true xx 24 1.
Proof.
  destruct v.
  - reflexivity.
  - unfold log_cf_main. rewrite for_down_rec_up by (unfold GCEM_LOG_MAX_ITER_SMALL; lia). reflexivity.
Qed.
Definition LC : pf := 0x1.1cp+1%float.
Lemma LC_val : rv LC = 71 / 32.
Proof. destruct (lit LC 4996180836614144 (-51) eq_refl) as (A & B). rewrite B. cbn. lra. Qed.
Lemma log_chk1 : call true true 24 6 0 23 LC 1 = true. Proof. vm_compute. reflexivity. Qed.
Lemma log_chk2 : call true true 24 6 0 23 1000000 RHO = true. Proof. vm_compute. reflexivity. Qed.

(** ** Rounding commutes with doubling *)
Lemma rnd_dbl f z : bpow radix2 (2 - emax f) <= Rabs z -> rnd f (2 * z) = 2 * rnd f z.
Proof.
  intros H. assert (z0 : z <> 0). { intros ->. rewrite Rabs_R0 in H. assert (b := bpow_gt_0 radix2 (2 - emax f)). lra. }
  assert (M : (3 - emax f <= mag radix2 z)%Z) by (apply mag_ge_bpow; replace (3 - emax f - 1)%Z with (2 - emax f)%Z by ring; exact H).
  assert (C : cexp radix2 (fexpf f) (2 * z) = (cexp radix2 (fexpf f) z + 1)%Z).
  { unfold cexp. replace (2 * z) with (z * bpow radix2 1) by (cbn; ring). rewrite mag_mult_bpow by auto. rewrite !fexpf_FLT. unfold FLT_exp, emin. lia. }
  unfold rnd, round, scaled_mantissa. rewrite C. unfold F2R. cbn [Fnum Fexp].
  replace (2 * z * bpow radix2 (- (cexp radix2 (fexpf f) z + 1))) with (z * bpow radix2 (- cexp radix2 (fexpf f) z)).
  - rewrite (bpow_plus radix2 _ 1). change (bpow radix2 1) with 2. ring.
  - rewrite Z.opp_add_distr, bpow_plus. change (bpow radix2 (- (1))) with (/ 2). field.
Qed.
Lemma quot_nz {f} (x r : flt f) : finite x = true -> finite (x /. r) = true -> B2R (x /. r) <> 0 -> B2R r <> 0.
Proof.
  intros Fx F N E. destruct r as [s|s| |s m e B]; destruct x as [s'|s'| |s' m' e' B']; try discriminate; try (apply N; reflexivity).
  apply (F2R_neq_0 radix2 (Float radix2 (cond_Zopp s (Zpos m)) e)) in E; auto. destruct s; discriminate.
Qed.
(** ** The continued fraction *)
Lemma atanh_ge x : 0 <= x < 1 -> x <= atanh_ x.
Proof.
  intros H. assert (M := mvt0 (fun c => c - atanh_ c) (fun c => 1 - / (1 - c * c)) x). 
  destruct (MVT_gen atanh_ 0 x (fun c => / (1 - c * c))) as (c & Hc & E).
  - intros c Hc. rewrite Rmin_left, Rmax_right in Hc by lra. apply atanh_derive. apply Rabs_lt. lra.
  - intros c Hc. rewrite Rmin_left, Rmax_right in Hc by lra. apply continuity_pt_filterlim, (ex_derive_continuous atanh_). eexists. apply atanh_derive. apply Rabs_lt. lra.
  - assert (A0 : atanh_ 0 = 0). { unfold atanh_. replace ((1 + 0) / (1 - 0)) with 1 by field. rewrite ln_1. ring. }
    rewrite A0, !Rminus_0_r in E. rewrite E. rewrite Rmin_left, Rmax_right in Hc by lra.
    assert (1 <= / (1 - c * c)). { rewrite <- Rinv_1 at 1. apply Rinv_le; nra. } nra.
Qed.
Lemma log_cf_acc v {f} (x : flt f) : finite x = true -> bpow radix2 (3 - emax f) <= B2R x < 23 / 64 ->
  finite (log_cf_begin v x) = true /\ Rabs (B2R (log_cf_begin v x) - 2 * atanh_ (B2R x)) <= (71 / 32 * uf f + bpow radix2 (-80)) * (2 * atanh_ (B2R x)).
Proof.
  intros Fx (X0 & X1). unfold log_cf_begin. rewrite log_fcf. assert (P6 : bpow radix2 (- (6)) = / 64) by reflexivity. assert (x0 := bpow_gt_0 radix2 (2 - emax f)). assert (b3 : bpow radix2 (3 - emax f) = 2 * bpow radix2 (2 - emax f)) by (replace (3 - emax f)%Z with (1 + (2 - emax f))%Z by ring; rewrite bpow_plus; reflexivity).
  destruct (call_round true true 24 6 0 23 LC 1%float ltac:(lia) ltac:(lia) ltac:(lia) log_chk1 x Fx) as (F & W0 & R). { rewrite P6. cbn. lra. } { lra. } rewrite LC_val in R. cbn [sgn_of] in * .
  destruct (atanh_trunc 24 6 RHO 23 1000000%float (B2R x) ltac:(lia) ltac:(lia) log_chk2) as (TR & _). { rewrite P6, Rabs_pos_eq by lra. cbn. lra. } { rewrite Rabs_pos_eq; lra. }
  rewrite RHO_val, (Rabs_pos_eq (B2R x)) in TR by lra. assert (AG := atanh_ge (B2R x) ltac:(lra)).
  set (w := w_of (-1) (ar true) 24 (B2R x)) in * . set (r := fcf true true (x *. x) 24 1) in * . set (a := atanh_ (B2R x)) in * .
  assert (u0 := uf_pos f). assert (u1 := uf_le f). change (bpow radix2 (-24)) with (/ 16777216) in u1. change (bpow radix2 (-100)) with (/ 1267650600228229401496703205376) in TR. change (bpow radix2 (-80)) with (/ 1208925819614629174706176).
  assert (TR2 : Rabs (w - a) <= / 500000000000000000000000000000 * a) by lra. clear TR. assert (A5 : a <= / 2). { unfold a. 
    assert (M := mvt0 atanh_ (fun c => / (1 - c * c)) (B2R x) (13/10)). rewrite (Rabs_pos_eq (B2R x)) in M by lra.
    assert (Rabs (atanh_ (B2R x)) <= 13 / 10 * B2R x). { apply M. intros c Hc. assert (c2 : 0 <= c * c <= 13 / 100). { split. nra. replace (c * c) with (Rabs c * Rabs c) by (rewrite <- Rabs_mult, Rabs_pos_eq; nra). assert (0 <= Rabs c) by apply Rabs_pos. nra. }
      split. apply atanh_derive; lra. rewrite Rabs_pos_eq by (left; apply Rinv_0_lt_compat; lra). replace (13 / 10) with (/ (10 / 13)) by field. apply Rinv_le; lra.
      unfold atanh_. replace ((1 + 0) / (1 - 0)) with 1 by field. rewrite ln_1. ring. }
    apply Rabs_le_inv in H. lra. }
  assert (Wa : Rabs w <= a * (1 + / 500000000000000000000000000000)). { replace w with (w - a + a) by ring. eapply Rle_trans. apply Rabs_triang. rewrite (Rabs_pos_eq a) by lra. lra. } rewrite Rabs_pos_eq in Wa by lra.
  assert (z0 : 0 < B2R (x /. r) <= 1). { apply Rabs_le_inv in R. assert (71 / 32 * uf f * w <= / 1000 * w) by (apply Rmult_le_compat_r; lra). lra. }
  assert (rn : B2R r <> 0) by (apply (quot_nz x r Fx F); lra).
  assert (V : rnd f (B2R x / B2R r) = B2R (x /. r)).
  { destruct (Rlt_or_le (Rabs (rnd f (B2R x / B2R r))) (bpow radix2 (emax f))) as [L|L]. symmetry. apply (fdiv_spec x r Fx rn L).
    exfalso. pose proof (Bdiv_correct (prec f) (emax f) _ _ mode_NE x r rn) as C. cbv zeta in C. change (round_mode mode_NE) with ZnearestE in C. change (round radix2 _ _ (B2R x / B2R r)) with (rnd f (B2R x / B2R r)) in C. rewrite Rlt_bool_false in C by exact L.
    change (Bdiv mode_NE x r) with (x /. r) in C. destruct (x /. r) as [s|s| |s m e B]; try discriminate; destruct (xorb _ _); discriminate. }
  assert (Z0 : bpow radix2 (2 - emax f) <= Rabs (B2R x / B2R r)).
  { assert (W2 : w * (1 - / 1000) <= B2R (x /. r)). { apply Rabs_le_inv in R. assert (71 / 32 * uf f * w <= / 1000 * w) by (apply Rmult_le_compat_r; lra). lra. } 
    apply Rnot_lt_le. intros N. assert (rnd f (B2R x / B2R r) <= bpow radix2 (2 - emax f)). { apply rnd_le_fmt. apply fmt_bpow. unfold emin; destruct f; cbn; lia. assert (Q := Rle_abs (B2R x / B2R r)). lra. }
    assert (Wx : B2R x * (1 - / 1000) <= w). { apply Rabs_le_inv in TR2. lra. } lra. }
  destruct (ofZ_small f 2 ltac:(lia)) as (V2 & F2 & _). change (IZR 2) with 2 in V2.
  assert (D : rnd f (2 * B2R x) = 2 * B2R x). { rewrite rnd_dbl by (rewrite Rabs_pos_eq; lra). rewrite rnd_id. reflexivity. apply fmt_format. }
  destruct (fmul_spec (ofZ f 2) x F2 Fx) as (Vm & Fm). { rewrite V2. apply big_fin. rewrite Rabs_pos_eq; lra. } rewrite V2, D in Vm.
  assert (E : B2R (ofZ f 2 *. x) / B2R r = 2 * (B2R x / B2R r)) by (rewrite Vm; unfold Rdiv; ring).
  destruct (fdiv_spec (ofZ f 2 *. x) r Fm rn) as (Vd & Fd). { rewrite E, rnd_dbl by auto. rewrite V. apply Rle_lt_trans with 2. rewrite Rabs_pos_eq; lra. change 2 with (bpow radix2 1). apply bpow_lt. destruct f; reflexivity. }
  rewrite E, rnd_dbl, V in Vd by auto. split; auto. rewrite Vd. set (z := B2R (x /. r)) in * .
  replace (2 * z - 2 * a) with (2 * ((z - w) + (w - a))) by ring. rewrite Rabs_mult, (Rabs_pos_eq 2) by lra.
  assert (T := Rabs_triang (z - w) (w - a)). assert (71 / 32 * uf f * w <= 71 / 32 * uf f * (a * (1 + / 500000000000000000000000000000))) by (apply Rmult_le_compat_l; lra).
  assert (uf f * a <= / 16777216 * a) by (apply Rmult_le_compat_r; lra). lra.
Qed.
Lemma atanh_opp x : Rabs x < 1 -> atanh_ (- x) = - atanh_ x.
Proof.
  intros H. apply Rabs_lt_inv in H. unfold atanh_. replace ((1 + - x) / (1 - - x)) with (/ ((1 + x) / (1 - x))) by (field; lra). rewrite ln_Rinv by (apply Rdiv_lt_0_compat; lra). ring.
Qed.
Lemma atanh_abs x : Rabs x < 1 -> atanh_ (Rabs x) = Rabs (atanh_ x).
Proof.
  intros H. assert (H' := H). apply Rabs_lt_inv in H'. destruct (Rle_or_lt 0 x) as [L|L].
  - rewrite (Rabs_pos_eq x) by auto. rewrite Rabs_pos_eq; auto. assert (Q := atanh_ge x ltac:(lra)). lra.
  - rewrite (Rabs_left x) by auto. rewrite atanh_opp by auto. assert (Q := atanh_ge (- x) ltac:(lra)). rewrite atanh_opp in Q by auto. rewrite Rabs_left1; lra.
Qed.
Lemma log_cf_neg v {f} (x : flt f) : log_cf_begin v (-. x) = -. log_cf_begin v x.
Proof. unfold log_cf_begin. rewrite fmul_neg_neg, fmul_neg_r, fdiv_neg_l. reflexivity. Qed.
Lemma log_cf_any v {f} (x : flt f) : finite x = true -> bpow radix2 (3 - emax f) <= Rabs (B2R x) < 23 / 64 ->
  finite (log_cf_begin v x) = true /\ Rabs (B2R (log_cf_begin v x) - 2 * atanh_ (B2R x)) <= (71 / 32 * uf f + bpow radix2 (-80)) * (2 * Rabs (atanh_ (B2R x))).
Proof.
  intros Fx H. rewrite <- atanh_abs by lra. destruct (Rle_or_lt 0 (B2R x)) as [L|L].
  - rewrite (Rabs_pos_eq (B2R x)) in * by auto. apply log_cf_acc; auto.
  - rewrite (Rabs_left (B2R x)) in * by auto. destruct (log_cf_acc v (-. x)) as (F & R). rewrite fneg_finite; auto. rewrite fneg_B2R; auto.
    rewrite log_cf_neg, fneg_finite in F. rewrite log_cf_neg, !fneg_B2R in R. split; auto. rewrite atanh_opp in R |- * by (rewrite Rabs_left; lra).
    replace (B2R (log_cf_begin v x) - 2 * atanh_ (B2R x)) with (- (- B2R (log_cf_begin v x) - 2 * - atanh_ (B2R x))) by ring. rewrite Rabs_Ropp. exact R.
Qed.
(** ** log_main on [1/2, 2] *)
Lemma gap_one {f} (x : flt f) : finite x = true -> / 2 <= B2R x -> B2R x <> 1 -> bpow radix2 (- prec f) <= Rabs (B2R x - 1).
Proof.
  intros Fx L N. assert (G := fmt_format x). pose proof (prec_pos f).
  assert (E : exists k, B2R x = IZR k * bpow radix2 (- prec f)).
  { assert (C : (- prec f <= cexp radix2 (fexpf f) (B2R x))%Z).
    { unfold cexp. assert (M : (0 <= mag radix2 (B2R x))%Z). { apply mag_ge_bpow. change (bpow radix2 (0 - 1)) with (/ 2). rewrite Rabs_pos_eq; lra. } rewrite fexpf_FLT. unfold FLT_exp. lia. }
    exists (Ztrunc (scaled_mantissa radix2 (fexpf f) (B2R x)) * 2 ^ (cexp radix2 (fexpf f) (B2R x) - - prec f))%Z.
    rewrite G at 1. unfold F2R. cbn [Fnum Fexp]. rewrite mult_IZR, <- bpow_IZR by lia. rewrite Rmult_assoc, <- bpow_plus. do 2 f_equal. lia. }
  destruct E as (k & E). assert (b := bpow_gt_0 radix2 (- prec f)).
  assert (E2 : B2R x - 1 = IZR (k - 2 ^ prec f) * bpow radix2 (- prec f)).
  { rewrite E, minus_IZR, <- bpow_IZR by lia. rewrite Rmult_minus_distr_r, <- bpow_plus. replace (prec f + - prec f)%Z with 0%Z by lia. cbn. ring. }
  rewrite E2, Rabs_mult, (Rabs_pos_eq (bpow _ _)) by lra. rewrite <- (Rmult_1_l (bpow _ _)) at 1. apply Rmult_le_compat_r. lra.
  rewrite <- abs_IZR. apply IZR_le. assert (k - 2 ^ prec f <> 0)%Z; [|lia]. intros Z. rewrite Z in E2. lra.
Qed.
Lemma log_main_one v {f} (x : flt f) : finite x = true -> B2R x = 1 -> finite (log_main v x) = true /\ B2R (log_main v x) = 0.
Proof.
  intros Fx V. destruct (ofZ_small f 1 ltac:(lia)) as (V1 & F1 & S1). assert (E : x = ofZ f 1). { apply flt_inj; auto. lra. rewrite S1. apply pos_sign; auto; lra. } rewrite E.
  assert (Z : B2SF (log_main v (ofZ f 1)) = SpecFloat.S754_zero false) by (destruct f, v; vm_compute; reflexivity).
  destruct (log_main v (ofZ f 1)); try discriminate. split; reflexivity.
Qed.
Lemma log_main_acc v {f} (x : flt f) : finite x = true -> / 2 <= B2R x <= 2 -> 
  finite (log_main v x) = true /\ Rabs (B2R (log_main v x) - ln (B2R x)) <= 45 / 10 * uf f * Rabs (ln (B2R x)).
Proof.
  intros Fx H. destruct (Req_dec (B2R x) 1) as [E|N].
  { destruct (log_main_one v x Fx E) as (F & V). split; auto. rewrite V, E, ln_1. rewrite Rminus_0_r, Rabs_R0. lra. }
  assert (G := gap_one x Fx (proj1 H) N). fold (uf f) in G. assert (u0 := uf_pos f). assert (u1 := uf_le f). change (bpow radix2 (-24)) with (/ 16777216) in u1.
  destruct (ofZ_small f 1 ltac:(lia)) as (V1 & F1 & _). change (IZR 1) with 1 in V1.
  destruct (fsub_exact x (ofZ f 1) Fx F1) as (Va & Fa). { rewrite V1. apply sterbenz. apply FLT_exp_valid. apply prec_pos. apply FLT_exp_monotone. apply fmt_format. apply (fmt_IZR f 1). destruct f; cbn; lia. lra. } { rewrite V1. apply Rle_lt_trans with (bpow radix2 0). cbn. apply Rabs_le. lra. apply bpow_lt. destruct f; reflexivity. }
  rewrite V1 in Va. destruct (op_add x (ofZ f 1) Fx F1) as (Fb & Vb). { rewrite V1. apply Rabs_le. lra. } rewrite V1 in Vb.
  assert (fm : bpow radix2 (2 - emax f) <= 1) by apply fm_one.
  destruct (rnd_u f (B2R x + 1)) as (e1 & He1 & E1). { rewrite Rabs_pos_eq; lra. } rewrite E1 in Vb. apply Rabs_le_inv in He1.
  set (t := (B2R x - 1) / (B2R x + 1)). assert (Tx : (B2R x - 1) / ((B2R x + 1) * (1 + e1)) = t / (1 + e1)) by (unfold t; field; lra).
  assert (T3 : Rabs t <= / 3). { unfold t. apply Rabs_le. split; (apply Rmult_le_reg_r with (B2R x + 1); [lra|]); unfold Rdiv; rewrite Rmult_assoc, Rinv_l by lra; lra. }
  assert (TL : uf f / 3 <= Rabs t). { unfold t, Rdiv. rewrite Rabs_mult. apply Rmult_le_compat; try lra. rewrite Rabs_pos_eq by (left; apply Rinv_0_lt_compat; lra). apply Rinv_le; lra. }
  assert (D1 : Rabs (/ (1 + e1) - 1) <= 1000001 / 1000000 * uf f). { replace (/ (1 + e1) - 1) with (- e1 / (1 + e1)) by (field; lra). unfold Rdiv. rewrite Rabs_mult, Rabs_Ropp, (Rabs_pos_eq (/ _)) by (left; apply Rinv_0_lt_compat; lra). rewrite Rmult_comm. apply Rmult_le_compat; auto using Rabs_pos. left; apply Rinv_0_lt_compat; lra. replace (1000001 * / 1000000) with (/ (1000000 / 1000001)) by field. apply Rinv_le; lra. apply Rabs_le; lra. }
  assert (T4 : / 2 * Rabs t <= Rabs (t / (1 + e1)) <= 2 * Rabs t). { unfold Rdiv. rewrite Rabs_mult. rewrite (Rabs_pos_eq (/ _)) by (left; apply Rinv_0_lt_compat; lra). apply Rabs_le_inv in D1. assert (0 <= Rabs t) by apply Rabs_pos. split; nra. }
  assert (U3 : 4 * bpow radix2 (3 - emax f) <= uf f / 6). { apply Rle_trans with (bpow radix2 (2 + (3 - emax f))). rewrite bpow_plus. cbn; lra. apply Rle_trans with (bpow radix2 (-3 + - prec f)). apply bpow_le. destruct f; discriminate. rewrite bpow_plus. fold (uf f). cbn. lra. }
  assert (b3 := bpow_gt_0 radix2 (3 - emax f)).
  destruct (op_div (x -. ofZ f 1) (x +. ofZ f 1) Fa) as (Fd & Vd). { rewrite Vb. apply Rmult_integral_contrapositive. split; lra. } { rewrite Va, Vb, Tx. lra. }
  rewrite Va, Vb, Tx in Vd. destruct (rnd_u f (t / (1 + e1))) as (e2 & He2 & E2). { apply Rle_trans with (bpow radix2 (3 - emax f)). apply bpow_le; lia. lra. } rewrite E2 in Vd. apply Rabs_le_inv in He2.
  set (uh := (x -. ofZ f 1) /. (x +. ofZ f 1)) in * . unfold log_main. fold uh.
  assert (DU : Rabs (B2R uh - t) <= 201 / 100 * uf f * Rabs t).
  { rewrite Vd. replace (t / (1 + e1) * (1 + e2) - t) with (t * ((/ (1 + e1) - 1) * (1 + e2) + e2)) by (unfold Rdiv; ring). rewrite Rabs_mult, Rmult_comm. apply Rmult_le_compat_r. apply Rabs_pos.
    apply Rabs_le_inv in D1. apply Rabs_le. set (d := / (1 + e1) - 1) in * . assert (Rabs (d * e2) <= 1000001 / 1000000 * uf f * / 16777216). { rewrite Rabs_mult. apply Rmult_le_compat; try apply Rabs_pos. apply Rabs_le; lra. apply Rabs_le; lra. } apply Rabs_le_inv in H0. lra. }
  assert (UB : Rabs (B2R uh) <= 3334 / 10000). { replace (B2R uh) with ((B2R uh - t) + t) by ring. eapply Rle_trans. apply Rabs_triang. assert (201 / 100 * uf f * Rabs t <= 201 / 100 * / 16777216 * / 3) by (apply Rmult_le_compat; lra || apply Rabs_pos). lra. }
  assert (UL : bpow radix2 (3 - emax f) <= Rabs (B2R uh)). { assert (Q := Rabs_triang (t - B2R uh) (B2R uh)). replace (t - B2R uh + B2R uh) with t in Q by ring. rewrite (Rabs_minus_sym t) in Q. assert (uf f * Rabs t <= / 16777216 * Rabs t) by (apply Rmult_le_compat_r; [apply Rabs_pos|lra]). lra. }
  destruct (log_cf_any v uh Fd) as (F & R). lra. split; auto.
  assert (LT : ln (B2R x) = 2 * atanh_ t). { unfold atanh_. replace ((1 + t) / (1 - t)) with (B2R x). field. unfold t. field. lra. }
  assert (M : Rabs (atanh_ (B2R uh) - atanh_ t) <= 1126 / 1000 * Rabs (B2R uh - t)).
  { apply (mvt atanh_ (fun c => / (1 - c * c)) t (B2R uh)). intros c Hc. assert (Rabs c <= 3334 / 10000). { apply Rabs_le_inv in UB, T3. apply Rabs_le. unfold Rmin, Rmax in Hc. destruct Rle_dec in Hc; lra. }
    assert (c2 : 0 <= c * c <= 1112 / 10000). { split. nra. replace (c * c) with (Rabs c * Rabs c) by (rewrite <- Rabs_mult, Rabs_pos_eq; nra). assert (0 <= Rabs c) by apply Rabs_pos. nra. }
    split. apply atanh_derive; lra. rewrite Rabs_pos_eq by (left; apply Rinv_0_lt_compat; lra). replace (1126 / 1000) with (/ (1000 / 1126)) by field. apply Rinv_le; lra. }
  assert (AT : Rabs t <= Rabs (atanh_ t)). { rewrite <- atanh_abs by lra. apply atanh_ge. split. apply Rabs_pos. lra. }
  rewrite LT, (Rabs_mult 2), (Rabs_pos_eq 2) by lra. set (a := atanh_ t) in * . set (b := atanh_ (B2R uh)) in * . set (w := B2R (log_cf_begin v uh)) in * .
  assert (B80 : bpow radix2 (-80) <= / 1000 * uf f). { apply Rle_trans with (bpow radix2 (-10) * bpow radix2 (- prec f)). rewrite <- bpow_plus. apply bpow_le. destruct f; discriminate. fold (uf f). apply Rmult_le_compat_r. lra. cbn; lra. }
  assert (b80 := bpow_gt_0 radix2 (-80)).
  assert (ua : 0 <= uf f * Rabs a) by (apply Rmult_le_pos; [lra|apply Rabs_pos]).
  assert (BA : Rabs (b - a) <= 2264 / 1000 * uf f * Rabs a). { eapply Rle_trans. exact M. apply Rle_trans with (1126 / 1000 * (201 / 100 * uf f * Rabs t)). lra. assert (uf f * Rabs t <= uf f * Rabs a) by (apply Rmult_le_compat_l; lra). lra. }
  assert (B1 : Rabs b <= 1000001 / 1000000 * Rabs a). { replace b with (b - a + a) by ring. eapply Rle_trans. apply Rabs_triang. assert (uf f * Rabs a <= / 16777216 * Rabs a) by (apply Rmult_le_compat_r; [apply Rabs_pos|lra]). lra. }
  replace (w - 2 * a) with ((w - 2 * b) + 2 * (b - a)) by ring. eapply Rle_trans. apply Rabs_triang. rewrite (Rabs_mult 2), (Rabs_pos_eq 2) by lra.
  assert (a0 : 0 <= Rabs a) by apply Rabs_pos. assert ((71 / 32 * uf f + bpow radix2 (-80)) * (2 * Rabs b) <= (71 / 32 * uf f + / 1000 * uf f) * (2 * (1000001 / 1000000 * Rabs a))). { apply Rmult_le_compat; try lra. assert (0 <= Rabs b) by apply Rabs_pos. lra. }
  lra.
Qed.
(** ** The table of logarithms *)
Lemma conv_ln f (c : flt F80) L : finite c = true -> Rabs (B2R c - L) <= / 18446744073709551616 * L -> / 2 <= L <= 5 ->
  finite (conv f c) = true /\ Rabs (B2R (conv f c) - L) <= 1001 / 1000 * uf f * L.
Proof.
  intros Fc H HL. assert (H' := H). apply Rabs_le_inv in H'. assert (u0 := uf_pos f).
  destruct (conv_spec f c Fc) as (V & F & _). { apply big_fin. apply Rabs_le. lra. } split; auto. rewrite V. destruct f.
  3:{ rewrite rnd_id by apply fmt_format. eapply Rle_trans. exact H. apply Rmult_le_compat_r. lra. unfold uf. cbn. lra. }
  all: match goal with |- context[rnd ?g _] => destruct (rnd_u g (B2R c)) as (e & He & E); [rewrite Rabs_pos_eq by lra; apply Rle_trans with (bpow radix2 (-2)); [apply bpow_le; discriminate|change (bpow radix2 (-2)) with (/ 4); lra]|] end.
  all: rewrite E; replace (B2R c * (1 + e) - L) with ((B2R c - L) + B2R c * e) by ring; eapply Rle_trans; [apply Rabs_triang|]; rewrite Rabs_mult, (Rabs_pos_eq (B2R c)) by lra.
  all: match goal with |- context[uf ?g] => assert (/ 18446744073709551616 <= / 2000 * uf g) by (unfold uf; cbn; lra); assert (B2R c * Rabs e <= (L + / 18446744073709551616 * L) * uf g) by (apply Rmult_le_compat; try apply Rabs_pos; lra);
    assert (/ 18446744073709551616 * L <= / 2000 * uf g * L) by (apply Rmult_le_compat_r; lra); assert (0 <= uf g * L) by (apply Rmult_le_pos; lra) end; lra.
Qed.
Lemma lm2 : finite (log_mantissa_integer 2) = true /\ Rabs (B2R (log_mantissa_integer 2) - ln 2) <= / 18446744073709551616 * ln 2.
Proof.
  destruct (sf_val (log_mantissa_integer 2) false 12786308645202655660%positive (-64)%Z) as (A & B); [vm_compute; reflexivity|]. split; auto. rewrite B. unfold F2R. cbn [Fnum Fexp cond_Zopp]. change (bpow radix2 (-64)) with (/ 18446744073709551616). interval with (i_prec 140).
Qed.
Lemma lm3 : finite (log_mantissa_integer 3) = true /\ Rabs (B2R (log_mantissa_integer 3) - ln 3) <= / 18446744073709551616 * ln 3.
Proof.
  destruct (sf_val (log_mantissa_integer 3) false 10132909862646469819%positive (-63)%Z) as (A & B); [vm_compute; reflexivity|]. split; auto. rewrite B. unfold F2R. cbn [Fnum Fexp cond_Zopp]. change (bpow radix2 (-63)) with (/ 9223372036854775808). interval with (i_prec 140).
Qed.
Lemma lm4 : finite (log_mantissa_integer 4) = true /\ Rabs (B2R (log_mantissa_integer 4) - ln 4) <= / 18446744073709551616 * ln 4.
Proof.
  destruct (sf_val (log_mantissa_integer 4) false 12786308645202655660%positive (-63)%Z) as (A & B); [vm_compute; reflexivity|]. split; auto. rewrite B. unfold F2R. cbn [Fnum Fexp cond_Zopp]. change (bpow radix2 (-63)) with (/ 9223372036854775808). interval with (i_prec 140).
Qed.
Lemma lm5 : finite (log_mantissa_integer 5) = true /\ Rabs (B2R (log_mantissa_integer 5) - ln 5) <= / 18446744073709551616 * ln 5.
Proof.
  destruct (sf_val (log_mantissa_integer 5) false 14844444636598606680%positive (-63)%Z) as (A & B); [vm_compute; reflexivity|]. split; auto. rewrite B. unfold F2R. cbn [Fnum Fexp cond_Zopp]. change (bpow radix2 (-63)) with (/ 9223372036854775808). interval with (i_prec 140).
Qed.
Lemma lm6 : finite (log_mantissa_integer 6) = true /\ Rabs (B2R (log_mantissa_integer 6) - ln 6) <= / 18446744073709551616 * ln 6.
Proof.
  destruct (sf_val (log_mantissa_integer 6) false 16526064185247797649%positive (-63)%Z) as (A & B); [vm_compute; reflexivity|]. split; auto. rewrite B. unfold F2R. cbn [Fnum Fexp cond_Zopp]. change (bpow radix2 (-63)) with (/ 9223372036854775808). interval with (i_prec 140).
Qed.
Lemma lm7 : finite (log_mantissa_integer 7) = true /\ Rabs (B2R (log_mantissa_integer 7) - ln 7) <= / 18446744073709551616 * ln 7.
Proof.
  destruct (sf_val (log_mantissa_integer 7) false 17947853255028685475%positive (-63)%Z) as (A & B); [vm_compute; reflexivity|]. split; auto. rewrite B. unfold F2R. cbn [Fnum Fexp cond_Zopp]. change (bpow radix2 (-63)) with (/ 9223372036854775808). interval with (i_prec 140).
Qed.
Lemma lm8 : finite (log_mantissa_integer 8) = true /\ Rabs (B2R (log_mantissa_integer 8) - ln 8) <= / 18446744073709551616 * ln 8.
Proof.
  destruct (sf_val (log_mantissa_integer 8) false 9589731483901991745%positive (-62)%Z) as (A & B); [vm_compute; reflexivity|]. split; auto. rewrite B. unfold F2R. cbn [Fnum Fexp cond_Zopp]. change (bpow radix2 (-62)) with (/ 4611686018427387904). interval with (i_prec 140).
Qed.
Lemma lm9 : finite (log_mantissa_integer 9) = true /\ Rabs (B2R (log_mantissa_integer 9) - ln 9) <= / 18446744073709551616 * ln 9.
Proof.
  destruct (sf_val (log_mantissa_integer 9) false 10132909862646469819%positive (-62)%Z) as (A & B); [vm_compute; reflexivity|]. split; auto. rewrite B. unfold F2R. cbn [Fnum Fexp cond_Zopp]. change (bpow radix2 (-62)) with (/ 4611686018427387904). interval with (i_prec 140).
Qed.
Lemma lm10 : finite (log_mantissa_integer 10) = true /\ Rabs (B2R (log_mantissa_integer 10) - ln 10) <= / 18446744073709551616 * ln 10.
Proof.
  destruct (sf_val (log_mantissa_integer 10) false 10618799479599967255%positive (-62)%Z) as (A & B); [vm_compute; reflexivity|]. split; auto. rewrite B. unfold F2R. cbn [Fnum Fexp cond_Zopp]. change (bpow radix2 (-62)) with (/ 4611686018427387904). interval with (i_prec 140).
Qed.
Lemma l10v : finite (GCEM_LOG_10) = true /\ Rabs (B2R (GCEM_LOG_10) - ln 10) <= / 18446744073709551616 * ln 10.
Proof.
  destruct (sf_val (GCEM_LOG_10) false 10618799479599967255%positive (-62)%Z) as (A & B); [vm_compute; reflexivity|]. split; auto. rewrite B. unfold F2R. cbn [Fnum Fexp cond_Zopp]. change (bpow radix2 (-62)) with (/ 4611686018427387904). interval with (i_prec 140).
Qed.
Lemma l2v : finite (GCEM_LOG_2) = true /\ Rabs (B2R (GCEM_LOG_2) - ln 2) <= / 18446744073709551616 * ln 2.
Proof.
  destruct (sf_val (GCEM_LOG_2) false 12786308645202655660%positive (-64)%Z) as (A & B); [vm_compute; reflexivity|]. split; auto. rewrite B. unfold F2R. cbn [Fnum Fexp cond_Zopp]. change (bpow radix2 (-64)) with (/ 18446744073709551616). interval with (i_prec 140).
Qed.
Lemma lm_val f n : (1 <= n <= 10)%Z -> finite (conv f (log_mantissa_integer n)) = true /\ Rabs (B2R (conv f (log_mantissa_integer n)) - ln (IZR n)) <= 1001 / 1000 * uf f * ln (IZR n).
Proof.
  intros H. assert (n = 1 \/ n = 2 \/ n = 3 \/ n = 4 \/ n = 5 \/ n = 6 \/ n = 7 \/ n = 8 \/ n = 9 \/ n = 10)%Z as C by lia.
  destruct C as [-> |C]. { assert (Z : B2SF (conv f (log_mantissa_integer 1)) = SpecFloat.S754_zero false) by (destruct f; vm_compute; reflexivity). rewrite ln_1. destruct (conv f _); try discriminate. split. reflexivity. cbn. rewrite Rminus_0_r, Rabs_R0. lra. }
  destruct C as [-> |C]. { apply conv_ln; try apply lm2. split; interval. }
  destruct C as [-> |C]. { apply conv_ln; try apply lm3. split; interval. }
  destruct C as [-> |C]. { apply conv_ln; try apply lm4. split; interval. }
  destruct C as [-> |C]. { apply conv_ln; try apply lm5. split; interval. }
  destruct C as [-> |C]. { apply conv_ln; try apply lm6. split; interval. }
  destruct C as [-> |C]. { apply conv_ln; try apply lm7. split; interval. }
  destruct C as [-> |C]. { apply conv_ln; try apply lm8. split; interval. }
  destruct C as [-> |C]. { apply conv_ln; try apply lm9. split; interval. }
  subst n. apply conv_ln; try apply lm10. split; interval.
Qed.
Lemma log10_val f : finite (conv f GCEM_LOG_10) = true /\ Rabs (B2R (conv f GCEM_LOG_10) - ln 10) <= 1001 / 1000 * uf f * ln 10.
Proof. apply conv_ln; try apply l10v. split; interval. Qed.
(** ** log of the mantissa *)
Lemma ln1p e : Rabs e <= / 1000 -> Rabs (ln (1 + e)) <= 1002 / 1000 * Rabs e.
Proof.
  intros H. apply (mvt0 (fun x => ln (1 + x)) (fun x => / (1 + x))).
  - intros c Hc. assert (Hc2 : Rabs c <= / 1000) by lra. apply Rabs_le_inv in Hc2. split. auto_derive. lra. field. lra. rewrite Rabs_pos_eq by (left; apply Rinv_0_lt_compat; lra). replace (1002 / 1000) with (/ (1000 / 1002)) by field. apply Rinv_le; lra.
  - rewrite Rplus_0_r. apply ln_1.
Qed.
Lemma ln_ge0 x : 1 <= x -> 0 <= ln x.
Proof. intros H. rewrite <- ln_1. destruct H as [H|H]. left; apply ln_increasing; lra. rewrite <- H. lra. Qed.
Lemma ln_le_le x y : 0 < x -> x <= y -> ln x <= ln y.
Proof. intros H [L|L]. left; apply ln_increasing; lra. rewrite L. lra. Qed.
Lemma ln2_rng : 693 / 1000 <= ln 2 <= 694 / 1000. Proof. split; interval. Qed.
Lemma ln10_rng : 2302 / 1000 <= ln 10 <= 2303 / 1000. Proof. split; interval. Qed.
Lemma log_mantissa_acc v {f} (m : flt f) : finite m = true -> 1 <= B2R m <= 10 ->
  exists w, log_mantissa v m = Ok w /\ finite w = true /\ Rabs (B2R w - ln (B2R m)) <= 552 / 100 * uf f * ln (B2R m).
Proof.
  intros Fm B. assert (u0 := uf_pos f). assert (u1 := uf_le f). change (bpow radix2 (-24)) with (/ 16777216) in u1.
  unfold log_mantissa. assert (L := Zfloor_lb (B2R m)). assert (U := Zfloor_ub (B2R m)).
  assert (NB : (1 <= Zfloor (B2R m) <= 10)%Z). { split; [apply Zfloor_lub; lra|apply le_IZR; lra]. }
  rewrite fcast_ok; auto; rewrite Ztrunc_floor by lra. 2: split; cbn; lia. cbn [bind].
  set (n := Zfloor (B2R m)) in * . eexists. split; [reflexivity|]. set (M := B2R m) in * .
  destruct (ofZ_small f n ltac:(lia)) as (Vn & Fn & _). destruct (lm_val f n NB) as (Fl & Vl).
  assert (N1 : 1 <= IZR n) by (apply (IZR_le 1); lia). assert (N10 : IZR n <= 10) by (apply (IZR_le _ 10); lia).
  assert (Q : 1 <= M / IZR n <= 2). { split; apply Rmult_le_reg_r with (IZR n); try lra; unfold Rdiv; rewrite Rmult_assoc, Rinv_l; lra. }
  destruct (op_div m (ofZ f n) Fm) as (Fq & Vq). { rewrite Vn. lra. } { rewrite Vn. apply Rabs_le. fold M. lra. } fold M in Vq. rewrite Vn in Vq.
  assert (QB : / 2 <= B2R (m /. ofZ f n) <= 2). { rewrite Vq. split. apply Rle_trans with 1. lra. apply rnd_ge_fmt. apply (fmt_IZR f 1). destruct f; cbn; lia. lra. apply rnd_le_fmt. apply (fmt_IZR f 2). destruct f; cbn; lia. lra. }
  destruct (log_main_acc v _ Fq QB) as (FL & RL). set (LM := B2R (conv f (log_mantissa_integer n))) in * . set (lq := log_main v (m /. ofZ f n)) in * .
  assert (AB : ln M = ln (M / IZR n) + ln (IZR n)). { rewrite <- ln_mult by lra. f_equal. field. lra. }
  assert (A0 := ln_ge0 (M / IZR n) (proj1 Q)). assert (B0 := ln_ge0 (IZR n) N1). assert (A1 := ln_le_le (M / IZR n) 2 ltac:(lra) (proj2 Q)). assert (l2 := ln2_rng). assert (l10 := ln10_rng). assert (B1 := ln_le_le (IZR n) 10 ltac:(lra) N10).
  set (a := ln (M / IZR n)) in * . set (b := ln (IZR n)) in * .
  destruct (Z.eq_dec n 1) as [E|E].
  - assert (b = 0) by (unfold b; rewrite E; apply ln_1). assert (LM = 0). { rewrite H in Vl. rewrite Rmult_0_r, Rminus_0_r in Vl. assert (Z := Rabs_pos LM). destruct (Req_dec LM 0); auto. apply Rabs_pos_lt in H0. lra. }
    assert (VQ : B2R (m /. ofZ f n) = M). { rewrite Vq, E. unfold Rdiv. rewrite Rinv_1, Rmult_1_r. apply rnd_id. apply fmt_format. } rewrite VQ in RL.
    assert (LL : ln M = a) by lra. rewrite LL in * . rewrite (Rabs_pos_eq a) in RL by lra.
    destruct (op_add lq (conv f (log_mantissa_integer n)) FL Fl) as (Fs & Vs). { fold LM. rewrite H0, Rplus_0_r. assert (uf f * a <= / 16777216 * 1) by (apply Rmult_le_compat; lra). apply Rabs_le_inv in RL. apply Rabs_le. lra. }
    fold LM in Vs. rewrite H0, Rplus_0_r, rnd_id in Vs by apply fmt_format. split; auto. rewrite Vs. assert (0 <= uf f * a) by (apply Rmult_le_pos; lra). lra.
  - assert (N2 : 2 <= IZR n) by (apply (IZR_le 2); lia). assert (B2 := ln_le_le 2 (IZR n) ltac:(lra) N2). fold b in B2.
    destruct (rnd_u f (M / IZR n)) as (e & He & Ee). { rewrite Rabs_pos_eq by lra. apply Rle_trans with 1. apply fm_one. lra. } rewrite Ee in Vq.
    assert (LE := ln1p e ltac:(lra)). assert (He' := He). apply Rabs_le_inv in He'. assert (LQ : ln (B2R (m /. ofZ f n)) = a + ln (1 + e)) by (rewrite Vq; apply ln_mult; lra). rewrite LQ in RL.
    set (d := ln (1 + e)) in * . assert (LD : Rabs d <= 1002 / 1000 * uf f) by lra. clear LE. apply Rabs_le_inv in LD.
    assert (ad : Rabs (a + d) <= a + 1002 / 1000 * uf f) by (apply Rabs_le; lra).
    assert (uu : 0 <= uf f * uf f <= / 16777216 * uf f) by (split; [apply Rmult_le_pos; lra|apply Rmult_le_compat_r; lra]). assert (ua : 0 <= uf f * a <= / 16777216) by (split; [apply Rmult_le_pos; lra|apply Rle_trans with (/ 16777216 * 1); [apply Rmult_le_compat; lra|lra]]).
    assert (ub : 0 <= uf f * b <= 3 * / 16777216) by (split; [apply Rmult_le_pos; lra|apply Rle_trans with (/ 16777216 * 3); [apply Rmult_le_compat; lra|lra]]).
    assert (RL2 : Rabs (B2R lq - (a + d)) <= 45 / 10 * uf f * a + / 100000 * uf f). { eapply Rle_trans. exact RL. apply Rle_trans with (45 / 10 * uf f * (a + 1002 / 1000 * uf f)). apply Rmult_le_compat_l; lra. lra. } clear RL.
    assert (SV : Rabs (B2R lq + LM - (a + b)) <= 45 / 10 * uf f * a + / 100000 * uf f + 1002 / 1000 * uf f + 1001 / 1000 * uf f * b). { apply Rabs_le_inv in RL2, Vl. apply Rabs_le. lra. }
    assert (SB : Rabs (B2R lq + LM) <= a + b + / 10000). { apply Rabs_le_inv in SV. apply Rabs_le. lra. }
    destruct (op_add lq (conv f (log_mantissa_integer n)) FL Fl) as (Fs & Vs). { fold LM. lra. } fold LM in Vs. split; auto. rewrite Vs.
    assert (RS := rnd_small f (B2R lq + LM)). assert (b100 : bpow radix2 (-100) <= / 1000000) by (cbn; lra). assert (uf f * Rabs (B2R lq + LM) <= uf f * (a + b + / 10000)) by (apply Rmult_le_compat_l; lra). assert (uf f * bpow radix2 (-100) <= uf f * / 1000000) by (apply Rmult_le_compat_l; lra).
    rewrite AB. replace (rnd f (B2R lq + LM) - (a + b)) with ((rnd f (B2R lq + LM) - (B2R lq + LM)) + (B2R lq + LM - (a + b))) by ring. eapply Rle_trans. apply Rabs_triang.
    assert (uf f * (693 / 1000) <= uf f * b) by (apply Rmult_le_compat_l; lra). lra.
Qed.
Lemma breakup_acc v {f} (x m : flt f) e : mantissa scale_fuel x = Ok m -> find_exponent scale_fuel x 0 = Ok e -> finite m = true -> 1 <= B2R m <= 10 -> (Z.abs e <= 100000)%Z ->
  exists w, log_breakup v x = Ok w /\ finite w = true /\ Rabs (B2R w - (ln (B2R m) + IZR e * ln 10)) <=
    uf f * (552 / 100 * ln (B2R m) + if Z.eq_dec e 0 then 0 else 201 / 100 * Rabs (IZR e) * ln 10 + Rabs (ln (B2R m) + IZR e * ln 10)).
Proof.
  intros Hm He Fm B HE. unfold log_breakup. rewrite Hm. cbn [bind]. destruct (log_mantissa_acc v m Fm B) as (s & Es & Fs & Vs). rewrite Es. cbn [bind]. rewrite He. cbn [bind]. eexists. split; [reflexivity|].
  assert (u0 := uf_pos f). assert (u1 := uf_le f). change (bpow radix2 (-24)) with (/ 16777216) in u1. assert (l10 := ln10_rng).
  destruct (ofZ_small f e ltac:(lia)) as (Ve & Fe & _). destruct (log10_val f) as (F10 & V10). set (G := B2R (conv f GCEM_LOG_10)) in * . set (E := IZR e) in * .
  assert (EB : Rabs E <= 100000). { unfold E. rewrite <- abs_IZR. apply IZR_le. exact HE. }
  assert (A0 := ln_ge0 (B2R m) (proj1 B)). assert (A1 := ln_le_le (B2R m) 10 ltac:(lra) (proj2 B)). set (a := ln (B2R m)) in * .
  assert (G3 : Rabs G <= 3). { apply Rabs_le_inv in V10. assert (uf f * ln 10 <= / 16777216 * 3) by (apply Rmult_le_compat; lra). assert (0 <= uf f * ln 10) by (apply Rmult_le_pos; lra). apply Rabs_le. lra. }
  destruct (op_mul (conv f GCEM_LOG_10) (ofZ f e) F10 Fe) as (Fp & Vp). { fold G. rewrite Ve, Rabs_mult. fold E. apply Rle_trans with (3 * 100000). apply Rmult_le_compat; auto using Rabs_pos. lra. } fold G in Vp. rewrite Ve in Vp. fold E in Vp.
  set (p := conv f GCEM_LOG_10 *. ofZ f e) in * . assert (ua : 0 <= uf f * a <= / 16777216 * 3) by (split; [apply Rmult_le_pos; lra|apply Rmult_le_compat; lra]).
  assert (SB : Rabs (B2R s) <= 3). { apply Rabs_le_inv in Vs. apply Rabs_le. lra. }
  destruct (Z.eq_dec e 0) as [Z|Z].
  - assert (E0 : E = 0) by (unfold E; rewrite Z; reflexivity). rewrite E0, Rmult_0_r, rnd_0 in Vp. destruct (op_add s p Fs Fp) as (Fw & Vw). { rewrite Vp, Rplus_0_r. lra. }
    rewrite Vp, Rplus_0_r, rnd_id in Vw by apply fmt_format. split; auto. rewrite Vw, E0, Rmult_0_l, !Rplus_0_r. rewrite <- Rmult_assoc, (Rmult_comm (uf f)). exact Vs.
  - assert (E1 : 1 <= Rabs E). { unfold E. rewrite <- abs_IZR. apply (IZR_le 1). lia. }
    set (T := Rabs E * ln 10). assert (T2 : 2302 / 1000 <= T <= 300000). { unfold T. split. apply Rle_trans with (1 * ln 10). lra. apply Rmult_le_compat_r; lra. apply Rle_trans with (100000 * 3). apply Rmult_le_compat; lra. lra. }
    assert (P1 : Rabs (G * E - E * ln 10) <= 1001 / 1000 * uf f * T). { replace (G * E - E * ln 10) with (E * (G - ln 10)) by ring. rewrite Rabs_mult. apply Rle_trans with (Rabs E * (1001 / 1000 * uf f * ln 10)). apply Rmult_le_compat_l; lra. unfold T. lra. }
    assert (uT : 0 <= uf f * T <= / 16777216 * T). { split. apply Rmult_le_pos; lra. apply Rmult_le_compat_r; lra. }
    assert (TT : Rabs (E * ln 10) = T) by (rewrite Rabs_mult, (Rabs_pos_eq (ln 10)); [reflexivity|lra]).
    assert (PB : Rabs (G * E) <= T * (1 + / 8000000)). { replace (G * E) with ((G * E - E * ln 10) + E * ln 10) by ring. eapply Rle_trans. apply Rabs_triang. lra. }
    assert (b100 : bpow radix2 (-100) <= / 1000000) by (cbn; lra). assert (uf f * bpow radix2 (-100) <= uf f * / 1000000) by (apply Rmult_le_compat_l; lra). assert (0 < bpow radix2 (-100)) by apply bpow_gt_0.
    assert (uT2 : uf f * (2302 / 1000) <= uf f * T) by (apply Rmult_le_compat_l; lra).
    assert (P2 : Rabs (B2R p - E * ln 10) <= 20011 / 10000 * uf f * T). { rewrite Vp. replace (rnd f (G * E) - E * ln 10) with ((rnd f (G * E) - G * E) + (G * E - E * ln 10)) by ring. eapply Rle_trans. apply Rabs_triang. assert (Q := rnd_small f (G * E)).
      assert (uf f * Rabs (G * E) <= uf f * (T * (1 + / 8000000))) by (apply Rmult_le_compat_l; lra). lra. }
    set (t := a + E * ln 10). assert (SP : Rabs (B2R s + B2R p - t) <= 552 / 100 * uf f * a + 20011 / 10000 * uf f * T). { unfold t. replace (B2R s + B2R p - (a + E * ln 10)) with ((B2R s - a) + (B2R p - E * ln 10)) by ring. eapply Rle_trans. apply Rabs_triang. lra. }
    assert (tB : Rabs (B2R s + B2R p) <= Rabs t + (552 / 100 * uf f * a + 20011 / 10000 * uf f * T)). { replace (B2R s + B2R p) with ((B2R s + B2R p - t) + t) by ring. eapply Rle_trans. apply Rabs_triang. lra. }
    assert (tT : Rabs t <= 400000). { unfold t. eapply Rle_trans. apply Rabs_triang. rewrite TT, (Rabs_pos_eq a); lra. }
    destruct (op_add s p Fs Fp) as (Fw & Vw). { lra. } split; auto. rewrite Vw. replace (rnd f (B2R s + B2R p) - t) with ((rnd f (B2R s + B2R p) - (B2R s + B2R p)) + (B2R s + B2R p - t)) by ring. eapply Rle_trans. apply Rabs_triang.
    assert (Q := rnd_small f (B2R s + B2R p)). assert (uf f * Rabs (B2R s + B2R p) <= uf f * (Rabs t + (552 / 100 * uf f * a + 20011 / 10000 * uf f * T))) by (apply Rmult_le_compat_l; lra).
    assert (uf f * (uf f * a) <= uf f * (/ 16777216 * 3)) by (apply Rmult_le_compat_l; lra). assert (uf f * (uf f * T) <= / 16777216 * (uf f * T)) by (apply Rmult_le_compat_r; lra).
    replace (uf f * (552 / 100 * a + (201 / 100 * Rabs E * ln 10 + Rabs t))) with (uf f * (552 / 100 * a + (201 / 100 * T + Rabs t))) by (unfold T; ring). lra.
Qed.
