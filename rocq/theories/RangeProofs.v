(** * Range of sin and cos, hypot overflow, symmetry of the beta functions, atan2, acos *)
From Coq Require Import Lra Psatz.
From Verif Require Import Base ModelBasic ModelInt ModelElem ModelSpecial ModelApi FltLemmas ConvLemmas Spec IntProofs BasicProofs SymLemmas ScaleProofs TotalProofs ExpTotal EdgeProofs LimitProofs SymProofs.
Open Scope R_scope.

(** ** |sin|, |cos| <= 1 *)
Lemma twice_minus_one {f} (t : flt f) : /2 <= B2R t < 2 -> generic_format radix2 (fexpf f) (2 * B2R t - 1).
Proof.
  intros [H1 H2]. assert (P : (24 <= prec f)%Z) by (destruct f; cbn; lia). assert (EM : (emin f <= - prec f)%Z) by apply emin_neg.
  assert (G := fmt_format t). assert (NZ : B2R t <> 0) by lra.
  assert (S2 : (2 ^ prec f = 4 * 2 ^ (prec f - 2))%Z).
  { replace (prec f) with (2 + (prec f - 2))%Z at 1 by lia. rewrite Z.pow_add_r by lia. reflexivity. }
  assert (S1 : (2 ^ (prec f - 1) = 2 * 2 ^ (prec f - 2))%Z).
  { replace (prec f - 1)%Z with (1 + (prec f - 2))%Z by lia. rewrite Z.pow_add_r by lia. reflexivity. }
  assert (P0 : (0 < 2 ^ (prec f - 2))%Z) by (apply Z.pow_pos_nonneg; lia).
  assert (CE : (cexp radix2 (fexpf f) (B2R t) = mag radix2 (B2R t) - prec f)%Z).
  { assert (0 <= mag radix2 (B2R t))%Z. { apply mag_ge_bpow. rewrite Rabs_pos_eq by lra. change (bpow radix2 (0 - 1)) with (/2). auto. }
    unfold cexp. rewrite fexpf_FLT. unfold FLT_exp. rewrite Z.max_l; auto. lia. }
  set (m := Ztrunc (scaled_mantissa radix2 (fexpf f) (B2R t))).
  assert (Et : B2R t = IZR m * bpow radix2 (mag radix2 (B2R t) - prec f)).
  { rewrite <- CE. exact G. }
  destruct (Rlt_or_le (B2R t) 1) as [L|L].
  - assert (M : mag radix2 (B2R t) = 0%Z :> Z).
    { apply mag_unique. rewrite Rabs_pos_eq by lra. change (bpow radix2 (0 - 1)) with (/2). change (bpow radix2 0) with 1. lra. }
    rewrite M in Et.
    assert (Q : bpow radix2 (prec f - 1) = IZR (2 * 2 ^ (prec f - 2))) by (rewrite bpow_IZR by lia; rewrite S1; auto).
    assert (Q1 : bpow radix2 (1 - prec f) * bpow radix2 (prec f - 1) = 1).
    { rewrite <- bpow_plus. replace (1 - prec f + (prec f - 1))%Z with 0%Z by lia. reflexivity. }
    assert (Q2 : bpow radix2 (1 - prec f) = 2 * bpow radix2 (0 - prec f)).
    { replace (1 - prec f)%Z with (1 + (0 - prec f))%Z by lia. rewrite bpow_plus. reflexivity. }
    assert (B := bpow_gt_0 radix2 (1 - prec f)).
    assert (E : 2 * B2R t - 1 = F2R (Float radix2 (m - 2 * 2 ^ (prec f - 2)) (1 - prec f))).
    { unfold F2R. cbn [Fnum Fexp]. rewrite minus_IZR, <- Q. rewrite Rmult_minus_distr_r, (Rmult_comm (bpow radix2 (prec f - 1))), Q1, Et, Q2. ring. }
    rewrite E. apply fmt_F2R; [|lia].
    assert (R1 : 0 <= IZR (m - 2 * 2 ^ (prec f - 2)) * bpow radix2 (1 - prec f)) by (unfold F2R in E; cbn [Fnum Fexp] in E; rewrite <- E; lra).
    assert (R2 : IZR (m - 2 * 2 ^ (prec f - 2)) * bpow radix2 (1 - prec f) < 1) by (unfold F2R in E; cbn [Fnum Fexp] in E; rewrite <- E; lra).
    assert (R3 : (0 <= m - 2 * 2 ^ (prec f - 2))%Z). { apply le_IZR. nra. }
    assert (R4 : (m - 2 * 2 ^ (prec f - 2) < 2 * 2 ^ (prec f - 2))%Z). { apply lt_IZR. rewrite <- Q. nra. }
    lia.
  - assert (M : mag radix2 (B2R t) = 1%Z :> Z).
    { apply mag_unique. rewrite Rabs_pos_eq by lra. change (bpow radix2 (1 - 1)) with 1. change (bpow radix2 1) with 2. lra. }
    rewrite M in Et.
    assert (Q : bpow radix2 (prec f - 2) = IZR (2 ^ (prec f - 2))) by (rewrite bpow_IZR by lia; auto).
    assert (Q1 : bpow radix2 (2 - prec f) * bpow radix2 (prec f - 2) = 1).
    { rewrite <- bpow_plus. replace (2 - prec f + (prec f - 2))%Z with 0%Z by lia. reflexivity. }
    assert (Q2 : bpow radix2 (2 - prec f) = 2 * bpow radix2 (1 - prec f)).
    { replace (2 - prec f)%Z with (1 + (1 - prec f))%Z by lia. rewrite bpow_plus. reflexivity. }
    assert (B := bpow_gt_0 radix2 (2 - prec f)).
    assert (E : 2 * B2R t - 1 = F2R (Float radix2 (m - 2 ^ (prec f - 2)) (2 - prec f))).
    { unfold F2R. cbn [Fnum Fexp]. rewrite minus_IZR, <- Q. rewrite Rmult_minus_distr_r, (Rmult_comm (bpow radix2 (prec f - 2))), Q1, Et, Q2. ring. }
    rewrite E. apply fmt_F2R; [|lia].
    assert (R1 : 0 <= IZR (m - 2 ^ (prec f - 2)) * bpow radix2 (2 - prec f)) by (unfold F2R in E; cbn [Fnum Fexp] in E; rewrite <- E; lra).
    assert (R2 : IZR (m - 2 ^ (prec f - 2)) * bpow radix2 (2 - prec f) < 4) by (unfold F2R in E; cbn [Fnum Fexp] in E; rewrite <- E; lra).
    assert (R3 : (0 <= m - 2 ^ (prec f - 2))%Z). { apply le_IZR. nra. }
    assert (R4 : (m - 2 ^ (prec f - 2) < 4 * 2 ^ (prec f - 2))%Z). { apply lt_IZR. rewrite mult_IZR, <- Q. nra. }
    lia.
Qed.
Lemma double_val {f} (t : flt f) : Rabs (2 * B2R t) < bpow radix2 (emax f) -> rnd f (2 * B2R t) = 2 * B2R t.
Proof.
  intros H. apply rnd_id.
  rewrite Rmult_comm. change 2 with (bpow radix2 1).
  destruct (Req_dec (B2R t) 0) as [->|NZ]. { rewrite Rmult_0_l. apply generic_format_0. }
  assert (G := fmt_format t). unfold generic_format in G |- * .
  apply (generic_format_FLT radix2 (emin f) (prec f)).
  apply FLT_format_generic in G; [|apply fmt_prec_gt_0].
  destruct G as [[m e] H1 H2 H3]. cbn [Fnum Fexp] in * .
  exists (Float radix2 m (e + 1)); cbn [Fnum Fexp]; auto; [|apply Z.le_trans with e; [exact H3|lia]].
  rewrite H1. unfold F2R. cbn [Fnum Fexp]. rewrite bpow_plus. ring.
Qed.
Lemma sin_den f (t : flt f) : Rabs (2 * B2R t) < bpow radix2 (emax f) -> 
  Rabs (2 * B2R t) <= rnd f (1 + rnd f (B2R t * B2R t)).
Proof.
  assert (K : forall u : flt f, 0 <= B2R u -> Rabs (2 * B2R u) < bpow radix2 (emax f) -> 2 * B2R u <= rnd f (1 + rnd f (B2R u * B2R u))).
  { intros u P O. assert (D := double_val u O). assert (Sq : 0 <= rnd f (B2R u * B2R u)) by (apply rnd_ge_0; nra).
    destruct (Rlt_or_le (B2R u) (/2)) as [A|A].
    - apply Rle_trans with 1; [lra|]. apply rnd_ge_fmt; [apply fmt_1|lra].
    - destruct (Rlt_or_le (B2R u) 2) as [B|B].
      + rewrite <- D at 1. apply rnd_le. assert (2 * B2R u - 1 <= rnd f (B2R u * B2R u)); [|lra].
        apply rnd_ge_fmt; [apply (twice_minus_one u); split; [exact A|exact B]|]. pose proof (Rle_0_sqr (B2R u - 1)) as Q. unfold Rsqr in Q. lra.
      + rewrite <- D at 1. apply rnd_le. assert (2 * B2R u <= rnd f (B2R u * B2R u)); [|lra].
        rewrite <- D at 1. apply rnd_le. nra. }
  intros O. destruct (Rle_or_lt 0 (B2R t)) as [P|P].
  - rewrite Rabs_pos_eq by lra. auto.
  - assert (K' := K (-. t)). rewrite fneg_B2R in K'. rewrite Rabs_left by lra.
    replace (- (2 * B2R t)) with (2 * - B2R t) by ring. replace (B2R t * B2R t) with (- B2R t * - B2R t) by ring. apply K'; [lra|].
    replace (2 * - B2R t) with (- (2 * B2R t)) by ring. rewrite Rabs_Ropp. auto.
Qed.
Lemma div_inf {f} (x : flt f) s : finite x = true -> nan_or_le1 (x /. B754_infinity s).
Proof.
  intros F. right. destruct x as [| | |]; try discriminate; cbn; rewrite ?Rabs_R0; split; auto; lra.
Qed.
Lemma inf_div_inf {f} s s' : (B754_infinity s : flt f) /. B754_infinity s' = B754_nan.
Proof. reflexivity. Qed.
Lemma sq_sign {f} (t : flt f) : t *. t = B754_infinity true -> False.
Proof.
  destruct t as [s|s| |s m e E]; try discriminate; try (destruct s; discriminate).
  intros H. destruct (fmul_full (B754_finite s m e E) (B754_finite s m e E) eq_refl eq_refl) as [(_ & _ & F & _)|(_ & X)].
  - rewrite H in F. discriminate.
  - rewrite X in H. destruct s; discriminate.
Qed.
Lemma sin_compute_range {f} (t : flt f) : nan_or_le1 (sin_compute t).
Proof.
  destruct (finite t) eqn:F.
  2:{ left. rewrite is_nan_spec. destruct t as [|[]| |]; try discriminate; unfold sin_compute; destruct f; reflexivity. }
  unfold sin_compute. destruct (two_val f) as (F2 & V2). destruct (one_val f) as (F1 & V1).
  assert (N0 : Rabs (2 * B2R t) < bpow radix2 (emax f) -> finite (ofZ f 2 *. t) = true /\ B2R (ofZ f 2 *. t) = 2 * B2R t).
  { intros H. destruct (fmul_full (ofZ f 2) t F2 F) as [(A & B & C & _)|(A & B)]; rewrite V2 in A.
    - split; auto. rewrite B, V2. apply double_val; auto.
    - exfalso. rewrite double_val in A by auto. lra. }
  destruct (fmul_full t t F F) as [(A & B & C & _)|(A & B)].
  - (* the square is finite *)
    assert (O : Rabs (2 * B2R t) < bpow radix2 (emax f)).
    { apply Rnot_le_lt. intros C'. rewrite rnd_abs in A. apply Rlt_not_le in A. apply A.
      apply rnd_ge_fmt. { apply fmt_bpow. destruct f; vm_compute; discriminate. }
      rewrite Rabs_mult. rewrite Rabs_mult, (Rabs_pos_eq 2) in C' by lra.
      assert (4 <= bpow radix2 (emax f)). { change 4 with (bpow radix2 2). apply bpow_le. destruct f; vm_compute; discriminate. }
      pose proof (Rabs_pos (B2R t)). nra. }
    destruct (N0 O) as (FN & VN). assert (D := sin_den f t O).
    assert (Sq : 0 <= rnd f (B2R t * B2R t)) by (apply rnd_ge_0; nra).
    assert (D1 : 1 <= rnd f (1 + rnd f (B2R t * B2R t))) by (apply rnd_ge_fmt; [apply fmt_1|lra]).
    destruct (fadd_full (ofZ f 1) (t *. t) F1 C) as [(A' & B' & C' & _)|(A' & B' & _)].
    + rewrite V1, B in B'. apply quot_le1; auto; rewrite B'; [lra|]. rewrite VN. auto.
    + rewrite B'. apply div_inf. auto.
  - rewrite B. assert (E : ofZ f 1 +. B754_infinity (xorb (Bsign t) (Bsign t)) = B754_infinity (xorb (Bsign t) (Bsign t))).
    { rewrite xorb_nilpotent. destruct f; reflexivity. }
    rewrite E. destruct (fmul_full (ofZ f 2) t F2 F) as [(_ & _ & C & _)|(_ & ->)]; [apply div_inf; auto|left; reflexivity].
Qed.
Lemma cos_compute_range {f} (t : flt f) : nan_or_le1 (cos_compute t).
Proof.
  destruct (finite t) eqn:F.
  2:{ left. rewrite is_nan_spec. destruct t as [|[]| |]; try discriminate; unfold cos_compute; destruct f; reflexivity. }
  unfold cos_compute. destruct (one_val f) as (F1 & V1).
  destruct (fmul_full t t F F) as [(A & B & C & _)|(A & B)].
  - assert (Sq : 0 <= rnd f (B2R t * B2R t)) by (apply rnd_ge_0; nra).
    assert (D1 : 1 <= rnd f (1 + rnd f (B2R t * B2R t))) by (apply rnd_ge_fmt; [apply fmt_1|lra]).
    assert (D : Rabs (rnd f (1 - rnd f (B2R t * B2R t))) <= rnd f (1 + rnd f (B2R t * B2R t))).
    { rewrite rnd_abs. apply rnd_le. apply Rabs_le. lra. }
    destruct (fsub_full (ofZ f 1) (t *. t) F1 C) as [(A' & B' & C' & _)|(A' & B' & _)];
    destruct (fadd_full (ofZ f 1) (t *. t) F1 C) as [(A2 & B2 & C2 & _)|(A2 & B2 & _)]; rewrite V1, B in * .
    + apply quot_le1; auto; rewrite B2; [lra|]. rewrite B'. auto.
    + rewrite B2. apply div_inf. auto.
    + exfalso. rewrite (Rabs_pos_eq (rnd f (1 + _))) in A2 by lra. lra.
    + rewrite B', B2. left. reflexivity.
  - rewrite B. left. rewrite xorb_nilpotent. destruct f; reflexivity.
Qed.
Lemma const_range f : nan_or_le1 (ofZ f 0) /\ nan_or_le1 (-. ofZ f 0) /\ nan_or_le1 (ofZ f 1) /\ nan_or_le1 (-. ofZ f 1).
Proof.
  destruct (one_val f) as (F1 & V1). destruct (zero_val f) as (F0 & V0).
  assert (Rabs 0 <= 1) by (rewrite Rabs_R0; lra). assert (Rabs 1 <= 1) by (rewrite Rabs_R1; lra).
  repeat match goal with |- _ /\ _ => split end; right; (split; [rewrite ?fneg_finite; auto|]); rewrite ?fneg_B2R, ?Rabs_Ropp, ?V0, ?V1; auto.
Qed.
Lemma sin_range {f} (x : flt f) : exists w, sin_check x = Ok w /\ nan_or_le1 w.
Proof.
  destruct (const_range f) as (Z0 & Z1 & O1 & O2). unfold sin_check.
  destruct (tan_ok (x /. ofZ f 2)) as (t & ->). cbn [bind].
  repeat match goal with |- context[if ?c then _ else _] => destruct c end; eexists; (split; [reflexivity|]); auto.
  all: apply sin_compute_range.
Qed.
Lemma cos_range {f} (x : flt f) : exists w, cos_check x = Ok w /\ nan_or_le1 w.
Proof.
  destruct (const_range f) as (Z0 & Z1 & O1 & O2). unfold cos_check.
  destruct (tan_ok (x /. ofZ f 2)) as (t & ->). cbn [bind].
  repeat match goal with |- context[if ?c then _ else _] => destruct c end; eexists; (split; [reflexivity|]); auto.
  all: apply cos_compute_range.
Qed.

(** ** beta functions *)
Lemma arith_comm s t : arith s t = arith t s.
Proof. destruct s, t; reflexivity. Qed.
Lemma fmt_max_comm f g : fmt_max f g = fmt_max g f.
Proof. destruct f, g; reflexivity. Qed.
Lemma lbeta_sym v a b (h : forall f, flt f -> res (flt f)) :
  (let* r := gcem_lbeta v a b in rmap (AFlt _) (h _ r)) = (let* r := gcem_lbeta v b a in rmap (AFlt _) (h _ r)).
Proof.
  unfold gcem_lbeta. destruct (lgamma_ok v (ret_val a)) as (la & Ha). destruct (lgamma_ok v (ret_val b)) as (lb & Hb).
  unfold gcem_lgamma, lift1. rewrite Ha, Hb. cbn [bind].
  destruct a as [s x|f x], b as [t y|g y]; cbn [ret_fmt arg_add cr_fmt to_fmt fmt_max] in * .
  - rewrite (arith_comm t s). unfold iadd. rewrite (Z.add_comm (icast _ y)).
    destruct (iarith (arith s t) _) as [z| |]; cbn [bind ret_fmt fmt_max]; auto.
    rewrite (fadd_comm (conv F64 lb)). auto.
  - cbn [bind ret_fmt ret_val]. rewrite (fadd_comm (conv g y)).
    destruct (lgamma_check v (ofZ g x +. conv g y)); cbn [bind]; auto.
    destruct g; cbn [fmt_max]; rewrite (fadd_comm (conv _ lb)); auto.
  - cbn [bind ret_fmt ret_val]. rewrite (fadd_comm (conv f x)).
    destruct (lgamma_check v (ofZ f y +. conv f x)); cbn [bind]; auto.
    destruct f; cbn [fmt_max]; rewrite (fadd_comm (conv _ lb)); auto.
  - destruct f, g; cbn [fmt_max bind ret_fmt ret_val] in *; clear Ha Hb; rewrite (fadd_comm (conv _ y));
    (destruct (lgamma_check _ _); cbn [bind]; [rewrite (fadd_comm (conv _ lb))|..]; auto).
Qed.
Lemma api_beta_sym v a b :
  rmap (AFlt _) (gcem_lbeta v a b) = rmap (AFlt _) (gcem_lbeta v b a) /\
  rmap (AFlt _) (gcem_beta v a b) = rmap (AFlt _) (gcem_beta v b a).
Proof.
  split.
  - assert (H := lbeta_sym v a b (fun f x => Ok x)). destruct (gcem_lbeta v a b), (gcem_lbeta v b a); exact H.
  - assert (H := lbeta_sym v a b (fun f => @exp_check v f)). unfold gcem_beta.
    destruct (gcem_lbeta v a b), (gcem_lbeta v b a); exact H.
Qed.

(** ** hypot *)
Lemma not_tiny_lt {f} (x : flt f) : finite x = true -> bpow radix2 (2 - emax f) <= Rabs (B2R x) -> (abs x <. fmin f) = false.
Proof. intros F H. rewrite below_min by auto. apply Rlt_bool_false. auto. Qed.
Lemma half_emax f : (emax f = 2 * (emax f / 2))%Z /\ (64 <= emax f / 2)%Z.
Proof. destruct f; vm_compute; auto; split; auto; discriminate. Qed.
Lemma hypot_lopsided f (x y : flt f) : finite x = true -> finite y = true -> bpow radix2 (2 - emax f) <= Rabs (B2R x) ->
  bpow radix2 (emax f / 2) * Rabs (B2R x) <= Rabs (B2R y) ->
  hypot_vals_check x y = Ok (B754_infinity false) /\ hypot_vals_check y x = Ok (Babs y).
Proof.
  intros Fx Fy Nx H. destruct (half_emax f) as (HE & HL). destruct (one_val f) as (F1 & V1).
  assert (B1 : 1 <= bpow radix2 (emax f / 2)). { change 1 with (bpow radix2 0). apply bpow_le. lia. }
  assert (Px : 0 < Rabs (B2R x)). { eapply Rlt_le_trans; [apply bpow_gt_0|exact Nx]. }
  assert (Py : Rabs (B2R x) <= Rabs (B2R y)) by nra.
  assert (Zx : B2R x <> 0). { intros E. rewrite E, Rabs_R0 in Px. lra. }
  assert (Zy : B2R y <> 0). { intros E. rewrite E, Rabs_R0 in Py. lra. }
  unfold hypot_vals_check, any_nan, any_inf. rewrite (finite_not_nan x Fx), (finite_not_nan y Fy), !is_inf_spec.
  replace (match x with B754_infinity _ => true | _ => false end) with false by (destruct x; auto; discriminate).
  replace (match y with B754_infinity _ => true | _ => false end) with false by (destruct y; auto; discriminate).
  rewrite (not_tiny_lt x), (not_tiny_lt y) by (auto; lra). cbn [orb]. unfold hypot_compute.
  assert (QY : bpow radix2 (emax f / 2) <= Rabs (B2R y / B2R x)).
  { unfold Rdiv. rewrite Rabs_mult, Rabs_inv. apply Rmult_le_reg_r with (Rabs (B2R x)); auto. rewrite Rmult_assoc, Rinv_l by lra. lra. }
  assert (QX : Rabs (B2R x / B2R y) <= bpow radix2 (- (emax f / 2))).
  { replace (B2R x / B2R y) with (/ (B2R y / B2R x)) by (field; auto). rewrite Rabs_inv, bpow_opp. apply Rinv_le; auto. apply bpow_gt_0. }
  split.
  - assert (S : exists s, (y /. x) *. (y /. x) = (B754_infinity s : flt f) /\ s = false).
    { destruct (fdiv_full y x Fy Zx) as [(A & B & C & _)|(A & B)].
      - destruct (fmul_full (y /. x) (y /. x) C C) as [(A' & B' & C' & _)|(A' & B')].
        + exfalso. rewrite rnd_abs in A'. apply Rlt_not_le in A'. apply A'. apply rnd_ge_fmt.
          { apply fmt_bpow. destruct f; vm_compute; discriminate. }
          rewrite Rabs_mult, B, rnd_abs.
          assert (bpow radix2 (emax f / 2) <= rnd f (Rabs (B2R y / B2R x))).
          { apply rnd_ge_fmt; auto. apply fmt_bpow. destruct f; vm_compute; discriminate. }
          replace (bpow radix2 (emax f)) with (bpow radix2 (emax f / 2) * bpow radix2 (emax f / 2)) by (rewrite <- bpow_plus; f_equal; lia).
          nra.
        + eexists. split; [exact B'|]. apply xorb_nilpotent.
      - rewrite B. exists false. split; auto. cbn. f_equal. apply xorb_nilpotent. }
    destruct S as (s & -> & ->).
    assert (E : ofZ f 1 +. B754_infinity false = B754_infinity false) by (destruct f; reflexivity). rewrite E.
    assert (E2 : sqrt_check (B754_infinity false : flt f) = Ok (B754_infinity false)) by (destruct f; reflexivity). rewrite E2. cbn [bind].
    f_equal. rewrite abs_Babs. destruct x; try discriminate. { cbn in Zx. lra. } reflexivity.
  - assert (S : finite (x /. y) = true /\ Rabs (B2R (x /. y)) <= bpow radix2 (- (emax f / 2))).
    { assert (R0 : rnd f (Rabs (B2R x / B2R y)) <= bpow radix2 (- (emax f / 2))).
      { apply rnd_le_fmt; auto. apply fmt_bpow. destruct f; vm_compute; discriminate. }
      assert (bpow radix2 (- (emax f / 2)) < bpow radix2 (emax f)) by (apply bpow_lt; lia).
      destruct (fdiv_full x y Fx Zy) as [(A & B & C & _)|(A & B)].
      - split; auto. rewrite B, rnd_abs. auto.
      - exfalso. rewrite rnd_abs in A. lra. }
    destruct S as (Fq & Vq).
    assert (S : finite ((x /. y) *. (x /. y)) = true /\ 0 <= B2R ((x /. y) *. (x /. y)) <= bpow radix2 (- emax f)).
    { assert (R0 : rnd f (Rabs (B2R (x /. y) * B2R (x /. y))) <= bpow radix2 (- emax f)).
      { apply rnd_le_fmt. { apply fmt_bpow. destruct f; vm_compute; discriminate. }
        rewrite Rabs_mult. replace (- emax f)%Z with (- (emax f / 2) + - (emax f / 2))%Z by lia. rewrite bpow_plus.
        apply Rmult_le_compat; auto; apply Rabs_pos. }
      assert (bpow radix2 (- emax f) < bpow radix2 (emax f)) by (apply bpow_lt; lia).
      destruct (fmul_full (x /. y) (x /. y) Fq Fq) as [(A & B & C & _)|(A & B)].
      - split; auto. rewrite B. split. apply rnd_ge_0; nra. rewrite <- (Rabs_pos_eq (_ * _)) by nra. auto.
      - exfalso. rewrite rnd_abs in A. lra. }
    destruct S as (Fs & Vs). set (q := (x /. y) *. (x /. y)) in * .
    assert (E : rnd f (1 + B2R q) = 1).
    { apply Rle_antisym; [|apply rnd_ge_fmt; [apply fmt_1|lra]].
      unfold rnd. apply round_N_le_midp; auto with typeclass_instances; [apply fmt_1|].
      rewrite succ_eq_pos by lra. assert (U := ulp_bpow radix2 (fexpf f) 0). change (bpow radix2 0) with 1 in U. rewrite U.
      assert (E1 : fexpf f (0 + 1) = (1 - prec f)%Z) by (destruct f; reflexivity). rewrite E1.
      assert (bpow radix2 (- emax f) < bpow radix2 (- prec f)). { apply bpow_lt. destruct f; vm_compute; reflexivity. }
      assert (E2 : bpow radix2 (1 - prec f) = 2 * bpow radix2 (- prec f)). { replace (1 - prec f)%Z with (1 + - prec f)%Z by lia. rewrite bpow_plus. reflexivity. }
      rewrite E2. lra. }
    assert (E1 : ofZ f 1 +. q = ofZ f 1).
    { destruct (fadd_full (ofZ f 1) q F1 Fs) as [(A & B & C & _)|(A & _)]; rewrite V1, E in * .
      - apply val_one. split; auto.
      - exfalso. rewrite Rabs_R1 in A. apply Rle_not_lt in A. apply A. change 1 with (bpow radix2 0). apply bpow_lt. lia. }
    rewrite E1.
    assert (E2 : sqrt_check (ofZ f 1) = Ok (ofZ f 1)) by (apply ok_sf; destruct f; vm_compute; reflexivity). rewrite E2. cbn [bind]. f_equal.
    assert (Fa : finite (abs y) = true) by (rewrite abs_finite; auto).
    destruct (fmul_full (abs y) (ofZ f 1) Fa F1) as [(A & B & C & S)|(A & B)]; rewrite V1, Rmult_1_r, rnd_B2R in * .
    + rewrite <- abs_Babs. apply flt_inj_nz; auto. rewrite B, abs_B2R. apply Rabs_no_R0. auto.
    + exfalso. pose proof (B2R_lt_emax (abs y)). lra.
Qed.
Lemma api_hypot_lopsided f (x y : flt f) : finite x = true -> finite y = true -> bpow radix2 (2 - emax f) <= Rabs (B2R x) ->
  bpow radix2 (emax f / 2) * Rabs (B2R x) <= Rabs (B2R y) ->
  rmap (AFlt _) (gcem_hypot (AFlt f x) (AFlt f y)) = Ok (AFlt f (B754_infinity false)) /\
  rmap (AFlt _) (gcem_hypot (AFlt f y) (AFlt f x)) = Ok (AFlt f (Babs y)).
Proof.
  intros Fx Fy H1 H2. destruct (hypot_lopsided f x y Fx Fy H1 H2) as (A & B).
  unfold gcem_hypot, lift2. cbn [cr_fmt to_fmt].
  split; destruct f; cbn [fmt_max]; rewrite !conv_id; [rewrite A|rewrite A|rewrite A|rewrite B|rewrite B|rewrite B]; reflexivity.
Qed.

(** ** atan2 *)
Lemma neg_zero_zero f s : neg_zero (B754_zero s : flt f) = s.
Proof. destruct f, s; reflexivity. Qed.
Lemma atan2_origin v f sy sx : atan2_compute v (B754_zero sy : flt f) (B754_zero sx) =
  Ok (let m := if sx then conv f GCEM_PI else ofZ f 0 in if sy then -. m else m).
Proof.
  unfold atan2_compute, any_nan. rewrite !is_nan_spec. cbn [BinarySingleNaN.is_nan orb].
  rewrite (tiny_lt _ (tiny_zero f sx)), (tiny_lt _ (tiny_zero f sy)), !neg_zero_zero. destruct sy, sx; reflexivity.
Qed.
Lemma pos_lt0 {f} (x : flt f) : above x 0 -> (ofZ f 0 <. x) = true /\ (x <. ofZ f 0) = false.
Proof.
  intros H. destruct (zero_val f) as (F & V). rewrite <- V in H. split; [apply above_lt|apply above_not_below]; auto.
Qed.
Lemma neg_lt0 {f} (x : flt f) : below x 0 -> (x <. ofZ f 0) = true /\ (ofZ f 0 <. x) = false.
Proof.
  intros H. destruct (zero_val f) as (F & V). rewrite <- V in H. split; [apply below_lt|apply below_not_above]; auto.
Qed.
Lemma nontiny_lt {f} (x : flt f) : is_nan x = false -> ~ tiny x -> (abs x <. fmin f) = false.
Proof.
  intros N T. destruct (finite x) eqn:F.
  - apply not_tiny_lt; auto. apply Rnot_lt_le. intros H. apply T. split; auto.
  - rewrite is_nan_spec in N. destruct x as [|s| |]; try discriminate. rewrite abs_Babs. destruct f; reflexivity.
Qed.
Lemma atan2_axis v f (y x : flt f) : tiny x -> ~ tiny y ->
  (above y 0 -> atan2_compute v y x = Ok (conv f GCEM_HALF_PI)) /\
  (below y 0 -> atan2_compute v y x = Ok (-. conv f GCEM_HALF_PI)).
Proof.
  intros Tx Ty. split; intros H; unfold atan2_compute, any_nan; rewrite (tiny_not_nan x Tx), (tiny_lt x Tx).
  - rewrite (above_not_nan y 0 H), (nontiny_lt y (above_not_nan y 0 H) Ty), (proj1 (pos_lt0 y H)). reflexivity.
  - rewrite (below_not_nan y 0 H), (nontiny_lt y (below_not_nan y 0 H) Ty), (proj2 (neg_lt0 y H)). reflexivity.
Qed.
Lemma atan2_quadrants v f (y x : flt f) : is_nan y = false -> ~ tiny x ->
  (above x 0 -> atan2_compute v y x = atan_check v (y /. x)) /\
  (below x 0 -> below y 0 -> atan2_compute v y x = (let* a := atan_check v (y /. x) in Ok (a -. conv f GCEM_PI))) /\
  (below x 0 -> ~ below y 0 -> atan2_compute v y x = (let* a := atan_check v (y /. x) in Ok (a +. conv f GCEM_PI))).
Proof.
  intros N Tx. repeat match goal with |- _ /\ _ => split end; intros H.
  - unfold atan2_compute, any_nan. rewrite N, (above_not_nan x 0 H), (nontiny_lt x (above_not_nan x 0 H) Tx), (proj2 (pos_lt0 x H)). reflexivity.
  - intros Hy. unfold atan2_compute, any_nan. rewrite N, (below_not_nan x 0 H), (nontiny_lt x (below_not_nan x 0 H) Tx), (proj1 (neg_lt0 x H)), (proj1 (neg_lt0 y Hy)). reflexivity.
  - intros Hy. unfold atan2_compute, any_nan. rewrite N, (below_not_nan x 0 H), (nontiny_lt x (below_not_nan x 0 H) Tx), (proj1 (neg_lt0 x H)).
    replace (y <. ofZ f 0) with false; [reflexivity|]. symmetry. rewrite is_nan_spec in N.
    destruct (y <. ofZ f 0) eqn:L; auto. exfalso. apply Hy. destruct (zero_val f) as (F0 & V0).
    destruct y as [s|s| |s m e E]; try discriminate.
    + rewrite ofZ_0 in L. destruct s; [reflexivity|discriminate].
    + apply flt_true_inv in L; [|auto|auto]. rewrite V0 in L. exact L.
Qed.
(** A negative zero ordinate with a negative abscissa gives +pi. *)
Lemma atan2_negzero v f (x : flt f) : below x 0 -> ~ tiny x ->
  atan2_compute v (B754_zero true) x = Ok (conv f GCEM_PI).
Proof.
  intros H T. destruct (atan2_quadrants v f (B754_zero true) x (is_nan_spec _) T) as (_ & _ & Q).
  rewrite Q; auto. 2:{ cbn. lra. }
  assert (D : exists s, (B754_zero true : flt f) /. x = B754_zero s).
  { destruct x as [s|s| |s m e E]; cbn in H; try lra; try (destruct s; try contradiction); cbn; eauto. }
  destruct D as (s & ->).
  assert (A : atan_check v (B754_zero s : flt f) = Ok (ofZ f 0)).
  { unfold atan_check. rewrite is_nan_spec, (tiny_lt _ (tiny_zero f s)). reflexivity. }
  rewrite A. cbn [bind]. f_equal. destruct f; apply B2SF_inj; vm_compute; reflexivity.
Qed.

(** ** acos *)
Lemma acos_reflect v f (x : flt f) : above x 0 ->
  acos_check v (-. x) = (let* r := acos_check v x in Ok (conv f GCEM_PI -. r)).
Proof.
  intros H. unfold acos_check. rewrite is_nan_neg, (above_not_nan x 0 H), fneg_gt0, (proj2 (pos_lt0 x H)), (proj1 (pos_lt0 x H)), fneg_involutive. reflexivity.
Qed.
