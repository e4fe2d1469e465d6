(** * Proofs about sign functions and rounding functions *)
From Coq Require Import Lra Psatz.
From Verif Require Import Base ModelBasic FltLemmas Spec IntProofs.
Open Scope R_scope.

(** ** Classification *)

Lemma feq_refl {f} (x : flt f) : (x ==. x) = negb (BinarySingleNaN.is_nan x).
Proof.
  destruct x as [[]|[]| |s m e H]; try reflexivity.
  rewrite feq_spec by reflexivity. apply Req_bool_true; auto.
Qed.
Lemma is_nan_spec {f} (x : flt f) : is_nan x = BinarySingleNaN.is_nan x.
Proof. unfold is_nan. rewrite feq_refl. apply negb_involutive. Qed.
Lemma is_nan_true {f} (x : flt f) : is_nan x = true -> x = B754_nan.
Proof. rewrite is_nan_spec. destruct x; try discriminate. reflexivity. Qed.
Lemma is_nan_nan {f} : is_nan (B754_nan : flt f) = true.
Proof. reflexivity. Qed.
Lemma is_posinf_spec {f} (x : flt f) : is_posinf x = match x with B754_infinity false => true | _ => false end.
Proof. destruct x as [[]|[]| |[] m e H]; reflexivity. Qed.
Lemma is_neginf_spec {f} (x : flt f) : is_neginf x = match x with B754_infinity true => true | _ => false end.
Proof. destruct x as [[]|[]| |[] m e H]; reflexivity. Qed.
Lemma is_inf_spec {f} (x : flt f) : is_inf x = match x with B754_infinity _ => true | _ => false end.
Proof. unfold is_inf. rewrite is_posinf_spec, is_neginf_spec. destruct x as [[]|[]| |[] m e H]; reflexivity. Qed.
Lemma is_finite_spec {f} (x : flt f) : is_finite x = finite x.
Proof. unfold is_finite. rewrite is_nan_spec, is_inf_spec. destruct x as [[]|[]| |[] m e H]; reflexivity. Qed.
Lemma finite_not_nan {f} (x : flt f) : finite x = true -> is_nan x = false.
Proof. rewrite is_nan_spec. destruct x; try discriminate; reflexivity. Qed.
Lemma finite_not_posinf {f} (x : flt f) : finite x = true -> is_posinf x = false.
Proof. rewrite is_posinf_spec. destruct x; try discriminate; reflexivity. Qed.
Lemma finite_not_neginf {f} (x : flt f) : finite x = true -> is_neginf x = false.
Proof. rewrite is_neginf_spec. destruct x; try discriminate; reflexivity. Qed.

(** ** Constants *)
Lemma ofZ_0 f : ofZ f 0 = B754_zero false.
Proof. destruct f; reflexivity. Qed.
Lemma ofZ_B2R f z : (Z.abs z <= 16777216)%Z -> B2R (ofZ f z) = IZR z.
Proof. intros. apply ofZ_small; auto. Qed.
Lemma ofZ_fin f z : (Z.abs z <= 16777216)%Z -> finite (ofZ f z) = true.
Proof. intros. apply ofZ_small; auto. Qed.
Lemma half_spec f : B2R (half f) = / 2 /\ finite (half f) = true.
Proof.
  assert (H : exists m e H, half f = B754_finite false m e H /\ F2R (Float radix2 (Zpos m) e) = /2).
  { destruct f; [ exists 8388608%positive, (-24)%Z | exists 4503599627370496%positive, (-53)%Z
                | exists 9223372036854775808%positive, (-64)%Z ]; exists eq_refl; (split;
    [ apply B2SF_inj; vm_compute; reflexivity | unfold F2R; cbn -[IZR]; rewrite <- ?Z.pow_pos_fold; lra]). }
  destruct H as (m & e & H & -> & E). split; [exact E | reflexivity].
Qed.

(** ** abs and sgn *)

Lemma abs_Babs {f} (x : flt f) : abs x = Babs x.
Proof.
  destruct x as [s|[]| |s m e H].
  - unfold abs. rewrite ofZ_0. destruct s; reflexivity.
  - unfold abs. rewrite ofZ_0. reflexivity.
  - unfold abs. rewrite ofZ_0. reflexivity.
  - reflexivity.
  - unfold abs. rewrite ofZ_0.
    rewrite feq_spec, flt_spec by reflexivity. change (B2R (B754_zero false)) with 0.
    assert (N : B2R (B754_finite s m e H : flt f) <> 0).
    { cbn [B2R]. destruct s.
      - apply Rlt_not_eq. apply F2R_lt_0. reflexivity.
      - apply Rgt_not_eq. apply F2R_gt_0. reflexivity. }
    rewrite Req_bool_false by exact N. cbn [B2R]. destruct s.
    + rewrite Rlt_bool_true by (apply F2R_lt_0; reflexivity). reflexivity.
    + rewrite Rlt_bool_false by (left; apply F2R_gt_0; reflexivity). reflexivity.
Qed.
Lemma abs_B2R {f} (x : flt f) : B2R (abs x) = Rabs (B2R x).
Proof. rewrite abs_Babs. apply B2R_Babs. Qed.
Lemma abs_finite {f} (x : flt f) : finite (abs x) = finite x.
Proof. rewrite abs_Babs. apply is_finite_Babs. Qed.
Lemma abs_nan {f} (x : flt f) : is_nan (abs x) = is_nan x.
Proof. rewrite !is_nan_spec, abs_Babs. apply is_nan_Babs. Qed.
Lemma abs_neg {f} (x : flt f) : abs (-. x) = abs x.
Proof. rewrite !abs_Babs. unfold fneg. apply Babs_Bopp. Qed.
Lemma abs_idem {f} (x : flt f) : abs (abs x) = abs x.
Proof. rewrite !abs_Babs. apply Babs_idempotent. Qed.

Lemma sgn_spec {f} (x : flt f) : finite x = true ->
  (0 < B2R x /\ sgn x = 1%Z) \/ (B2R x < 0 /\ sgn x = (-1)%Z) \/ (B2R x = 0 /\ sgn x = 0%Z).
Proof.
  intros Hx. unfold sgn. rewrite ofZ_0. rewrite !flt_spec by auto. change (B2R (B754_zero false)) with 0.
  destruct (Rlt_bool_spec 0 (B2R x)); auto. destruct (Rlt_bool_spec (B2R x) 0); auto. right; right. split; auto. lra.
Qed.

(** ** Integers and format members *)

Lemma whole_threshold_pow f : whole_threshold f = (2 ^ (prec f - 1))%Z.
Proof. destruct f; reflexivity. Qed.
Lemma whole_spec f : B2R (ofZ f (whole_threshold f)) = bpow radix2 (prec f - 1) /\ finite (ofZ f (whole_threshold f)) = true.
Proof.
  rewrite whole_threshold_pow. destruct (ofZ_exact f (2 ^ (prec f - 1))) as (A & B & _).
  - destruct f; simpl; lia.
  - split; auto. rewrite A. rewrite bpow_IZR; auto. destruct f; simpl; lia.
Qed.

Lemma big_is_int {f} (x : flt f) : bpow radix2 (prec f - 1) <= Rabs (B2R x) -> B2R x = IZR (Ztrunc (B2R x)).
Proof.
  intros H. pose proof (fmt_format x) as G. unfold generic_format in G.
  set (r := B2R x) in * . rewrite G at 1.
  assert (He : (0 <= cexp radix2 (fexpf f) r)%Z).
  { unfold cexp. rewrite fexpf_FLT. unfold FLT_exp.
    assert (prec f <= mag radix2 r)%Z by (apply mag_ge_bpow in H; lia). lia. }
  assert (exists n, r = IZR n) as (n & Hn).
  { rewrite G. set (m := Ztrunc (scaled_mantissa radix2 (fexpf f) r)). set (e := cexp radix2 (fexpf f) r) in * .
    exists (m * 2 ^ e)%Z. unfold F2R. cbn [Fnum Fexp]. rewrite mult_IZR, bpow_IZR by auto. reflexivity. }
  rewrite <- G. rewrite Hn, Ztrunc_IZR. reflexivity.
Qed.

Lemma Ztrunc_bounds x : Rabs (IZR (Ztrunc x)) <= Rabs x.
Proof. rewrite <- abs_IZR, <- Ztrunc_abs. rewrite Ztrunc_floor by apply Rabs_pos. apply Zfloor_lb. Qed.

Lemma fcast_ok {f} t (x : flt f) : finite x = true -> in_range t (Ztrunc (B2R x)) ->
  fcast t x = Ok (Ztrunc (B2R x)).
Proof.
  intros Hx R. unfold fcast. rewrite Hx.
  assert (E : Btrunc x = Ztrunc (B2R x)).
  { rewrite <- (Ztrunc_IZR (Btrunc x)). apply eq_IZR.
    rewrite Ztrunc_IZR. rewrite Btrunc_correct by auto with typeclass_instances.
    unfold round. rewrite <- round_FIX_IZR. reflexivity. }
  rewrite E. rewrite (proj2 (in_rangeb_spec _ _) R). reflexivity.
Qed.

(** The range in which the rounding functions cast to an integer type. *)
Lemma trunc_small {f} (x : flt f) : Rabs (B2R x) < bpow radix2 (prec f - 1) ->
  (Z.abs (Ztrunc (B2R x)) < 2 ^ (prec f - 1))%Z.
Proof.
  intros H. apply lt_IZR. rewrite abs_IZR. eapply Rle_lt_trans. { apply Ztrunc_bounds. }
  rewrite bpow_IZR in H; auto. destruct f; simpl; lia.
Qed.

Lemma pow_prec f : (2 ^ prec f = 2 * 2 ^ (prec f - 1) /\ 8388608 <= 2 ^ (prec f - 1) <= 2 ^ 63)%Z.
Proof. destruct f; simpl; lia. Qed.

Lemma ofZ_prec f z : (Z.abs z <= 2 ^ (prec f - 1) + 1)%Z -> B2R (ofZ f z) = IZR z /\ finite (ofZ f z) = true.
Proof.
  intros H. destruct (ofZ_exact f z) as (A & B & _); auto. pose proof (pow_prec f); lia.
Qed.

Lemma exact_int_op f z : (Z.abs z <= 2 ^ prec f)%Z ->
  rnd f (IZR z) = IZR z /\ Rabs (rnd f (IZR z)) < bpow radix2 (emax f).
Proof.
  intros H. rewrite rnd_IZR by auto. split; auto. rewrite <- abs_IZR.
  apply Rle_lt_trans with (bpow radix2 (prec f)). { rewrite bpow_IZR by (destruct f; simpl; lia). apply IZR_le; auto. }
  apply bpow_lt, prec_lt_emax_.
Qed.
Lemma fadd_int {f} (x y : flt f) a b : has_val x (IZR a) -> has_val y (IZR b) -> (Z.abs (a + b) <= 2 ^ prec f)%Z ->
  has_val (x +. y) (IZR (a + b)).
Proof.
  intros (Fx & Vx) (Fy & Vy) H. destruct (exact_int_op f _ H) as (E & L).
  destruct (fadd_spec x y Fx Fy) as (A & B); rewrite Vx, Vy, <- plus_IZR in * ; auto. split; auto. congruence.
Qed.
Lemma fsub_int {f} (x y : flt f) a b : has_val x (IZR a) -> has_val y (IZR b) -> (Z.abs (a - b) <= 2 ^ prec f)%Z ->
  has_val (x -. y) (IZR (a - b)).
Proof.
  intros (Fx & Vx) (Fy & Vy) H. destruct (exact_int_op f _ H) as (E & L).
  destruct (fsub_spec x y Fx Fy) as (A & B); rewrite Vx, Vy, <- minus_IZR in * ; auto. split; auto. congruence.
Qed.
Lemma fmul_int {f} (x y : flt f) a b : has_val x (IZR a) -> has_val y (IZR b) -> (Z.abs (a * b) <= 2 ^ prec f)%Z ->
  has_val (x *. y) (IZR (a * b)).
Proof.
  intros (Fx & Vx) (Fy & Vy) H. destruct (exact_int_op f _ H) as (E & L).
  destruct (fmul_spec x y Fx Fy) as (A & B); rewrite Vx, Vy, <- mult_IZR in * ; auto. split; auto. congruence.
Qed.
Lemma ofZ_val f z : (Z.abs z <= 2 ^ prec f)%Z -> has_val (ofZ f z) (IZR z).
Proof. intros H. destruct (ofZ_exact f z H) as (A & B & _). split; auto. Qed.

Lemma f80_whole {f} (x : flt f) : finite x = true -> Rabs (B2R x) < bpow radix2 (prec f - 1) ->
  exists n w, fcast U64 (abs x) = Ok n /\ ofZ f n *. ofZ f (sgn x) = w /\ has_val w (IZR (Ztrunc (B2R x))).
Proof.
  intros Hx H. pose proof (trunc_small x H) as B.
  assert (E : Ztrunc (Rabs (B2R x)) = Z.abs (Ztrunc (B2R x))) by apply Ztrunc_abs.
  rewrite fcast_ok.
  - rewrite abs_B2R, E. do 2 eexists. split; [reflexivity|]. split; [reflexivity|].
    assert (T : (Z.abs (Ztrunc (B2R x)) * sgn x)%Z = Ztrunc (B2R x)); [|rewrite <- T at 2].
    2:{ apply fmul_int; try apply ofZ_val; pose proof (pow_prec f); destruct (sgn_spec x Hx) as [(_&U)|[(_&U)|(_&U)]]; rewrite ?U; lia. }
    { destruct (sgn_spec x Hx) as [(S&->)|[(S&->)|(S&->)]].
      * rewrite Ztrunc_floor by lra. assert (0 <= Zfloor (B2R x))%Z by (apply Zfloor_lub; simpl; lra). lia.
      * rewrite Ztrunc_ceil by lra. assert (Zceil (B2R x) <= 0)%Z by (apply Zceil_glb; simpl; lra). lia.
      * rewrite S, Ztrunc_IZR. reflexivity. }
  - rewrite abs_finite; auto.
  - rewrite abs_B2R, E. pose proof (pow_prec f). unfold in_range, imin, imax; cbn [isigned ibits]. lia.
Qed.

Lemma x_whole_spec {f} (x : flt f) : finite x = true -> Rabs (B2R x) < bpow radix2 (prec f - 1) ->
  exists w, x_whole f x = Ok w /\ has_val w (IZR (Ztrunc (B2R x))).
Proof.
  intros Hx H. pose proof (trunc_small x H) as B. destruct f; unfold x_whole.
  - rewrite fcast_ok; auto. 2:{ unfold in_range, imin, imax; simpl in * ; lia. }
    cbn [bind]. eexists; split; [reflexivity|]. apply ofZ_val. simpl in * ; lia.
  - rewrite fcast_ok; auto. 2:{ unfold in_range, imin, imax; simpl in * ; lia. }
    cbn [bind]. eexists; split; [reflexivity|]. apply ofZ_val. simpl in * ; lia.
  - destruct (f80_whole x Hx H) as (n & w & E & W & V). rewrite E. cbn [bind]. exists w. split; congruence.
Qed.
Lemma trunc_int_spec {f} (x : flt f) : finite x = true -> Rabs (B2R x) < bpow radix2 (prec f - 1) ->
  exists w, trunc_int f x = Ok w /\ has_val w (IZR (Ztrunc (B2R x))).
Proof.
  intros Hx H. pose proof (trunc_small x H) as B. destruct f; unfold trunc_int.
  - rewrite fcast_ok; auto. 2:{ unfold in_range, imin, imax; simpl in * ; lia. }
    cbn [bind]. eexists; split; [reflexivity|]. apply ofZ_val. simpl in * ; lia.
  - rewrite fcast_ok; auto. 2:{ unfold in_range, imin, imax; simpl in * ; lia. }
    cbn [bind]. eexists; split; [reflexivity|]. apply ofZ_val. simpl in * ; lia.
  - destruct (f80_whole x Hx H) as (n & w & E & W & V). rewrite E. cbn [bind]. exists w. split; congruence.
Qed.

(** ** The common dispatch of floor, ceil, trunc *)

Lemma below_min {f} (x : flt f) : finite x = true ->
  (abs x <. fmin f) = Rlt_bool (Rabs (B2R x)) (bpow radix2 (2 - emax f)).
Proof.
  intros Hx. destruct (fmin_spec f) as (E & F). rewrite flt_spec; [|rewrite abs_finite; auto|auto].
  rewrite abs_B2R, E. reflexivity.
Qed.
Lemma above_whole {f} (x : flt f) : finite x = true ->
  (ofZ f (whole_threshold f) <=. abs x) = Rle_bool (bpow radix2 (prec f - 1)) (Rabs (B2R x)).
Proof.
  intros Hx. destruct (whole_spec f) as (E & F). rewrite fle_spec; [|auto|rewrite abs_finite; auto].
  rewrite abs_B2R, E. reflexivity.
Qed.

Lemma is_floor_IZR n : is_floor (IZR n) n. Proof. unfold is_floor. lra. Qed.
Lemma is_ceil_IZR n : is_ceil (IZR n) n. Proof. unfold is_ceil. lra. Qed.
Lemma is_trunc_IZR n : is_trunc (IZR n) n.
Proof. unfold is_trunc. replace (IZR n - IZR n) with 0 by ring. rewrite Rabs_R0. split; [lra|]. split; [lra|]. nra. Qed.
Lemma is_round_IZR n : is_round (IZR n) n.
Proof. unfold is_round. replace (IZR n - IZR n) with 0 by ring. rewrite Rabs_R0. split; lra. Qed.

Section Dispatch.
Context {f : fmt} (P : R -> Z -> Prop) (internal : flt f -> res (flt f)).
Hypothesis P_int : forall n, P (IZR n) n.
Hypothesis small : forall x : flt f, finite x = true -> Rabs (B2R x) < bpow radix2 (prec f - 1) ->
  exists w n, internal x = Ok w /\ has_val w (IZR n) /\ P (B2R x) n.

Definition dispatch (x : flt f) : res (flt f) :=
  if is_nan x then Ok (qNaN f)
  else if negb (is_finite x) then Ok x
  else if fmin f >. abs x then Ok x
  else if abs x >=. ofZ f (whole_threshold f) then Ok x else internal x.

Lemma dispatch_finite (x : flt f) : zero_or_normal x -> exists w n,
  dispatch x = Ok w /\ has_val w (IZR n) /\ P (B2R x) n.
Proof.
  intros (Hx & Z). unfold dispatch. rewrite finite_not_nan, is_finite_spec, Hx by auto. cbn [negb].
  rewrite below_min, above_whole by auto.
  destruct (Rlt_bool_spec (Rabs (B2R x)) (bpow radix2 (2 - emax f))) as [L|L].
  - assert (E : B2R x = 0) by (destruct Z; auto; lra).
    exists x, 0%Z. rewrite E. split; [auto|]. split; [split; auto|apply P_int].
  - destruct (Rle_bool_spec (bpow radix2 (prec f - 1)) (Rabs (B2R x))) as [M|M].
    + pose proof (big_is_int x M) as E. exists x, (Ztrunc (B2R x)). split; auto. split; [split; auto|].
      rewrite E at 1. apply P_int.
    + apply small; auto.
Qed.
Lemma dispatch_total (x : flt f) : exists w, dispatch x = Ok w.
Proof.
  unfold dispatch. destruct (is_nan x) eqn:N; [eexists; reflexivity|]. rewrite is_finite_spec. destruct (finite x) eqn:Hx; [|eexists; reflexivity].
  cbn [negb]. rewrite below_min, above_whole by auto.
  destruct (Rlt_bool_spec (Rabs (B2R x)) (bpow radix2 (2 - emax f))) as [L|L]; [eexists; reflexivity|].
  destruct (Rle_bool_spec (bpow radix2 (prec f - 1)) (Rabs (B2R x))) as [M|M]; [eexists; reflexivity|].
  destruct (small x Hx M) as (w & n & E & _). exists w. exact E.
Qed.
Lemma dispatch_nonfinite (x : flt f) : finite x = false -> dispatch x = Ok x.
Proof.
  intros H. unfold dispatch. rewrite is_finite_spec, H. destruct (is_nan x) eqn:N; auto.
  apply is_nan_true in N. subst. reflexivity.
Qed.
Lemma dispatch_subnormal (x : flt f) : finite x = true -> Rabs (B2R x) < bpow radix2 (2 - emax f) -> dispatch x = Ok x.
Proof.
  intros Hx L. unfold dispatch. rewrite finite_not_nan, is_finite_spec, Hx by auto. cbn [negb].
  rewrite below_min by auto. rewrite Rlt_bool_true by auto. reflexivity.
Qed.
End Dispatch.

(** ** floor *)
Lemma floor_dispatch {f} (x : flt f) : floor_check x = dispatch (fun x => let* xw := x_whole f x in Ok (floor_int f x xw)) x.
Proof. reflexivity. Qed.
Lemma floor_internal_ok {f} (x : flt f) : finite x = true -> Rabs (B2R x) < bpow radix2 (prec f - 1) ->
  exists w n, (let* xw := x_whole f x in Ok (floor_int f x xw)) = Ok w /\ has_val w (IZR n) /\ is_floor (B2R x) n.
Proof.
  intros Hx H. destruct (x_whole_spec x Hx H) as (w & E & V). rewrite E. cbn [bind].
  pose proof (trunc_small x H) as B. unfold floor_int, floor_resid. rewrite ofZ_0.
  destruct V as (Fw & Vw). rewrite !flt_spec by auto. change (B2R (B754_zero false)) with 0. rewrite Vw.
  set (t := Ztrunc (B2R x)) in * .
  destruct (Rlt_bool_spec (B2R x) 0) as [N|N]; cbn [andb].
  - assert (T : t = Zceil (B2R x)) by (apply Ztrunc_ceil; lra).
    pose proof (Zceil_ub (B2R x)) as U. pose proof (Zceil_lb (B2R x)) as L. rewrite <- T in * .
    destruct (Rlt_bool_spec (B2R x) (IZR t)) as [N'|N'].
    + exists (w -. ofZ f 1), (t - 1)%Z. split; auto. split.
      * apply fsub_int; [split; auto|apply ofZ_val|]; pose proof (pow_prec f); lia.
      * unfold is_floor. rewrite minus_IZR. lra.
    + exists (w -. ofZ f 0), (t - 0)%Z. split; auto. split.
      * apply fsub_int; [split; auto|apply ofZ_val|]; pose proof (pow_prec f); lia.
      * unfold is_floor. rewrite minus_IZR. lra.
  - assert (T : t = Zfloor (B2R x)) by (apply Ztrunc_floor; lra).
    exists (w -. ofZ f 0), (t - 0)%Z. split; auto. split.
    + apply fsub_int; [split; auto|apply ofZ_val|]; pose proof (pow_prec f); lia.
    + unfold is_floor. rewrite minus_IZR. pose proof (Zfloor_lb (B2R x)). pose proof (Zfloor_ub (B2R x)). rewrite <- T in * . lra.
Qed.
Lemma floor_ok {f} (x : flt f) : zero_or_normal x -> exists w n,
  floor_check x = Ok w /\ has_val w (IZR n) /\ is_floor (B2R x) n.
Proof. intros H. rewrite floor_dispatch. apply dispatch_finite; auto using is_floor_IZR, floor_internal_ok. Qed.
Lemma floor_total {f} (x : flt f) : exists w, floor_check x = Ok w.
Proof. rewrite floor_dispatch. apply dispatch_total with is_floor. apply floor_internal_ok. Qed.

(** ** ceil *)
Lemma ceil_dispatch {f} (x : flt f) : ceil_check x = dispatch (fun x => let* xw := x_whole f x in Ok (ceil_int f x xw)) x.
Proof. reflexivity. Qed.
Lemma ceil_internal_ok {f} (x : flt f) : finite x = true -> Rabs (B2R x) < bpow radix2 (prec f - 1) ->
  exists w n, (let* xw := x_whole f x in Ok (ceil_int f x xw)) = Ok w /\ has_val w (IZR n) /\ is_ceil (B2R x) n.
Proof.
  intros Hx H. destruct (x_whole_spec x Hx H) as (w & E & V). rewrite E. cbn [bind].
  pose proof (trunc_small x H) as B. unfold ceil_int, ceil_resid. rewrite ofZ_0.
  destruct V as (Fw & Vw). rewrite !flt_spec by auto. change (B2R (B754_zero false)) with 0. rewrite Vw.
  set (t := Ztrunc (B2R x)) in * .
  destruct (Rlt_bool_spec 0 (B2R x)) as [N|N]; cbn [andb].
  - assert (T : t = Zfloor (B2R x)) by (apply Ztrunc_floor; lra).
    pose proof (Zfloor_ub (B2R x)) as U. pose proof (Zfloor_lb (B2R x)) as L. rewrite <- T in * .
    destruct (Rlt_bool_spec (IZR t) (B2R x)) as [N'|N'].
    + exists (w +. ofZ f 1), (t + 1)%Z. split; auto. split.
      * apply fadd_int; [split; auto|apply ofZ_val|]; pose proof (pow_prec f); lia.
      * unfold is_ceil. rewrite plus_IZR. lra.
    + exists (w +. ofZ f 0), (t + 0)%Z. split; auto. split.
      * apply fadd_int; [split; auto|apply ofZ_val|]; pose proof (pow_prec f); lia.
      * unfold is_ceil. rewrite plus_IZR. lra.
  - assert (T : t = Zceil (B2R x)) by (apply Ztrunc_ceil; lra).
    exists (w +. ofZ f 0), (t + 0)%Z. split; auto. split.
    + apply fadd_int; [split; auto|apply ofZ_val|]; pose proof (pow_prec f); lia.
    + unfold is_ceil. rewrite plus_IZR. pose proof (Zceil_lb (B2R x)). pose proof (Zceil_ub (B2R x)). rewrite <- T in * . lra.
Qed.
Lemma ceil_ok {f} (x : flt f) : zero_or_normal x -> exists w n,
  ceil_check x = Ok w /\ has_val w (IZR n) /\ is_ceil (B2R x) n.
Proof. intros H. rewrite ceil_dispatch. apply dispatch_finite; auto using is_ceil_IZR, ceil_internal_ok. Qed.
Lemma ceil_total {f} (x : flt f) : exists w, ceil_check x = Ok w.
Proof. rewrite ceil_dispatch. apply dispatch_total with is_ceil. apply ceil_internal_ok. Qed.

(** ** trunc *)
Lemma Ztrunc_is_trunc x : is_trunc x (Ztrunc x).
Proof.
  unfold is_trunc. split; [|split; [apply Ztrunc_bounds|]].
  - destruct (Rle_or_lt 0 x) as [H|H].
    + rewrite Ztrunc_floor by auto. pose proof (Zfloor_lb x). pose proof (Zfloor_ub x). rewrite Rabs_pos_eq; lra.
    + rewrite Ztrunc_ceil by lra. pose proof (Zceil_lb x). pose proof (Zceil_ub x). rewrite Rabs_left1; lra.
  - destruct (Rle_or_lt 0 x) as [H|H].
    + rewrite Ztrunc_floor by auto. assert (0 <= IZR (Zfloor x)) by (apply IZR_le, Zfloor_lub; simpl; lra). nra.
    + rewrite Ztrunc_ceil by lra. assert (IZR (Zceil x) <= 0) by (apply IZR_le, Zceil_glb; simpl; lra). nra.
Qed.
Lemma trunc_dispatch {f} (x : flt f) : trunc_check x = dispatch (trunc_int f) x.
Proof. reflexivity. Qed.
Lemma trunc_internal_ok {f} (x : flt f) : finite x = true -> Rabs (B2R x) < bpow radix2 (prec f - 1) ->
  exists w n, trunc_int f x = Ok w /\ has_val w (IZR n) /\ is_trunc (B2R x) n.
Proof.
  intros Hx H. destruct (trunc_int_spec x Hx H) as (w & E & V). exists w, (Ztrunc (B2R x)). split; auto. split; auto.
  apply Ztrunc_is_trunc.
Qed.
Lemma trunc_ok {f} (x : flt f) : zero_or_normal x -> exists w n,
  trunc_check x = Ok w /\ has_val w (IZR n) /\ is_trunc (B2R x) n.
Proof. intros H. rewrite trunc_dispatch. apply dispatch_finite; auto using is_trunc_IZR, trunc_internal_ok. Qed.
Lemma trunc_total {f} (x : flt f) : exists w, trunc_check x = Ok w.
Proof. rewrite trunc_dispatch. apply dispatch_total with is_trunc. apply trunc_internal_ok. Qed.

(** ** round *)

(** The fractional part of a positive number is exact. *)
Lemma frac_fmt {f} (x : flt f) n : 0 <= B2R x -> (0 <= n)%Z -> IZR n <= B2R x -> B2R x < bpow radix2 (prec f - 1) ->
  generic_format radix2 (fexpf f) (B2R x - IZR n).
Proof.
  intros Hx Hn Hle Hlt. pose proof (fmt_format x) as G. set (r := B2R x) in * .
  apply FLT_format_generic in G; [|exact (prec_pos f)].
  destruct G as [fl E M Ex]. destruct fl as [m e]. cbn [Fnum Fexp] in * . change (emin f <= e)%Z in Ex.
  destruct (Z_le_gt_dec e 0) as [He|He].
  - replace (r - IZR n) with (F2R (Float radix2 (m - n * 2 ^ (- e)) e)).
    + apply fmt_F2R; auto.
      assert (0 <= m - n * 2 ^ (-e) <= m)%Z.
      { split.
        - apply le_IZR. apply Rmult_le_reg_r with (bpow radix2 e). { apply bpow_gt_0. }
          rewrite minus_IZR, mult_IZR, <- bpow_IZR by lia. rewrite Rmult_minus_distr_r, Rmult_assoc, <- bpow_plus.
          replace (- e + e)%Z with 0%Z by ring. simpl (bpow radix2 0). unfold F2R in E. cbn [Fnum Fexp] in E. lra.
        - assert (0 <= n * 2 ^ (-e))%Z by (apply Z.mul_nonneg_nonneg; auto; apply Z.pow_nonneg; lia). lia. }
      change (Z.pow_pos 2) with (Z.pow_pos 2) in M. simpl radix_val in M. lia.
    + rewrite E. unfold F2R. cbn [Fnum Fexp]. rewrite minus_IZR, mult_IZR, <- bpow_IZR by lia.
      rewrite Rmult_minus_distr_r, Rmult_assoc, <- bpow_plus. replace (- e + e)%Z with 0%Z by ring. simpl (bpow radix2 0). ring.
  - assert (exists z, r = IZR z) as (z & Z).
    { exists (m * 2 ^ e)%Z. rewrite E. unfold F2R. cbn [Fnum Fexp]. rewrite mult_IZR, bpow_IZR by lia. reflexivity. }
    rewrite Z in * . rewrite <- minus_IZR. apply fmt_IZR. apply le_IZR in Hle, Hx.
    rewrite bpow_IZR in Hlt by (destruct f; simpl; lia). apply lt_IZR in Hlt.
    assert (2 ^ (prec f - 1) <= 2 ^ prec f)%Z by (destruct f; simpl; lia). lia.
Qed.

Lemma fsub_exact {f} (x y : flt f) : finite x = true -> finite y = true ->
  generic_format radix2 (fexpf f) (B2R x - B2R y) -> Rabs (B2R x - B2R y) < bpow radix2 (emax f) ->
  B2R (x -. y) = B2R x - B2R y /\ finite (x -. y) = true.
Proof.
  intros Fx Fy G L. destruct (fsub_spec x y Fx Fy) as (A & B); rewrite rnd_id in * by auto; auto.
Qed.

Lemma round_int_ok {f} (y : flt f) : finite y = true -> bpow radix2 (2 - emax f) <= B2R y -> B2R y < bpow radix2 (prec f - 1) ->
  exists w n, round_int f y = Ok w /\ has_val w (IZR n) /\ is_round (B2R y) n /\ (0 <= n <= 2 ^ (prec f - 1))%Z.
Proof.
  intros Hy Lo Hi. pose proof (bpow_gt_0 radix2 (2 - emax f)) as P.
  destruct (floor_ok y) as (fl & n & E & (Ff & Vf) & L & U).
  { split; auto. right. rewrite Rabs_pos_eq; lra. }
  unfold round_int. rewrite E. cbn [bind].
  assert (N0 : (0 <= n)%Z). { assert (0 < n + 1)%Z; [|lia]. apply lt_IZR. rewrite plus_IZR. lra. }
  assert (N1 : (n < 2 ^ (prec f - 1))%Z).
  { apply lt_IZR. rewrite <- bpow_IZR by (destruct f; simpl; lia). lra. }
  assert (X : B2R (y -. fl) = B2R y - B2R fl /\ finite (y -. fl) = true).
  { apply fsub_exact; auto; rewrite Vf.
    - apply frac_fmt; auto; lra.
    - rewrite Rabs_pos_eq by lra. apply Rlt_trans with 1; [lra|]. change 1 with (bpow radix2 0). apply bpow_lt. destruct f; reflexivity. }
  destruct X as (Vx & Fx). destruct (half_spec f) as (Vh & Fh).
  rewrite fle_spec; [|auto|rewrite abs_finite; auto]. rewrite abs_B2R, Vx, Vh, Vf. rewrite Rabs_pos_eq by lra.
  assert (S : sgn y = 1%Z). { destruct (sgn_spec y Hy) as [(?&?)|[(?&?)|(?&?)]]; auto; lra. }
  rewrite S. pose proof (pow_prec f) as PP.
  destruct (Rle_bool_spec (/2) (B2R y - IZR n)) as [H|H].
  - exists (fl +. ofZ f 1), (n + 1)%Z. split; auto. split; [|split; [|lia]].
    + apply fadd_int; [split; auto|apply ofZ_val|]; lia.
    + unfold is_round. rewrite plus_IZR. rewrite (Rabs_left1 (B2R y - (IZR n + 1))) by lra. split; [lra|]. intros Q.
      rewrite !Rabs_pos_eq; lra.
  - exists fl, n. split; auto. split; [split; auto|]. split; [|lia].
    unfold is_round. rewrite Rabs_pos_eq by lra. split; lra.
Qed.

Lemma is_round_opp x n : is_round x n -> is_round (- x) (- n).
Proof.
  unfold is_round. rewrite opp_IZR. replace (- x - - IZR n) with (- (x - IZR n)) by ring. rewrite !Rabs_Ropp. auto.
Qed.

Lemma round_ok {f} (x : flt f) : zero_or_normal x -> exists w n,
  round_check x = Ok w /\ has_val w (IZR n) /\ is_round (B2R x) n.
Proof.
  intros (Hx & Z). unfold round_check. rewrite finite_not_nan, is_finite_spec, Hx by auto. cbn [negb].
  rewrite below_min by auto.
  destruct (Rlt_bool_spec (Rabs (B2R x)) (bpow radix2 (2 - emax f))) as [L|L].
  { assert (E : B2R x = 0) by (destruct Z; auto; lra).
    exists x, 0%Z. rewrite E. split; [auto|]. split; [split; auto|apply is_round_IZR]. }
  pose proof (bpow_gt_0 radix2 (2 - emax f)) as P.
  assert (Fa : finite (abs x) = true) by (rewrite abs_finite; auto).
  assert (R : exists w n, round_check_internal f (abs x) = Ok w /\ has_val w (IZR n) /\ is_round (Rabs (B2R x)) n /\ B2R w = rnd f (B2R w) /\ Rabs (B2R w) < bpow radix2 (emax f)).
  { unfold round_check_internal. rewrite above_whole by auto. rewrite abs_B2R, Rabs_Rabsolu.
    destruct (Rle_bool_spec (bpow radix2 (prec f - 1)) (Rabs (B2R x))) as [M|M].
    - exists (abs x), (Ztrunc (Rabs (B2R x))). split; auto.
      assert (E : Rabs (B2R x) = IZR (Ztrunc (Rabs (B2R x)))).
      { rewrite <- abs_B2R. apply big_is_int. rewrite abs_B2R, Rabs_Rabsolu. auto. }
      split; [split; auto; rewrite abs_B2R; auto|]. split; [rewrite E at 1; apply is_round_IZR|].
      rewrite rnd_B2R. split; auto. apply B2R_lt_emax.
    - destruct (round_int_ok (abs x)) as (w & n & E & V & I & _); auto; try (rewrite abs_B2R; auto).
      exists w, n. rewrite abs_B2R in I. rewrite rnd_B2R. repeat split; auto; try apply V; try apply I. apply B2R_lt_emax. }
  destruct R as (w & n & E & (Fw & Vw) & I & Rw & Lw). rewrite E. cbn [bind].
  exists (ofZ f (sgn x) *. w).
  assert (K : forall s, (s = 1 \/ s = -1)%Z -> has_val (ofZ f s *. w) (IZR (s * n))).
  { intros s Hs. assert (Q : (Z.abs s <= 16777216)%Z) by lia.
    pose proof (ofZ_B2R f s Q) as V1. pose proof (ofZ_fin f s Q) as F1.
    assert (Rr : rnd f (IZR s * B2R w) = IZR s * B2R w).
    { destruct Hs; subst s. { rewrite Rmult_1_l; auto. } replace (-1 * B2R w) with (- B2R w) by ring. rewrite rnd_opp. congruence. }
    destruct (fmul_spec (ofZ f s) w F1 Fw) as (A & B).
    { rewrite V1, Rr, Rabs_mult. replace (Rabs (IZR s)) with 1; [lra|]. rewrite <- abs_IZR. destruct Hs; subst s; reflexivity. }
    split; auto. rewrite A, V1, Rr, Vw, mult_IZR. reflexivity. }
  destruct (sgn_spec x Hx) as [(S&->)|[(S&->)|(S&_)]].
  - exists (1 * n)%Z. split; auto. split; [apply K; auto|]. rewrite Z.mul_1_l. rewrite Rabs_pos_eq in I by lra. auto.
  - exists (-1 * n)%Z. split; auto. split; [apply K; auto|]. rewrite Rabs_left in I by lra. apply is_round_opp in I.
    rewrite Ropp_involutive in I. replace (-1 * n)%Z with (- n)%Z by ring. auto.
  - rewrite S, Rabs_R0 in L. lra.
Qed.
Lemma round_total {f} (x : flt f) : exists w, round_check x = Ok w.
Proof.
  destruct (finite x) eqn:Hx.
  - destruct (Rle_or_lt (bpow radix2 (2 - emax f)) (Rabs (B2R x))) as [L|L].
    + destruct (round_ok x) as (w & n & E & _); [split; auto|]. eauto.
    + unfold round_check. rewrite finite_not_nan, is_finite_spec, Hx by auto. cbn [negb]. rewrite below_min by auto.
      rewrite Rlt_bool_true by auto. eexists; reflexivity.
  - unfold round_check. rewrite is_finite_spec, Hx. destruct (is_nan x); eexists; reflexivity.
Qed.
Lemma round_nonfinite {f} (x : flt f) : finite x = false -> round_check x = Ok x.
Proof.
  intros H. unfold round_check. rewrite is_finite_spec, H. destruct (is_nan x) eqn:N; auto.
  apply is_nan_true in N. subst. reflexivity.
Qed.
Lemma round_subnormal {f} (x : flt f) : finite x = true -> Rabs (B2R x) < bpow radix2 (2 - emax f) -> round_check x = Ok x.
Proof.
  intros Hx L. unfold round_check. rewrite finite_not_nan, is_finite_spec, Hx by auto. cbn [negb].
  rewrite below_min by auto. rewrite Rlt_bool_true by auto. reflexivity.
Qed.

(** Integral values are returned unchanged, bit for bit. *)
Lemma int_zero_or_normal {f} (x : flt f) z : has_val x (IZR z) -> zero_or_normal x.
Proof.
  intros (F & V). split; auto. destruct (Z.eq_dec z 0) as [->|N]; auto. right. rewrite V, <- abs_IZR.
  apply Rle_trans with 1. { change 1 with (bpow radix2 0). apply bpow_le. destruct f; simpl; lia. }
  apply IZR_le. lia.
Qed.
Lemma is_floor_int z n : is_floor (IZR z) n -> n = z.
Proof. unfold is_floor. intros (A & B). rewrite <- plus_IZR in B. apply le_IZR in A. apply lt_IZR in B. lia. Qed.
Lemma is_ceil_int z n : is_ceil (IZR z) n -> n = z.
Proof. unfold is_ceil. intros (A & B). rewrite <- minus_IZR in A. apply lt_IZR in A. apply le_IZR in B. lia. Qed.
Lemma is_trunc_int z n : is_trunc (IZR z) n -> n = z.
Proof.
  unfold is_trunc. intros (A & _). rewrite <- minus_IZR, <- abs_IZR in A. apply (lt_IZR _ 1) in A. lia.
Qed.
Lemma is_round_int z n : is_round (IZR z) n -> n = z.
Proof.
  unfold is_round. intros (A & _). rewrite <- minus_IZR, <- abs_IZR in A.
  assert (IZR (Z.abs (z - n)) < 1) by lra. apply (lt_IZR _ 1) in H. lia.
Qed.

Lemma floor_sub {f} (x : flt f) : finite x = true -> Rabs (B2R x) < bpow radix2 (2 - emax f) -> floor_check x = Ok x.
Proof. intros. rewrite floor_dispatch. apply dispatch_subnormal; auto. Qed.
Lemma ceil_sub {f} (x : flt f) : finite x = true -> Rabs (B2R x) < bpow radix2 (2 - emax f) -> ceil_check x = Ok x.
Proof. intros. rewrite ceil_dispatch. apply dispatch_subnormal; auto. Qed.
Lemma trunc_sub {f} (x : flt f) : finite x = true -> Rabs (B2R x) < bpow radix2 (2 - emax f) -> trunc_check x = Ok x.
Proof. intros. rewrite trunc_dispatch. apply dispatch_subnormal; auto. Qed.
Lemma floor_nonfin {f} (x : flt f) : finite x = false -> floor_check x = Ok x.
Proof. intros. rewrite floor_dispatch. apply dispatch_nonfinite; auto. Qed.
Lemma ceil_nonfin {f} (x : flt f) : finite x = false -> ceil_check x = Ok x.
Proof. intros. rewrite ceil_dispatch. apply dispatch_nonfinite; auto. Qed.
Lemma trunc_nonfin {f} (x : flt f) : finite x = false -> trunc_check x = Ok x.
Proof. intros. rewrite trunc_dispatch. apply dispatch_nonfinite; auto. Qed.

Section IntId.
Context {f : fmt} (h : flt f -> res (flt f)) (P : R -> Z -> Prop).
Hypothesis ok : forall x : flt f, zero_or_normal x -> exists w n, h x = Ok w /\ has_val w (IZR n) /\ P (B2R x) n.
Hypothesis sub : forall x : flt f, finite x = true -> Rabs (B2R x) < bpow radix2 (2 - emax f) -> h x = Ok x.
Hypothesis uniq : forall z n, P (IZR z) n -> n = z.
Lemma int_id (x : flt f) z : has_val x (IZR z) -> h x = Ok x.
Proof.
  intros V. destruct (Z.eq_dec z 0) as [->|N].
  - destruct V as (F & V). apply sub; auto. rewrite V, Rabs_R0. apply bpow_gt_0.
  - destruct (ok x (int_zero_or_normal x z V)) as (w & n & E & (Fw & Vw) & I). destruct V as (F & V).
    rewrite V in I. apply uniq in I. subst n. rewrite E. f_equal. apply flt_inj_nz; auto; [congruence|].
    rewrite Vw. apply IZR_neq. auto.
Qed.
End IntId.
Lemma floor_id {f} (x : flt f) z : has_val x (IZR z) -> floor_check x = Ok x.
Proof. apply int_id with is_floor; auto using floor_ok, floor_sub, is_floor_int. Qed.
Lemma ceil_id {f} (x : flt f) z : has_val x (IZR z) -> ceil_check x = Ok x.
Proof. apply int_id with is_ceil; auto using ceil_ok, ceil_sub, is_ceil_int. Qed.
Lemma trunc_id {f} (x : flt f) z : has_val x (IZR z) -> trunc_check x = Ok x.
Proof. apply int_id with is_trunc; auto using trunc_ok, trunc_sub, is_trunc_int. Qed.
Lemma round_id {f} (x : flt f) z : has_val x (IZR z) -> round_check x = Ok x.
Proof. apply int_id with is_round; auto using round_ok, round_subnormal, is_round_int. Qed.

(** ** Statements at the level of the public functions *)
From Verif Require Import ModelInt ModelElem ModelApi ConvLemmas.

(** Converting an integer to double gives an integer-valued double. *)
Lemma ofZ_int f z : Rabs (rnd f (IZR z)) < bpow radix2 (emax f) -> exists n, has_val (ofZ f z) (IZR n).
Proof.
  intros H. destruct (ofZ_gen f z H) as (A & B & _).
  destruct (Rle_or_lt (bpow radix2 (prec f - 1)) (Rabs (B2R (ofZ f z)))) as [L|L].
  - exists (Ztrunc (B2R (ofZ f z))). split; auto. apply big_is_int; auto.
  - destruct (Z_le_gt_dec (Z.abs z) (2 ^ prec f)) as [M|M].
    + exists z. apply ofZ_val; auto.
    + exfalso. rewrite A, rnd_abs in L. apply Rlt_not_le in L. apply L. apply rnd_ge_fmt.
      * apply fmt_bpow. destruct f; unfold emin; simpl; lia.
      * rewrite <- abs_IZR, bpow_IZR by (destruct f; simpl; lia). apply IZR_le. pose proof (pow_prec f). lia.
Qed.
Lemma ity_bound t z : in_range t z -> (Z.abs z <= 2 ^ 64)%Z.
Proof. unfold in_range. destruct t; unfold imin, imax; cbn [isigned ibits]; lia. Qed.
Lemma ofZ_ity f t z : in_range t z -> exists n, has_val (ofZ f z) (IZR n).
Proof.
  intros H. apply ofZ_int. apply rnd_lt_emax_bpow with 64%Z.
  - destruct f; unfold emin; simpl; lia.
  - rewrite <- abs_IZR, bpow_IZR by lia. apply IZR_le. apply ity_bound with t; auto.
Qed.
Lemma api_rounding_int t z : in_range t z ->
  gcem_floor (AInt t z) = Ok (ofZ F64 z) /\ gcem_ceil (AInt t z) = Ok (ofZ F64 z) /\
  gcem_trunc (AInt t z) = Ok (ofZ F64 z) /\ gcem_round (AInt t z) = Ok (ofZ F64 z).
Proof.
  intros H. destruct (ofZ_ity F64 t z H) as (n & V). unfold gcem_floor, gcem_ceil, gcem_trunc, gcem_round, lift1. cbn [ret_fmt ret_val].
  rewrite (floor_id _ n), (ceil_id _ n), (trunc_id _ n), (round_id _ n) by auto. auto.
Qed.

Lemma api_rounding_sub f (x : flt f) : finite x = true -> B2R x <> 0 -> Rabs (B2R x) < bpow radix2 (2 - emax f) ->
  gcem_floor (AFlt f x) = Ok x /\ gcem_ceil (AFlt f x) = Ok x /\
  gcem_trunc (AFlt f x) = Ok x /\ gcem_round (AFlt f x) = Ok x /\ forall n, B2R x <> IZR n.
Proof.
  intros F N H. split; [apply floor_sub; auto|]. split; [apply ceil_sub; auto|]. split; [apply trunc_sub; auto|].
  split; [apply round_subnormal; auto|]. intros n E. destruct (int_zero_or_normal x n) as (_ & [Z|Z]); auto; [split; auto|lra].
Qed.

Lemma api_nonfinite f (x : flt f) : finite x = false ->
  gcem_floor (AFlt f x) = Ok x /\ gcem_ceil (AFlt f x) = Ok x /\
  gcem_trunc (AFlt f x) = Ok x /\ gcem_round (AFlt f x) = Ok x.
Proof.
  intros H. split; [apply floor_nonfin; auto|]. split; [apply ceil_nonfin; auto|]. split; [apply trunc_nonfin; auto|].
  apply round_nonfinite; auto.
Qed.

(** ** max and min *)
Lemma flt_fle {f} (x y : flt f) : (x <. y) = true -> (x <=. y) = true.
Proof.
  unfold flt_, fle, Bltb, Bleb, SpecFloat.SFltb, SpecFloat.SFleb.
  destruct (SpecFloat.SFcompare (B2SF x) (B2SF y)) as [[]|]; auto; discriminate.
Qed.
Lemma not_flt_fle {f} (x y : flt f) : is_nan x = false -> is_nan y = false -> (x <. y) = false -> (y <=. x) = true.
Proof.
  rewrite !is_nan_spec. intros Nx Ny. unfold flt_, fle, Bltb, Bleb, SpecFloat.SFltb, SpecFloat.SFleb.
  pose proof (Bcompare_swap _ _ x y) as S. unfold Bcompare in S. rewrite S.
  assert (C : exists c, SpecFloat.SFcompare (B2SF x) (B2SF y) = Some c).
  { destruct x as [[]|[]| |[] ? ? ?], y as [[]|[]| |[] ? ? ?]; try discriminate; cbn; eauto;
    match goal with |- context [ (?a ?= ?b)%Z ] => destruct (a ?= b)%Z; eauto end. }
  destruct C as (c & ->). destruct c; cbn; auto; discriminate.
Qed.
Lemma fle_refl {f} (x : flt f) : is_nan x = false -> (x <=. x) = true.
Proof.
  intros N. unfold is_nan in N. apply negb_false_iff in N. unfold feq, Beqb, SpecFloat.SFeqb in N. unfold fle, Bleb, SpecFloat.SFleb.
  destruct (SpecFloat.SFcompare (B2SF x) (B2SF x)) as [[]|]; auto; discriminate.
Qed.
Lemma max_spec {f} (x y : flt f) : is_nan x = false -> is_nan y = false ->
  (max x y = x \/ max x y = y) /\ (x <=. max x y) = true /\ (y <=. max x y) = true.
Proof.
  intros Nx Ny. unfold max. destruct (y <. x) eqn:E; split; auto; split; auto using fle_refl, flt_fle, not_flt_fle.
Qed.
Lemma min_spec {f} (x y : flt f) : is_nan x = false -> is_nan y = false ->
  (min x y = x \/ min x y = y) /\ (min x y <=. x) = true /\ (min x y <=. y) = true.
Proof.
  intros Nx Ny. unfold min. destruct (x <. y) eqn:E; split; auto; split; auto using fle_refl, flt_fle, not_flt_fle.
Qed.
Lemma conv_is_nan {f} g (x : flt f) : wider f g -> is_nan (conv g x) = is_nan x.
Proof.
  intros W. destruct (finite x) eqn:F.
  - rewrite (finite_not_nan x F). apply finite_not_nan. apply conv_exact; auto.
  - destruct x; try discriminate; reflexivity.
Qed.
Lemma wider_max_l f g : wider f (fmt_max f g).
Proof. destruct f, g; unfold wider; simpl; lia. Qed.
Lemma wider_max_r f g : wider g (fmt_max f g).
Proof. destruct f, g; unfold wider; simpl; lia. Qed.
Lemma api_max_flt f g (x : flt f) (y : flt g) : is_nan x = false -> is_nan y = false ->
  exists r, gcem_max (AFlt f x) (AFlt g y) = AFlt (fmt_max f g) r /\
    (r = conv (fmt_max f g) x \/ r = conv (fmt_max f g) y) /\
    (conv (fmt_max f g) x <=. r) = true /\ (conv (fmt_max f g) y <=. r) = true.
Proof.
  intros Nx Ny. eexists. split; [reflexivity|]. apply max_spec; cbn [cr_fmt to_fmt]; rewrite conv_is_nan; auto using wider_max_l, wider_max_r.
Qed.
Lemma api_min_flt f g (x : flt f) (y : flt g) : is_nan x = false -> is_nan y = false ->
  exists r, gcem_min (AFlt f x) (AFlt g y) = AFlt (fmt_max f g) r /\
    (r = conv (fmt_max f g) x \/ r = conv (fmt_max f g) y) /\
    (r <=. conv (fmt_max f g) x) = true /\ (r <=. conv (fmt_max f g) y) = true.
Proof.
  intros Nx Ny. eexists. split; [reflexivity|]. apply min_spec; cbn [cr_fmt to_fmt]; rewrite conv_is_nan; auto using wider_max_l, wider_max_r.
Qed.
Lemma api_widening f g (x : flt f) : finite x = true -> has_val (conv (fmt_max f g) x) (B2R x).
Proof. intros H. destruct (conv_exact (fmt_max f g) x (wider_max_l f g) H) as (A & B & _). split; auto. Qed.
Lemma api_max_nan f (x : flt f) :
  gcem_max (AFlt f (qNaN f)) (AFlt f x) = AFlt f x /\ gcem_max (AFlt f x) (AFlt f (qNaN f)) = AFlt f (qNaN f) /\
  gcem_min (AFlt f (qNaN f)) (AFlt f x) = AFlt f x /\ gcem_min (AFlt f x) (AFlt f (qNaN f)) = AFlt f (qNaN f).
Proof.
  assert (E : fmt_max f f = f) by (destruct f; reflexivity).
  assert (G : forall g (y : flt g), conv g y = y) by (intros; apply conv_id).
  destruct f; unfold gcem_max, gcem_min, to_fmt; cbn [cr_fmt fmt_max]; rewrite !G; unfold max, min, qNaN;
  rewrite ?flt_nan_l, ?flt_nan_r; auto.
Qed.

(** ** abs, sgn, signbit, copysign on floating-point values *)
Lemma api_abs_flt f (x : flt f) : gcem_abs (AFlt f x) = Ok (AFlt f (Babs x)).
Proof. unfold gcem_abs. rewrite abs_Babs. reflexivity. Qed.
Lemma api_sgn_flt f (x : flt f) : gcem_sgn (AFlt f x) =
  match x with
  | B754_zero _ | B754_nan => 0%Z
  | B754_infinity s | B754_finite s _ _ _ => if s then (-1)%Z else 1%Z
  end.
Proof.
  unfold gcem_sgn. destruct (finite x) eqn:F.
  - destruct (sgn_spec x F) as [(S&->)|[(S&->)|(S&->)]]; destruct x as [s|s| |s m e H]; try discriminate; cbn in S; auto; try lra;
    pose proof (F2R_gt_0 radix2 (Float radix2 (Zpos m) e) eq_refl) as P;
    pose proof (F2R_lt_0 radix2 (Float radix2 (Zneg m) e) eq_refl) as Q; destruct s; auto; cbn in * ; lra.
  - unfold sgn. rewrite ofZ_0. destruct x as [s|[]| |s m e H]; try discriminate; reflexivity.
Qed.

(** Deciding the hypotheses on concrete numbers. *)
Lemma zero_or_normal_check {f} (x : flt f) : finite x = true -> (fmin f <=. abs x) = true -> zero_or_normal x.
Proof.
  intros F L. split; auto. right. destruct (fmin_spec f) as (E & Fm). rewrite <- E, <- abs_B2R.
  apply fle_true_inv; auto. rewrite abs_finite; auto.
Qed.
Lemma ofZ_has_val f z : (Z.abs z <=? 2 ^ prec f)%Z = true -> has_val (ofZ f z) (IZR z).
Proof. intros H. apply ofZ_val. apply Z.leb_le; auto. Qed.

Lemma api_copysign f g (x : flt f) (y : flt g) : BinarySingleNaN.is_nan x = false ->
  Bsign (gcem_copysign x y) = Bsign y /\ (gcem_copysign x y = x \/ gcem_copysign x y = Bopp x).
Proof.
  intros N. unfold gcem_copysign, signbit. destruct (Bsign x) eqn:X, (Bsign y) eqn:Y; cbn [xorb]; split; auto; try (right; reflexivity);
  unfold fneg; rewrite Bsign_Bopp, X; auto.
Qed.
