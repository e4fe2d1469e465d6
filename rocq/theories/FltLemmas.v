(** * General lemmas on the floating-point operations of Base.v *)
From Coq Require Import Lra Psatz.
From Flocq Require Import Relative.
From Verif Require Import Base.
Open Scope R_scope.

Notation finite := BinarySingleNaN.is_finite.
Notation fexpf f := (SpecFloat.fexp (prec f) (emax f)).
Definition rnd (f : fmt) (x : R) : R := round radix2 (fexpf f) ZnearestE x.
Definition emin (f : fmt) : Z := (3 - emax f - prec f)%Z.

#[global] Instance fexpf_valid f : Valid_exp (fexpf f) := fexp_correct (prec f) (emax f) _.
#[global] Instance fexpf_mono f : Monotone_exp (fexpf f) := fexp_monotone (prec f) (emax f).

Lemma fexpf_FLT f : forall e, fexpf f e = FLT_exp (emin f) (prec f) e.
Proof. intro e. unfold SpecFloat.fexp, FLT_exp, emin, SpecFloat.emin. reflexivity. Qed.

Lemma fmt_format {f} (x : flt f) : generic_format radix2 (fexpf f) (B2R x).
Proof. apply generic_format_B2R. Qed.

Lemma rnd_id f x : generic_format radix2 (fexpf f) x -> rnd f x = x.
Proof. intros. unfold rnd. apply round_generic; auto with typeclass_instances. Qed.
Lemma rnd_B2R {f} (x : flt f) : rnd f (B2R x) = B2R x.
Proof. apply rnd_id, fmt_format. Qed.
Lemma rnd_le f x y : x <= y -> rnd f x <= rnd f y.
Proof. intros. unfold rnd. apply round_le; auto with typeclass_instances. Qed.
Lemma rnd_0 f : rnd f 0 = 0.
Proof. unfold rnd. apply round_0; auto with typeclass_instances. Qed.
Lemma rnd_opp f x : rnd f (- x) = - rnd f x.
Proof. unfold rnd. apply round_NE_opp. Qed.
Lemma rnd_abs f x : Rabs (rnd f x) = rnd f (Rabs x).
Proof.
  unfold rnd. destruct (Rle_or_lt 0 x) as [H|H].
  - rewrite (Rabs_pos_eq x), Rabs_pos_eq; auto.
    rewrite <- (round_0 radix2 (fexpf f) ZnearestE). apply round_le; auto with typeclass_instances.
  - rewrite (Rabs_left x) by lra. rewrite round_NE_opp. apply Rabs_left1.
    rewrite <- (round_0 radix2 (fexpf f) ZnearestE). apply round_le; auto with typeclass_instances. lra.
Qed.
Lemma rnd_ge_fmt f x y : generic_format radix2 (fexpf f) y -> y <= x -> y <= rnd f x.
Proof. intros. rewrite <- (rnd_id f y); auto. apply rnd_le; auto. Qed.
Lemma rnd_le_fmt f x y : generic_format radix2 (fexpf f) y -> x <= y -> rnd f x <= y.
Proof. intros. rewrite <- (rnd_id f y); auto. apply rnd_le; auto. Qed.
Lemma rnd_ge_0 f x : 0 <= x -> 0 <= rnd f x.
Proof. intros. rewrite <- (rnd_0 f). apply rnd_le; auto. Qed.
Lemma rnd_le_0 f x : x <= 0 -> rnd f x <= 0.
Proof. intros. rewrite <- (rnd_0 f). apply rnd_le; auto. Qed.

(** Numbers m * 2^e in the format *)
Lemma fmt_F2R f m e : (Z.abs m < 2 ^ prec f)%Z -> (emin f <= e)%Z ->
  generic_format radix2 (fexpf f) (F2R (Float radix2 m e)).
Proof.
  intros Hm He. apply generic_format_FLT. exists (Float radix2 m e); auto.
Qed.
Lemma prec_pos f : (0 < prec f)%Z.
Proof. destruct f; reflexivity. Qed.
Lemma emin_neg f : (emin f <= - prec f)%Z.
Proof. destruct f; unfold emin; simpl; lia. Qed.
Lemma fmt_IZR f z : (Z.abs z <= 2 ^ prec f)%Z -> generic_format radix2 (fexpf f) (IZR z).
Proof.
  intros H. pose proof (prec_pos f). pose proof (emin_neg f).
  destruct (Z.eq_dec (Z.abs z) (2 ^ prec f)) as [E|E].
  - assert (z = 2 ^ prec f \/ z = - 2 ^ prec f)%Z as [-> | ->] by lia.
    + replace (IZR (2 ^ prec f)) with (bpow radix2 (prec f)).
      * apply generic_format_bpow. rewrite fexpf_FLT. unfold FLT_exp. lia.
      * rewrite <- IZR_Zpower; auto. lia.
    + rewrite opp_IZR. apply generic_format_opp.
      replace (IZR (2 ^ prec f)) with (bpow radix2 (prec f)).
      * apply generic_format_bpow. rewrite fexpf_FLT. unfold FLT_exp. lia.
      * rewrite <- IZR_Zpower; auto. lia.
  - replace (IZR z) with (F2R (Float radix2 z 0)).
    + apply fmt_F2R; lia.
    + unfold F2R. simpl. ring.
Qed.
Lemma fmt_bpow f e : (emin f <= e)%Z -> generic_format radix2 (fexpf f) (bpow radix2 e).
Proof.
  intros. apply generic_format_bpow. rewrite fexpf_FLT. unfold FLT_exp.
  pose proof (prec_pos f). lia.
Qed.
Lemma rnd_IZR f z : (Z.abs z <= 2 ^ prec f)%Z -> rnd f (IZR z) = IZR z.
Proof. intros. apply rnd_id, fmt_IZR; auto. Qed.

Lemma prec_lt_emax_ f : (prec f < emax f)%Z.
Proof. destruct f; reflexivity. Qed.

Lemma bpow_IZR e : (0 <= e)%Z -> bpow radix2 e = IZR (2 ^ e).
Proof. intros. rewrite <- IZR_Zpower; auto. Qed.

(** ** Arithmetic *)

Lemma fadd_spec {f} (x y : flt f) : finite x = true -> finite y = true ->
  Rabs (rnd f (B2R x + B2R y)) < bpow radix2 (emax f) ->
  B2R (x +. y) = rnd f (B2R x + B2R y) /\ finite (x +. y) = true.
Proof.
  intros Hx Hy H. pose proof (Bplus_correct (prec f) (emax f) _ _ mode_NE x y Hx Hy) as C.
  simpl in C. unfold rnd in * . rewrite Rlt_bool_true in C by exact H.
  destruct C as (A & B & _). split; auto.
Qed.
Lemma fsub_spec {f} (x y : flt f) : finite x = true -> finite y = true ->
  Rabs (rnd f (B2R x - B2R y)) < bpow radix2 (emax f) ->
  B2R (x -. y) = rnd f (B2R x - B2R y) /\ finite (x -. y) = true.
Proof.
  intros Hx Hy H. pose proof (Bminus_correct (prec f) (emax f) _ _ mode_NE x y Hx Hy) as C.
  simpl in C. unfold rnd in * . rewrite Rlt_bool_true in C by exact H.
  destruct C as (A & B & _). split; auto.
Qed.
Lemma fmul_spec {f} (x y : flt f) : finite x = true -> finite y = true ->
  Rabs (rnd f (B2R x * B2R y)) < bpow radix2 (emax f) ->
  B2R (x *. y) = rnd f (B2R x * B2R y) /\ finite (x *. y) = true.
Proof.
  intros Hx Hy H. pose proof (Bmult_correct (prec f) (emax f) _ _ mode_NE x y) as C.
  simpl in C. unfold rnd in * . rewrite Rlt_bool_true in C by exact H.
  destruct C as (A & B & _). split; auto. unfold fmul. rewrite B, Hx, Hy. reflexivity.
Qed.
Lemma fdiv_spec {f} (x y : flt f) : finite x = true -> B2R y <> 0 ->
  Rabs (rnd f (B2R x / B2R y)) < bpow radix2 (emax f) ->
  B2R (x /. y) = rnd f (B2R x / B2R y) /\ finite (x /. y) = true.
Proof.
  intros Hx Hy H. pose proof (Bdiv_correct (prec f) (emax f) _ _ mode_NE x y Hy) as C.
  simpl in C. unfold rnd in * . rewrite Rlt_bool_true in C by exact H.
  destruct C as (A & B & _). split; auto. unfold fdiv. rewrite B. auto.
Qed.
Lemma fneg_B2R {f} (x : flt f) : B2R (-. x) = - B2R x.
Proof. apply B2R_Bopp. Qed.
Lemma fneg_finite {f} (x : flt f) : finite (-. x) = finite x.
Proof. apply is_finite_Bopp. Qed.
Lemma fneg_involutive {f} (x : flt f) : -. -. x = x.
Proof. apply Bopp_involutive. Qed.

(** ** Comparisons *)

Lemma flt_spec {f} (x y : flt f) : finite x = true -> finite y = true ->
  (x <. y) = Rlt_bool (B2R x) (B2R y).
Proof. apply Bltb_correct. Qed.
Lemma fle_spec {f} (x y : flt f) : finite x = true -> finite y = true ->
  (x <=. y) = Rle_bool (B2R x) (B2R y).
Proof. apply Bleb_correct. Qed.
Lemma feq_spec {f} (x y : flt f) : finite x = true -> finite y = true ->
  (x ==. y) = Req_bool (B2R x) (B2R y).
Proof. apply Beqb_correct. Qed.

Lemma flt_true {f} (x y : flt f) : finite x = true -> finite y = true ->
  B2R x < B2R y -> (x <. y) = true.
Proof. intros. rewrite flt_spec; auto. apply Rlt_bool_true; auto. Qed.
Lemma flt_false {f} (x y : flt f) : finite x = true -> finite y = true ->
  B2R y <= B2R x -> (x <. y) = false.
Proof. intros. rewrite flt_spec; auto. apply Rlt_bool_false; auto. Qed.
Lemma fle_true {f} (x y : flt f) : finite x = true -> finite y = true ->
  B2R x <= B2R y -> (x <=. y) = true.
Proof. intros. rewrite fle_spec; auto. apply Rle_bool_true; auto. Qed.
Lemma fle_false {f} (x y : flt f) : finite x = true -> finite y = true ->
  B2R y < B2R x -> (x <=. y) = false.
Proof. intros. rewrite fle_spec; auto. apply Rle_bool_false; auto. Qed.
Lemma flt_true_inv {f} (x y : flt f) : finite x = true -> finite y = true ->
  (x <. y) = true -> B2R x < B2R y.
Proof. intros ? ? H. rewrite flt_spec in H by auto. destruct (Rlt_bool_spec (B2R x) (B2R y)); auto; discriminate. Qed.
Lemma flt_false_inv {f} (x y : flt f) : finite x = true -> finite y = true ->
  (x <. y) = false -> B2R y <= B2R x.
Proof. intros ? ? H. rewrite flt_spec in H by auto. destruct (Rlt_bool_spec (B2R x) (B2R y)); auto; discriminate. Qed.
Lemma fle_true_inv {f} (x y : flt f) : finite x = true -> finite y = true ->
  (x <=. y) = true -> B2R x <= B2R y.
Proof. intros ? ? H. rewrite fle_spec in H by auto. destruct (Rle_bool_spec (B2R x) (B2R y)); auto; discriminate. Qed.
Lemma fle_false_inv {f} (x y : flt f) : finite x = true -> finite y = true ->
  (x <=. y) = false -> B2R y < B2R x.
Proof. intros ? ? H. rewrite fle_spec in H by auto. destruct (Rle_bool_spec (B2R x) (B2R y)); auto; discriminate. Qed.

Lemma flt_nan_l {f} (y : flt f) : (B754_nan <. y) = false.
Proof. destruct y; reflexivity. Qed.
Lemma flt_nan_r {f} (y : flt f) : (y <. B754_nan) = false.
Proof. destruct y as [[]|[]| |[]]; reflexivity. Qed.
Lemma fle_nan_l {f} (y : flt f) : (B754_nan <=. y) = false.
Proof. destruct y; reflexivity. Qed.
Lemma fle_nan_r {f} (y : flt f) : (y <=. B754_nan) = false.
Proof. destruct y as [[]|[]| |[]]; reflexivity. Qed.
Lemma feq_nan_l {f} (y : flt f) : (B754_nan ==. y) = false.
Proof. destruct y; reflexivity. Qed.
Lemma feq_nan_r {f} (y : flt f) : (y ==. B754_nan) = false.
Proof. destruct y as [[]|[]| |[]]; reflexivity. Qed.

(** NaN operands *)
Lemma fadd_nan_l {f} (y : flt f) : B754_nan +. y = B754_nan.
Proof. destruct y; reflexivity. Qed.
Lemma fadd_nan_r {f} (y : flt f) : y +. B754_nan = B754_nan.
Proof. destruct y; reflexivity. Qed.
Lemma fsub_nan_l {f} (y : flt f) : B754_nan -. y = B754_nan.
Proof. destruct y; reflexivity. Qed.
Lemma fsub_nan_r {f} (y : flt f) : y -. B754_nan = B754_nan.
Proof. destruct y; reflexivity. Qed.
Lemma fmul_nan_l {f} (y : flt f) : B754_nan *. y = B754_nan.
Proof. destruct y; reflexivity. Qed.
Lemma fmul_nan_r {f} (y : flt f) : y *. B754_nan = B754_nan.
Proof. destruct y; reflexivity. Qed.
Lemma fdiv_nan_l {f} (y : flt f) : B754_nan /. y = B754_nan.
Proof. destruct y; reflexivity. Qed.
Lemma fdiv_nan_r {f} (y : flt f) : y /. B754_nan = B754_nan.
Proof. destruct y; reflexivity. Qed.

(** ** Integers as floating-point numbers *)

Lemma ofZ_gen f z : Rabs (rnd f (IZR z)) < bpow radix2 (emax f) ->
  B2R (ofZ f z) = rnd f (IZR z) /\ finite (ofZ f z) = true /\ Bsign (ofZ f z) = (z <? 0)%Z.
Proof.
  intros H. unfold ofZ.
  pose proof (binary_normalize_correct (prec f) (emax f) _ _ mode_NE z 0 false) as C.
  simpl in C.
  assert (E : F2R (Float radix2 z 0) = IZR z) by (unfold F2R; simpl; ring).
  rewrite E in C. unfold rnd in * . rewrite Rlt_bool_true in C by exact H.
  destruct C as (A & B & S). split; [exact A|]. split; [exact B|].
  rewrite S. destruct (Rcompare_spec (IZR z) 0) as [L|L|L].
  - symmetry. apply Z.ltb_lt. apply lt_IZR; auto.
  - symmetry. apply Z.ltb_ge. apply eq_IZR in L. lia.
  - symmetry. apply Z.ltb_ge. apply lt_IZR in L. lia.
Qed.
Lemma ofZ_exact f z : (Z.abs z <= 2 ^ prec f)%Z ->
  B2R (ofZ f z) = IZR z /\ finite (ofZ f z) = true /\ Bsign (ofZ f z) = (z <? 0)%Z.
Proof.
  intros H. pose proof (rnd_IZR f z H) as E. pose proof (ofZ_gen f z) as G.
  rewrite E in G. apply G. rewrite <- abs_IZR.
  apply Rle_lt_trans with (IZR (2 ^ prec f)). { apply IZR_le; auto. }
  rewrite <- bpow_IZR by (pose proof (prec_pos f); lia). apply bpow_lt, prec_lt_emax_.
Qed.
Lemma small_prec f z : (Z.abs z <= 16777216)%Z -> (Z.abs z <= 2 ^ prec f)%Z.
Proof. intros. destruct f; simpl; lia. Qed.
Lemma ofZ_small f z : (Z.abs z <= 16777216)%Z ->
  B2R (ofZ f z) = IZR z /\ finite (ofZ f z) = true /\ Bsign (ofZ f z) = (z <? 0)%Z.
Proof. intros. apply ofZ_exact, small_prec; auto. Qed.

(** Equality of floats from value and sign *)
Lemma flt_inj {f} (x y : flt f) : finite x = true -> finite y = true ->
  B2R x = B2R y -> Bsign x = Bsign y -> x = y.
Proof. apply B2R_Bsign_inj. Qed.
Lemma Bsign_Rlt {f} (x : flt f) : B2R x < 0 -> Bsign x = true.
Proof.
  destruct x as [s| | |[] m e H]; simpl; try lra; auto. intros L. exfalso.
  assert (0 < F2R (Float radix2 (Zpos m) e)) by (apply F2R_gt_0; reflexivity). simpl in * . lra.
Qed.
Lemma Bsign_Rgt {f} (x : flt f) : 0 < B2R x -> Bsign x = false.
Proof.
  destruct x as [s| | |[] m e H]; simpl; try lra; auto. intros L. exfalso.
  assert (F2R (Float radix2 (Zneg m) e) < 0) by (apply F2R_lt_0; reflexivity). simpl in * . lra.
Qed.

Lemma flt_inj_nz {f} (x y : flt f) : finite x = true -> finite y = true ->
  B2R x = B2R y -> B2R x <> 0 -> x = y.
Proof.
  intros Hx Hy E N. apply flt_inj; auto. destruct (Rlt_or_le (B2R x) 0).
  - rewrite !Bsign_Rlt; auto. lra.
  - rewrite !Bsign_Rgt; auto; lra.
Qed.

(** Every finite value is below 2^emax *)
Lemma B2R_lt_emax {f} (x : flt f) : Rabs (B2R x) < bpow radix2 (emax f).
Proof. apply abs_B2R_lt_emax. Qed.
Lemma B2R_le_max {f} (x : flt f) : Rabs (B2R x) <= bpow radix2 (emax f) - bpow radix2 (emax f - prec f).
Proof. apply abs_B2R_le_emax_minus_prec; auto with typeclass_instances. Qed.

Lemma rnd_lt_emax f x y : generic_format radix2 (fexpf f) y -> y < bpow radix2 (emax f) ->
  Rabs x <= y -> Rabs (rnd f x) < bpow radix2 (emax f).
Proof.
  intros Hy L H. rewrite rnd_abs. apply Rle_lt_trans with y; auto. apply rnd_le_fmt; auto.
Qed.
Lemma rnd_lt_emax_bpow f x e : (emin f <= e < emax f)%Z ->
  Rabs x <= bpow radix2 e -> Rabs (rnd f x) < bpow radix2 (emax f).
Proof.
  intros He H. apply rnd_lt_emax with (bpow radix2 e); auto.
  - apply fmt_bpow; lia.
  - apply bpow_lt; lia.
Qed.

(** ** fmin *)
Lemma fmin_spec f : B2R (fmin f) = bpow radix2 (2 - emax f) /\ finite (fmin f) = true.
Proof.
  unfold fmin.
  assert (He : (emin f <= 2 - emax f < emax f)%Z) by (destruct f; unfold emin; simpl; lia).
  revert He. generalize (2 - emax f)%Z. intros e He.
  pose proof (binary_normalize_correct (prec f) (emax f) _ _ mode_NE 1 e false) as C.
  cbv zeta in C. change (round_mode mode_NE) with ZnearestE in C.
  assert (E : F2R (Float radix2 1 e) = bpow radix2 e) by (unfold F2R; simpl; ring).
  rewrite E in C. fold (rnd f (bpow radix2 e)) in C.
  rewrite rnd_id in C by (apply fmt_bpow; lia).
  rewrite Rlt_bool_true in C.
  - destruct C as (A & B & _). split; auto.
  - rewrite Rabs_pos_eq by apply bpow_ge_0. apply bpow_lt. lia.
Qed.

(** ** Relative error *)
Lemma rnd_rel f x : bpow radix2 (2 - emax f) <= Rabs x ->
  exists e, Rabs e <= bpow radix2 (- prec f) /\ rnd f x = x * (1 + e).
Proof.
  intros H. unfold rnd.
  destruct (relative_error_N_FLT_ex radix2 (emin f) (prec f) (prec_pos f) (fun x => negb (Z.even x)) x) as (e & He & E).
  { replace (emin f + prec f - 1)%Z with (2 - emax f)%Z by (unfold emin; lia). exact H. }
  exists e. split.
  - eapply Rle_trans; [exact He|]. change (/ 2) with (bpow radix2 (-1)). rewrite <- bpow_plus. apply bpow_le. lia.
  - exact E.
Qed.
Lemma rnd_err f x : exists e d, Rabs e <= bpow radix2 (- prec f) /\ Rabs d <= bpow radix2 (emin f - 1) /\
  e * d = 0 /\ rnd f x = x * (1 + e) + d.
Proof.
  unfold rnd.
  destruct (error_N_FLT radix2 (emin f) (prec f) (prec_pos f) (fun x => negb (Z.even x)) x) as (e & d & He & Hd & M & E).
  exists e, d. repeat split; auto.
  - eapply Rle_trans; [exact He|]. change (/ 2) with (bpow radix2 (-1)). rewrite <- bpow_plus. apply bpow_le. lia.
  - eapply Rle_trans; [exact Hd|]. change (/ 2) with (bpow radix2 (-1)). rewrite <- bpow_plus. apply bpow_le. lia.
Qed.

(** ** Evaluating the model on concrete numbers *)
Definition sf_of {f} (r : res (flt f)) : option SpecFloat.spec_float :=
  match r with Ok z => Some (B2SF z) | _ => None end.
Lemma ok_sf {f} (r : res (flt f)) (w : flt f) : sf_of r = Some (B2SF w) -> r = Ok w.
Proof.
  destruct r as [z| |]; cbn; intros H; try discriminate. f_equal. apply B2SF_inj. congruence.
Qed.
