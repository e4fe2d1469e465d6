(** * Symmetries and ranges *)
From Coq Require Import Lra Psatz.
From Verif Require Import Base ModelBasic ModelInt ModelElem ModelSpecial ModelApi FltLemmas ConvLemmas Spec IntProofs BasicProofs SymLemmas ScaleProofs TotalProofs ExpTotal EdgeProofs LimitProofs.
Open Scope R_scope.

Lemma ok_inj {A} (a b : A) : Ok a = Ok b -> a = b.
Proof. intros H. injection H. auto. Qed.
Ltac okinv H := first [discriminate H | apply ok_inj in H; subst].
(** Odd up to the sign of zero, even: on results. *)
Notation odd_res r s := (forall w, r = Ok w -> exists w', s = Ok w' /\ same_num w' (-. w)).

Lemma same_abs {f} (x y : flt f) : same_num x y -> abs x = abs y.
Proof. intros [->|(s & s' & -> & ->)]; auto; rewrite ?abs_Babs; reflexivity. Qed.
Lemma is_nan_neg {f} (x : flt f) : is_nan (-. x) = is_nan x.
Proof. rewrite !is_nan_spec. destruct x; reflexivity. Qed.
Lemma fneg_lt0 {f} (x : flt f) : (-. x <. ofZ f 0) = (ofZ f 0 <. x).
Proof.
  rewrite ofZ_0. destruct x as [s|s| |s m e E]; try reflexivity; destruct s; reflexivity.
Qed.
Lemma fneg_gt0 {f} (x : flt f) : (ofZ f 0 <. -. x) = (x <. ofZ f 0).
Proof. rewrite <- fneg_lt0, fneg_involutive. reflexivity. Qed.
Lemma zero_cmp {f} (x : flt f) : is_nan x = false -> (abs x <. fmin f) = false -> (x <. ofZ f 0) = negb (ofZ f 0 <. x).
Proof.
  intros N L. rewrite is_nan_spec in N. rewrite ofZ_0. destruct x as [s|s| |s m e E]; try discriminate.
  - rewrite below_min in L by auto. cbn in L. rewrite Rabs_R0, Rlt_bool_true in L. discriminate. apply bpow_gt_0.
  - destruct s; reflexivity.
  - destruct s; reflexivity.
Qed.

(** The common shape [x < 0 ? -g(-x) : g(x)] with an early exit. *)
Lemma odd_shape {f} (g : flt f -> res (flt f)) (x : flt f) :
  let h x := if is_nan x then Ok (qNaN f) else if fmin f >. abs x then Ok (ofZ f 0)
             else if x <. ofZ f 0 then (let* t := g (-. x) in Ok (-. t)) else g x in
  odd_res (h x) (h (-. x)).
Proof.
  cbv beta zeta. intros w. rewrite is_nan_neg, abs_neg. destruct (is_nan x) eqn:N.
  { intros H. okinv H. eexists. split; [reflexivity|]. left. reflexivity. }
  destruct (abs x <. fmin f) eqn:L.
  { intros H. okinv H. eexists. split; [reflexivity|]. rewrite ofZ_0. right. cbn. eauto. }
  pose proof (zero_cmp x N L) as Z. rewrite fneg_lt0, Z. destruct (ofZ f 0 <. x) eqn:P; cbn [negb].
  - intros H. rewrite fneg_involutive. rewrite H. cbn [bind]. eexists. split; [reflexivity|]. apply same_num_refl.
  - destruct (g (-. x)) eqn:G; cbn [bind]; intros H; okinv H. eexists. split; [reflexivity|].
    rewrite fneg_involutive. apply same_num_refl.
Qed.
Lemma tan_odd {f} (x : flt f) : odd_res (tan_check x) (tan_check (-. x)).
Proof. exact (odd_shape (fun y => tan_begin 3 y 0) x). Qed.
Lemma atan_odd v {f} (x : flt f) : odd_res (atan_check v x) (atan_check v (-. x)).
Proof. exact (odd_shape (fun y => atan_begin v y) x). Qed.
Lemma tanh_odd v {f} (x : flt f) : odd_res (tanh_check v x) (tanh_check v (-. x)).
Proof. exact (odd_shape (fun y => Ok (tanh_begin v y)) x). Qed.
Lemma erf_odd v {f} (x : flt f) : odd_res (erf_check v x) (erf_check v (-. x)).
Proof.
  assert (S := odd_shape (fun y => erf_begin v y) x). cbv beta zeta in S.
  unfold erf_check. rewrite is_nan_neg, !is_posinf_spec, !is_neginf_spec in * .
  destruct x as [s|s| |s m e E]; try exact S.
  destruct (is_nan (B754_infinity s : flt f)); [exact S|].
  destruct s; intros w H; okinv H; eexists; (split; [reflexivity|]); [rewrite fneg_involutive|]; apply same_num_refl.
Qed.
Lemma asin_odd v {f} (x : flt f) : odd_res (asin_check v x) (asin_check v (-. x)).
Proof.
  intros w. unfold asin_check. rewrite is_nan_neg. destruct (is_nan x) eqn:N.
  { intros H. okinv H. eexists. split; [reflexivity|]. left. reflexivity. }
  destruct (abs x <. fmin f) eqn:L.
  - assert (T : tiny x).
    { rewrite is_nan_spec in N. destruct (finite x) eqn:F.
      - rewrite below_min in L by auto. split; auto. destruct (Rlt_bool_spec (Rabs (B2R x)) (bpow radix2 (2 - emax f))); auto; discriminate.
      - destruct x as [s|s| |]; try discriminate. rewrite abs_Babs in L. cbn in L. destruct f; discriminate. }
    assert (T' : tiny (-. x)). { destruct T as (F & B). split; [rewrite fneg_finite; auto|rewrite fneg_B2R, Rabs_Ropp; auto]. }
    assert (A : forall y : flt f, tiny y -> asin_compute v y = Ok (ofZ f 0)).
    { intros y T1. unfold asin_compute. rewrite (tiny_one y T1), (tiny_lt y T1).
      replace (ofZ f 1 <. y) with false; auto. symmetry. apply flt_false; [apply one_val|apply tiny_fin; auto|].
      rewrite (proj2 (one_val f)). destruct T1 as (_ & T1). pose proof (fmin_small f). apply Rabs_lt_inv in T1. lra. }
    rewrite fneg_involutive. rewrite !A by auto. cbn [bind]. rewrite ofZ_0.
    destruct (x <. B754_zero false), (-. x <. B754_zero false); intros H; okinv H; eexists; (split; [reflexivity|]); right; cbn; eauto.
  - pose proof (zero_cmp x N L) as Z. rewrite fneg_lt0, Z. destruct (ofZ f 0 <. x) eqn:P; cbn [negb].
    + intros H. rewrite fneg_involutive. rewrite H. cbn [bind]. eexists. split; [reflexivity|]. apply same_num_refl.
    + destruct (asin_compute v (-. x)) eqn:G; cbn [bind]; intros H; okinv H. eexists. split; [reflexivity|].
      rewrite fneg_involutive. apply same_num_refl.
Qed.
Lemma sinh_odd v {f} (x : flt f) : odd_res (sinh_check v x) (sinh_check v (-. x)).
Proof.
  intros w. unfold sinh_check. rewrite is_nan_neg, abs_neg. destruct (is_nan x) eqn:N.
  { intros H. okinv H. eexists. split; [reflexivity|]. left. reflexivity. }
  destruct (abs x <. fmin f) eqn:L.
  { intros H. okinv H. eexists. split; [reflexivity|]. rewrite ofZ_0. right. cbn. eauto. }
  rewrite fneg_involutive. destruct (exp_check v x) as [a| |]; try discriminate. destruct (exp_check v (-. x)) as [b| |]; try discriminate.
  cbn [bind]. intros H. okinv H. eexists. split; [reflexivity|].
  rewrite <- fdiv_neg_l. apply (same_num_div (f:=f)); [pose proof (proj2 (two_val f)) as E2; rewrite E2; lra|apply fsub_swap].
Qed.

(** ** sin, cos *)
Definition HP f := conv f GCEM_HALF_PI.
Lemma hp_val f : finite (conv f GCEM_HALF_PI) = true /\ 1 <= B2R (conv f GCEM_HALF_PI) <= 2.
Proof.
  assert (F : finite (conv f GCEM_HALF_PI) = true) by (destruct f; vm_compute; reflexivity). split; auto. split.
  - rewrite <- (proj2 (one_val f)). apply fle_true_inv; [apply one_val|auto|destruct f; vm_compute; reflexivity].
  - rewrite <- (proj2 (two_val f)). apply fle_true_inv; [auto|apply two_val|destruct f; vm_compute; reflexivity].
Qed.
Lemma near_sub {f} (x c : flt f) : finite c = true -> (abs (x -. c) <. fmin f) = true -> finite x = true /\ Rabs (B2R x - B2R c) < 1.
Proof.
  intros Fc H. destruct (finite x) eqn:Fx.
  - split; auto. destruct (fmin_spec f) as (Em & Fm). apply Rnot_le_lt. intros C.
    destruct (fsub_full x c Fx Fc) as [(A & B & D & _)|(A & B & _)].
    + rewrite below_min in H by auto. destruct (Rlt_bool_spec (Rabs (B2R (x -. c))) (bpow radix2 (2 - emax f))) as [L|L]; [|discriminate].
      apply Rlt_not_le in L. apply L. rewrite B, rnd_abs. apply rnd_ge_fmt; [apply fmt_bpow; unfold emin; destruct f; cbn; lia|].
      pose proof (fmin_small f). lra.
    + rewrite B, abs_Babs in H. cbn in H. destruct f; discriminate.
  - exfalso. destruct x as [| [] | |]; try discriminate; destruct c as [|[]| |[]]; try discriminate; rewrite abs_Babs in H; cbn in H; destruct f; discriminate.
Qed.
Lemma abs_neg_sub {f} (x c : flt f) : abs (-. x -. c) = abs (x +. c) /\ abs (-. x +. c) = abs (x -. c).
Proof.
  split.
  - rewrite fsub_fadd. rewrite (same_abs _ _ (fadd_neg_neg x c)), abs_neg. reflexivity.
  - rewrite <- (fneg_involutive c) at 1. rewrite (same_abs _ _ (fadd_neg_neg x (-. c))), abs_neg, <- fsub_fadd. reflexivity.
Qed.
Lemma sin_compute_odd {f} (t : flt f) : sin_compute (-. t) = -. sin_compute t.
Proof. unfold sin_compute. rewrite fmul_neg_neg, fmul_neg_r, fdiv_neg_l. reflexivity. Qed.
Lemma one_plus_zero {f} s s' : ofZ f 1 +. B754_zero s *. B754_zero s' = ofZ f 1.
Proof. destruct f, s, s'; apply B2SF_inj; vm_compute; reflexivity. Qed.
Lemma sin_compute_zero {f} s : exists s', sin_compute (B754_zero s : flt f) = B754_zero s'.
Proof. unfold sin_compute. rewrite one_plus_zero. exists s. destruct f, s; apply B2SF_inj; vm_compute; reflexivity. Qed.
Lemma same_sin {f} (t u : flt f) : same_num t u -> same_num (sin_compute t) (sin_compute u).
Proof.
  intros [->|(s & s' & -> & ->)]; [left; auto|]. right.
  destruct (@sin_compute_zero f s) as [a ->]. destruct (@sin_compute_zero f s') as [b ->]. eauto.
Qed.
Lemma same_sq {f} (t u : flt f) : same_num t u -> t *. t = u *. u.
Proof. intros [->|(s & s' & -> & ->)]; auto. destruct s, s'; reflexivity. Qed.
Lemma sin_odd {f} (x : flt f) : odd_res (sin_check x) (sin_check (-. x)).
Proof.
  destruct (hp_val f) as (Fh & Bh).
  intros w. unfold sin_check. rewrite is_nan_neg, abs_neg. destruct (abs_neg_sub x (conv f GCEM_HALF_PI)) as [-> ->].
  destruct (abs_neg_sub x (conv f GCEM_PI)) as [-> ->].
  destruct (is_nan x) eqn:N.
  { intros H. okinv H. eexists. split; [reflexivity|]. left. reflexivity. }
  destruct (abs x <. fmin f) eqn:L.
  { intros H. okinv H. eexists. split; [reflexivity|]. rewrite ofZ_0. right. cbn. eauto. }
  destruct (abs (x -. conv f GCEM_HALF_PI) <. fmin f) eqn:A1; destruct (abs (x +. conv f GCEM_HALF_PI) <. fmin f) eqn:A2.
  - exfalso. destruct (near_sub _ _ Fh A1) as (F1 & B1). rewrite <- fsub_neg_r in A2.
    assert (Fh' : finite (-. conv f GCEM_HALF_PI) = true) by (rewrite fneg_finite; auto).
    destruct (near_sub _ _ Fh' A2) as (F2 & B2). rewrite fneg_B2R in B2. apply Rabs_lt_inv in B1, B2. lra.
  - intros H. okinv H. eexists. split; [reflexivity|]. apply same_num_refl.
  - intros H. okinv H. eexists. split; [reflexivity|]. rewrite fneg_involutive. apply same_num_refl.
  - rewrite fdiv_neg_l. assert (T := tan_odd (x /. ofZ f 2)).
    destruct (tan_check (x /. ofZ f 2)) as [t| |]. 2,3: rewrite ?ofZ_0; destruct (abs (x -. conv f GCEM_PI) <. fmin f), (abs (x +. conv f GCEM_PI) <. fmin f); intros H; okinv H; eexists; (split; [reflexivity|]); right; cbn; eauto.
    destruct (T t eq_refl) as (t' & -> & S). cbn [bind].
    rewrite ?ofZ_0; destruct (abs (x -. conv f GCEM_PI) <. fmin f), (abs (x +. conv f GCEM_PI) <. fmin f); intros H; okinv H; eexists; (split; [reflexivity|]); try (right; cbn; eauto; fail).
    rewrite <- sin_compute_odd. apply same_sin. auto.
Qed.
Lemma cos_even {f} (x : flt f) : cos_check (-. x) = cos_check x.
Proof.
  unfold cos_check. rewrite is_nan_neg, abs_neg. destruct (abs_neg_sub x (conv f GCEM_HALF_PI)) as [-> ->].
  destruct (abs_neg_sub x (conv f GCEM_PI)) as [-> ->]. rewrite fdiv_neg_l.
  assert (E : (let* t := tan_check (-. (x /. ofZ f 2)) in Ok (cos_compute t)) = (let* t := tan_check (x /. ofZ f 2) in Ok (cos_compute t))).
  { destruct (tan_ok (x /. ofZ f 2)) as (t & Ht). destruct (tan_odd (x /. ofZ f 2) t Ht) as (t' & -> & S). rewrite Ht. cbn [bind].
    unfold cos_compute. rewrite (same_sq t' (-. t) S), fmul_neg_neg. reflexivity. }
  rewrite E. repeat match goal with |- context[if ?c then _ else _] => destruct c end; reflexivity.
Qed.
Lemma cosh_even v {f} (x : flt f) : forall w, cosh_compute v x = Ok w -> cosh_compute v (-. x) = Ok w.
Proof.
  intros w. unfold cosh_compute. rewrite is_nan_neg, abs_neg, fneg_involutive.
  destruct (is_nan x); auto. destruct (abs x <. fmin f); auto.
  destruct (exp_check v x) as [a| |]; try discriminate. destruct (exp_check v (-. x)) as [b| |]; try discriminate. cbn [bind].
  rewrite (fadd_comm b a). auto.
Qed.

(** ** |sin|, |cos| <= 1 *)
Notation nan_or_le1 w := (is_nan w = true \/ (finite w = true /\ Rabs (B2R w) <= 1)).
Lemma fmt_1 f : generic_format radix2 (fexpf f) 1.
Proof. change 1 with (IZR 1). apply fmt_IZR. pose proof (pow_prec f). lia. Qed.
Lemma quot_le1 {f} (n d : flt f) : finite n = true -> finite d = true -> 0 < B2R d -> Rabs (B2R n) <= B2R d -> nan_or_le1 (n /. d).
Proof.
  intros Fn Fd Hd H. right.
  assert (Q : Rabs (B2R n / B2R d) <= 1).
  { unfold Rdiv. rewrite Rabs_mult, Rabs_inv, (Rabs_pos_eq (B2R d)) by lra. apply Rmult_le_reg_r with (B2R d); auto.
    rewrite Rmult_assoc, Rinv_l by lra. lra. }
  assert (Q' : Rabs (rnd f (B2R n / B2R d)) <= 1). { rewrite rnd_abs. apply rnd_le_fmt; auto. apply fmt_1. }
  destruct (fdiv_full n d Fn) as [(A & B & C & _)|(A & B)]; [lra| |].
  - split; auto. rewrite B. auto.
  - exfalso. pose proof (emax_big f). lra.
Qed.
