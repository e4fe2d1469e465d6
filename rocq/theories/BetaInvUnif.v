(** * incomplete_beta_inv for a = b = 1 (the uniform distribution) *)
From Verif Require Import Base FltLemmas ConvLemmas ModelBasic ModelInt ModelElem ModelSpecial ModelApi Spec SpecGamma SpecInc.
From Coq Require Import Lra Psatz.
From Coquelicot Require Import Coquelicot.
From Interval Require Import Tactic.
From Verif Require Import BasicProofs RangeProofs FPErr ExpAcc LogApi PowReal TanhAcc MiscProofs SinAcc GammaAcc BetaAcc ScaleProofs IncBeta IncBetaAbs ErfInvAcc IncInvAcc.
From Verif Require Import Base ModelBasic ModelInt ModelElem ModelSpecial ModelApi.
Open Scope R_scope.

Lemma rmap_sf {f} (r : res (flt f)) s : rmap B2SF r = Ok s -> exists w, r = Ok w /\ B2SF w = s.
Proof. destruct r as [w| |]; cbn; intros E; try discriminate. injection E as E. exists w. auto. Qed.
Lemma sf_val {f} (w : flt f) m e : B2SF w = SpecFloat.S754_finite false m e -> finite w = true /\ B2R w = IZR (Zpos m) * bpow radix2 e.
Proof. intros E. split. destruct w; try discriminate; reflexivity. rewrite <- SF2R_B2SF, E. reflexivity. Qed.
Definition lbv v f : flt f := match lbeta v (ofZ f 1) (ofZ f 1) with Ok l => l | _ => B754_nan end.
Definition svv v f : flt f := match incomplete_beta_inv_s1 v (ofZ f 1) (ofZ f 1) with Ok l => l | _ => B754_nan end.
Definition dsf f : SpecFloat.spec_float := match f with F32 => SpecFloat.S754_finite false 8388610 (-23) | F64 => SpecFloat.S754_finite false 4503599627370496 (-52) | F80 => SpecFloat.S754_finite false 9223372036854775808 (-63) end.
Definition isok {A} (r : res A) : bool := match r with Ok _ => true | _ => false end.
Lemma lb_ok v f : lbeta v (ofZ f 1) (ofZ f 1) = Ok (lbv v f).
Proof. assert (H : isok (lbeta v (ofZ f 1) (ofZ f 1)) = true) by (destruct v, f; vm_compute; reflexivity). unfold lbv. destruct (lbeta v (ofZ f 1) (ofZ f 1)); try discriminate; reflexivity. Qed.
Lemma s_ok v f : incomplete_beta_inv_s1 v (ofZ f 1) (ofZ f 1) = Ok (svv v f).
Proof. assert (H : isok (incomplete_beta_inv_s1 v (ofZ f 1) (ofZ f 1)) = true) by (destruct v, f; vm_compute; reflexivity). unfold svv. destruct (incomplete_beta_inv_s1 v (ofZ f 1) (ofZ f 1)); try discriminate; reflexivity. Qed.
Lemma d_sf1 v f s : rmap B2SF (exp_check v ((B754_zero s : flt f) -. lbv v f)) = Ok (dsf f).
Proof. destruct v, f, s; vm_compute; reflexivity. Qed.
Lemma d_sf v f s s' : rmap B2SF (exp_check v ((B754_zero s : flt f) +. B754_zero s' -. lbv v f)) = Ok (dsf f).
Proof. assert (Z : exists t, (B754_zero s : flt f) +. B754_zero s' = B754_zero t) by (destruct s, s'; eexists; reflexivity). destruct Z as (t & ->). apply d_sf1. Qed.
Lemma d_const v f : exists d : flt f, finite d = true /\ 1 <= B2R d <= 1 + 4 * uf f /\ forall s s', exp_check v ((B754_zero s : flt f) +. B754_zero s' -. lbv v f) = Ok d.
Proof.
  destruct (rmap_sf _ _ (d_sf v f true true)) as (d & E & S). exists d. assert (K : finite d = true /\ 1 <= B2R d <= 1 + 4 * uf f). { clear E. unfold dsf in S. destruct f; destruct (sf_val _ _ _ S) as (F & V); (split; [exact F|]); rewrite V; unfold uf; cbn; lra. }
  split. apply K. split. apply K. intros s s'. destruct (rmap_sf _ _ (d_sf v f s s')) as (d' & E' & S'). rewrite E'. f_equal. apply B2SF_inj. congruence.
Qed.
Definition ssf (v : cxx) f : SpecFloat.spec_float := match f with F32 => SpecFloat.S754_finite false 8388608 (-23) | F64 => SpecFloat.S754_finite false 4503599627370497 (-52) | F80 => SpecFloat.S754_finite false 9223372036854775808 (-63) end.
Lemma s_sum v f : finite (svv v f +. svv v f) = true /\ 1 <= B2R (svv v f +. svv v f) <= 1 + 2 * uf f.
Proof.
  assert (S : B2SF (svv v f +. svv v f) = ssf v f) by (destruct v, f; vm_compute; reflexivity). revert S. generalize (svv v f +. svv v f). intros w S. unfold ssf in S. destruct f; destruct (sf_val _ _ _ S) as (F & V); (split; [exact F|]); rewrite V; unfold uf; cbn; lra.
Qed.
Lemma s_ratio v f : svv v f /. (svv v f +. svv v f) = half f.
Proof. apply B2SF_inj. destruct v, f; vm_compute; reflexivity. Qed.

Section U.
Context (v : cxx) {f : fmt}.
Notation u := (uf f).
Notation I := (ofZ f 1).
Let u0 : 0 < u := uf_pos f.
Let u1 : u <= / 16777216 := uf_le f.
Lemma one_val : finite I = true /\ B2R I = 1.
Proof. destruct (ofZ_small f 1 ltac:(lia)) as (V & F & _). auto. Qed.
Lemma log_fin (x : flt f) : finite x = true -> / 9 <= B2R x <= 9 / 10 -> exists l, log_check v x = Ok l /\ finite l = true /\ rel_err (B2R l) (ln (B2R x)) (22 * u).
Proof.
  intros F X. assert (FM := fmin_small f). destruct (Rlt_or_le (B2R x) (/ 2)) as [L|L].
  - destruct (log_small_gen v x 1 F) as (l & E & Fl & R). lra. lia. rewrite pow_1. lra. exists l. split. exact E. split. exact Fl. exact R.
  - destruct (log_check_ge v x F L) as (l & E & Fl & R). exists l. split. exact E. split. exact Fl. eapply rel_mono; [|exact R]. lra.
Qed.
Lemma zero_mul (l : flt f) : finite l = true -> exists s, (I -. I) *. l = B754_zero s.
Proof.
  intros F. assert (Z : I -. I = B754_zero false) by (clear; destruct f; apply B2SF_inj; vm_compute; reflexivity). rewrite Z. destruct l as [s|s| |s m e H]; try discriminate; eexists; reflexivity.
Qed.
Lemma sub_one (x : flt f) : finite x = true -> / 9 <= B2R x <= 9 / 10 -> finite (I -. x) = true /\ Rabs (B2R (I -. x) - (1 - B2R x)) <= u.
Proof.
  intros F X. destruct one_val as (F1 & V1). destruct (op_sub I x F1 F) as (Fs & Vs). rewrite V1. apply Rabs_le. lra. split. exact Fs. rewrite Vs, V1. assert (R := @rnd_sm f (1 - B2R x) (9 / 10) ltac:(apply Rabs_le; lra)). lra.
Qed.
Lemma guard (x : flt f) : finite x = true -> / 10 <= B2R x -> (fmin f >. ModelBasic.abs x) = false.
Proof.
  intros F X. destruct (fmin_spec f) as (Vm & Fm). assert (S := fmin_small f). apply flt_false; auto. rewrite abs_finite; auto. rewrite Vm, abs_B2R, Rabs_pos_eq by lra. lra.
Qed.
Lemma dlem (d x : flt f) : (forall s s', exp_check v ((B754_zero s : flt f) +. B754_zero s' -. lbv v f) = Ok d) -> finite x = true -> / 8 <= B2R x <= 7 / 8 -> incomplete_beta_inv_deriv_1 v x I I (lbv v f) = Ok d.
Proof.
  intros D F X. unfold incomplete_beta_inv_deriv_1. destruct (sub_one x F ltac:(lra)) as (Fs & Vs). apply Rabs_le_inv in Vs. rewrite !guard by (auto; lra).
  destruct (log_fin x F ltac:(lra)) as (l & -> & Fl & _). destruct (log_fin _ Fs ltac:(lra)) as (l1 & -> & Fl1 & _). cbn [bind].
  destruct (zero_mul l Fl) as (s & ->). destruct (zero_mul l1 Fl1) as (s' & ->). apply D.
Qed.
Lemma hal (r1 d x : flt f) : finite r1 = true -> finite d = true -> 1 <= B2R d <= 2 -> finite x = true -> / 8 <= B2R x <= 7 / 8 -> Rabs (B2R r1) <= 1000 ->
  let h := halley r1 ((d *. ((I -. I) /. x -. (I -. I) /. (I -. x))) /. d) in finite h = true /\ B2R h = B2R r1.
Proof.
  intros F Fd D Fx X R. cbv zeta. assert (Z : I -. I = B754_zero false) by (clear; destruct f; apply B2SF_inj; vm_compute; reflexivity). rewrite Z.
  destruct (sub_one x Fx ltac:(lra)) as (Fs & Vs). apply Rabs_le_inv in Vs.
  assert (DZ : forall y : flt f, finite y = true -> 0 < B2R y -> (B754_zero false : flt f) /. y = B754_zero false). { intros y Fy Py. assert (S := Bsign_Rgt y Py). destruct y as [s|s| |s m e H]; try discriminate; cbn in Py, S; try lra. rewrite S. reflexivity. }
  rewrite !DZ by (auto; lra). assert (SZ : (B754_zero false : flt f) -. B754_zero false = B754_zero false) by reflexivity. rewrite SZ.
  assert (MZ : d *. B754_zero false = B754_zero false). { assert (S := Bsign_Rgt d ltac:(lra)). destruct d as [s|s| |s m e H]; try discriminate; cbn in S; rewrite S; reflexivity. } rewrite MZ, DZ by (auto; lra).
  unfold halley. destruct (half_spec f) as (Vh & Fh). destruct (op_mul (half f) r1 Fh F) as (Fm & _). { rewrite Vh. rewrite Rabs_mult, Rabs_pos_eq by lra. lra. }
  assert (EZ : exists s, half f *. r1 *. (B754_zero false : flt f) = B754_zero s). { destruct (half f *. r1) as [s|s| |s m e H]; try discriminate; eexists; reflexivity. } destruct EZ as (s & ->).
  assert (M1 : max (dlit f 8 1) (min (dlit f 12 1) (I -. B754_zero s)) = I). { clear. destruct f, s; apply B2SF_inj; vm_compute; reflexivity. } rewrite M1. destruct one_val as (F1 & V1).
  destruct (op_div r1 I F) as (Fq & Vq). rewrite V1; lra. rewrite V1. unfold Rdiv. rewrite Rinv_1, Rmult_1_r. lra. split. exact Fq. rewrite Vq, V1. unfold Rdiv. rewrite Rinv_1, Rmult_1_r. apply rnd_B2R.
Qed.
Definition N := 84500 * u + bpow radix2 (-43).
Lemma N_small : 0 < N <= 51 / 10000.
Proof. unfold N. assert (0 < bpow radix2 (-43) <= / 1000000) by (split; [apply bpow_gt_0|cbn; lra]). lra. Qed.
Lemma ustep (p x d : flt f) : finite p = true -> 15 / 100 <= B2R p <= 85 / 100 -> finite x = true -> / 8 <= B2R x <= 7 / 8 -> finite d = true -> 1 <= B2R d <= 1 + 4 * u ->
  exists ib, incomplete_beta_check v I I x = Ok ib /\ let x' := x -. halley ((ib -. p) /. d) ((d *. ((I -. I) /. x -. (I -. I) /. (I -. x))) /. d) in finite x' = true /\ Rabs (B2R x' - B2R p) <= N + 8 * u.
Proof.
  intros Fp P Fx X Fd D. destruct one_val as (F1 & V1). assert (NS := N_small). destruct (check_abs v I I x F1 F1 Fx) as (ib & E & F & R); rewrite ?V1; try lra. exists ib. split. exact E. rewrite V1 in R. rewrite beta_Ia1, Rpower_1 in R by lra. unfold abs_err in R. fold N in R. cbv zeta.
  apply Rabs_le_inv in R. assert (S0 : Rabs (B2R ib - B2R p) <= 9 / 10) by (apply Rabs_le; lra).
  destruct (op_sub ib p F Fp) as (Fs & Vs). lra. assert (E1 := @rnd_sm f _ _ S0). rewrite <- Vs in E1. set (s := ib -. p) in * . apply Rabs_le_inv in E1. apply Rabs_le_inv in S0.
  assert (SD : Rabs (B2R s / B2R d - B2R s) <= 4 * u). { replace (B2R s / B2R d - B2R s) with (- (B2R s * ((B2R d - 1) * / B2R d))) by (field; lra). rewrite Rabs_Ropp, !Rabs_mult. assert (/ B2R d <= 1) by (rewrite <- Rinv_1; apply Rinv_le_contravar; lra). assert (0 < / B2R d) by (apply Rinv_0_lt_compat; lra). rewrite (Rabs_pos_eq (B2R d - 1)), (Rabs_pos_eq (/ B2R d)) by lra. assert (Rabs (B2R s) <= 1) by (apply Rabs_le; lra). assert (0 <= (B2R d - 1) * / B2R d <= 4 * u * 1) by (split; [apply Rmult_le_pos|apply Rmult_le_compat]; lra). rewrite <- (Rmult_1_l (4 * u)). apply Rmult_le_compat; try lra. apply Rabs_pos. }
  apply Rabs_le_inv in SD. assert (S1 : Rabs (B2R s / B2R d) <= 91 / 100) by (apply Rabs_le; lra).
  destruct (op_div s d Fs) as (Fr & Vr). lra. lra. assert (E2 := @rnd_sm f _ _ S1). rewrite <- Vr in E2. set (r1 := s /. d) in * . apply Rabs_le_inv in E2. apply Rabs_le_inv in S1.
  destruct (hal r1 d x Fr Fd ltac:(lra) Fx X) as (Fh & Vh). apply Rabs_le; lra. set (h := halley r1 _) in * . 
  assert (S2 : Rabs (B2R x - B2R h) <= 1) by (rewrite Vh; apply Rabs_le; lra). destruct (op_sub x h Fx Fh) as (F' & V'). lra. split. exact F'. assert (E3 := @rnd_sm f _ _ S2). rewrite <- V' in E3. apply Rabs_le_inv in E3. apply Rabs_le. lra.
Qed.
Lemma urecur (p d : flt f) : (forall s s', exp_check v ((B754_zero s : flt f) +. B754_zero s' -. lbv v f) = Ok d) -> finite d = true -> 1 <= B2R d <= 1 + 4 * u -> finite p = true -> 15 / 100 <= B2R p <= 85 / 100 ->
  forall k n (x : flt f) iter, (iter = GCEM_INCML_BETA_INV_MAX_ITER + 1 - Z.of_nat k)%Z -> (k < n)%nat -> finite x = true -> / 8 <= B2R x <= 7 / 8 ->
  exists w, incomplete_beta_inv_recur v n x I I p d (lbv v f) iter = Ok w /\ finite w = true /\ Rabs (B2R w - B2R p) <= N + 8 * u.
Proof.
  intros HD Fd D Fp P. assert (NS := N_small). induction k as [|k IH]; intros n x iter HI HN Fx X; (destruct n as [|n]; [lia|]); cbn [incomplete_beta_inv_recur]; rewrite guard by (auto; lra); destruct (ustep p x d Fp P Fx X Fd D) as (ib & -> & F' & R'); cbn [bind].
  - replace (iter <=? GCEM_INCML_BETA_INV_MAX_ITER)%Z with false by (symmetry; apply Z.leb_gt; lia). eexists. split. reflexivity. split. exact F'. exact R'.
  - replace (iter <=? GCEM_INCML_BETA_INV_MAX_ITER)%Z with true by (symmetry; apply Z.leb_le; lia). rewrite (dlem d x HD Fx X). cbn [bind]. apply IH; [lia|lia|exact F'|]. apply Rabs_le_inv in R'. lra.
Qed.
Lemma upow (q : flt f) : finite q = true -> 149 / 1000 <= B2R q <= / 2 -> exists i, incomplete_beta_inv_initial_val_2 v I I q (svv v f) (svv v f) = Ok i /\ finite i = true /\ Rabs (B2R i - B2R q) <= / 1000.
Proof.
  intros F Q. destruct one_val as (F1 & V1). unfold incomplete_beta_inv_initial_val_2. rewrite s_ratio. destruct (half_spec f) as (Vh & Fh). rewrite fle_true by (auto; lra).
  destruct (s_sum v f) as (Fs & Vs). set (s := svv v f +. svv v f) in * .
  assert (QS : B2R q <= B2R q * B2R s <= B2R q + 2 * u). { assert (B2R q * 1 <= B2R q * B2R s <= B2R q * (1 + 2 * u)) by (split; apply Rmult_le_compat_l; lra). assert (B2R q * (2 * u) <= / 2 * (2 * u)) by (apply Rmult_le_compat_r; lra). lra. }
  destruct (op_mul q s F Fs) as (Fm & Vm). apply Rabs_le; lra. assert (E1 := @rnd_sm f (B2R q * B2R s) 1 ltac:(apply Rabs_le; lra)). rewrite <- Vm in E1. apply Rabs_le_inv in E1. set (m := q *. s) in * .
  destruct (op_mul m I Fm F1) as (Fm2 & Vm2). rewrite V1, Rmult_1_r. apply Rabs_le; lra. rewrite V1, Rmult_1_r, rnd_B2R in Vm2. set (m2 := m *. I) in * .
  assert (I1 : I /. I = I) by (clear; destruct f; apply B2SF_inj; vm_compute; reflexivity). rewrite I1. unfold pow_check. destruct (ofZ_small f 0 ltac:(lia)) as (V0 & F0 & _). rewrite flt_false by (auto; rewrite V0; lra). unfold pow_dbl.
  destruct (log_fin m2 Fm2 ltac:(lra)) as (l & -> & Fl & Rl). cbn [bind]. assert (LB : - (1905 / 1000) <= ln (B2R m2) <= - (6 / 10)). { split. apply Rle_trans with (ln (1489 / 10000)). interval. apply ln_le; lra. apply Rle_trans with (ln (51 / 100)). apply ln_le; lra. interval. }
  unfold rel_err in Rl. rewrite (Rabs_left (ln (B2R m2))) in Rl by lra. assert (22 * u * - ln (B2R m2) <= 22 * u * 2) by (apply Rmult_le_compat_l; lra). apply Rabs_le_inv in Rl.
  destruct (op_mul I l F1 Fl) as (Fl2 & Vl2). rewrite V1, Rmult_1_l. apply Rabs_le; lra. rewrite V1, Rmult_1_l, rnd_B2R in Vl2. set (l2 := I *. l) in * .
  destruct (exp_check_acc v l2 _ Fl2 ltac:(apply Rabs_def1; lra) eq_refl) as (w & Ew & Fw & Rw). exists w. split. exact Ew. split. exact Fw.
  unfold rel_err in Rw. assert (C : (if Rle_dec (Rabs (B2R l2)) (/ 2) then 8 else 106) <= 106) by (destruct (Rle_dec _ _); lra). assert (C0 : 0 <= (if Rle_dec (Rabs (B2R l2)) (/ 2) then 8 else 106)) by (destruct (Rle_dec _ _); lra). set (c := if Rle_dec _ _ then _ else _) in * . change (bpow radix2 (- prec f)) with u in Rw.
  assert (b55 : 0 < bpow radix2 (-55) <= / 1000000) by (split; [apply bpow_gt_0|cbn; lra]). assert (cu : 0 <= c * u <= 106 * u) by (split; [apply Rmult_le_pos|apply Rmult_le_compat_r]; lra).
  assert (EX : exp (B2R l2) = B2R m2 * exp (B2R l2 - ln (B2R m2))). { rewrite <- (exp_ln (B2R m2)) at 1 by lra. rewrite <- exp_plus. f_equal. ring. }
  assert (DL : - / 100000 <= B2R l2 - ln (B2R m2) <= / 100000) by (rewrite Vl2; lra). set (t := B2R l2 - ln (B2R m2)) in * . assert (ET : 1 - / 10000 <= exp t <= 1 + / 10000) by (split; interval).
  assert (EB : B2R m2 * (1 - / 10000) <= exp (B2R l2) <= B2R m2 * (1 + / 10000)) by (rewrite EX; split; apply Rmult_le_compat_l; lra).
  rewrite (Rabs_pos_eq (exp _)) in Rw by (left; apply exp_pos). assert (RW2 : (c * u + bpow radix2 (-55)) * exp (B2R l2) <= / 10000 * 1) by (apply Rmult_le_compat; try lra; left; apply exp_pos). apply Rabs_le_inv in Rw. apply Rabs_le. lra.
Qed.
Lemma ustart (p : flt f) : finite p = true -> 15 / 100 <= B2R p <= 85 / 100 -> exists i, incomplete_beta_inv_initial_val v I I p = Ok i /\ finite i = true /\ / 8 <= B2R i <= 7 / 8.
Proof.
  intros F P. destruct one_val as (F1 & V1). destruct (half_spec f) as (Vh & Fh). unfold incomplete_beta_inv_initial_val. rewrite (flt_false I I) by (auto; lra). cbn [andb].
  change (incomplete_beta_inv_s2 v I I) with (incomplete_beta_inv_s1 v I I). rewrite !s_ok. cbn [bind]. rewrite flt_spec by auto. rewrite Vh. destruct (Rlt_bool_spec (/ 2) (B2R p)) as [L|L].
  - destruct (sub_one p F ltac:(lra)) as (Fs & Vs). apply Rabs_le_inv in Vs. assert (Q : B2R (I -. p) <= / 2). { destruct (op_sub I p F1 F) as (_ & V'). rewrite V1. apply Rabs_le; lra. rewrite V', V1. rewrite <- Vh, <- (rnd_B2R (half f)). apply round_le; auto with typeclass_instances. lra. }
    destruct (upow (I -. p) Fs ltac:(lra)) as (i & -> & Fi & Ri). cbn [bind]. apply Rabs_le_inv in Ri. destruct (sub_one i Fi ltac:(lra)) as (Fz & Vz). apply Rabs_le_inv in Vz. eexists. split. reflexivity. split. exact Fz. lra.
  - destruct (upow p F ltac:(lra)) as (i & -> & Fi & Ri). apply Rabs_le_inv in Ri. exists i. split. reflexivity. split. exact Fi. lra.
Qed.
Lemma ucheck (p : flt f) : finite p = true -> 15 / 100 <= B2R p <= 85 / 100 -> exists w, incomplete_beta_inv_check v I I p = Ok w /\ finite w = true /\ Rabs (B2R w - B2R p) <= N + 8 * u.
Proof.
  intros F P. destruct one_val as (F1 & V1). unfold incomplete_beta_inv_check, any_nan3. rewrite !finite_not_nan by auto. cbn [orb].
  destruct (fmin_spec f) as (Vm & Fm). assert (S := fmin_small f). rewrite (flt_false p (fmin f)) by (auto; lra). destruct (sub_one p F ltac:(lra)) as (Fs & Vs). apply Rabs_le_inv in Vs. rewrite guard by (auto; lra).
  destruct (ustart p F P) as (i & -> & Fi & Ri). cbn [bind]. rewrite lb_ok. cbn [bind]. destruct (d_const v f) as (d & Fd & D & HD). rewrite (dlem d i HD Fi Ri). cbn [bind].
  apply (urecur p d HD Fd D F P (Z.to_nat GCEM_INCML_BETA_INV_MAX_ITER)); [reflexivity|apply Z2Nat.inj_lt; [discriminate|discriminate|reflexivity]|exact Fi|exact Ri].
Qed.
End U.
Lemma api_ibi_unif : forall v f (p : flt f), finite p = true -> 15 / 100 <= B2R p <= 85 / 100 ->
  exists w, rmap (AFlt _) (gcem_incomplete_beta_inv v (AFlt f (ofZ f 1)) (AFlt f (ofZ f 1)) (AFlt f p)) = Ok (AFlt f w) /\ finite w = true /\ abs_err (B2R w) (B2R p) (84508 * bpow radix2 (- prec f) + bpow radix2 (-43)).
Proof.
  intros v f p F P. destruct (ucheck v p F P) as (w & E & Fw & R). exists w. split. 2: split; [exact Fw|]; unfold abs_err; eapply Rle_trans; [exact R|]; unfold N, uf; lra.
  destruct f; unfold gcem_incomplete_beta_inv, lift3; cbn [cr_fmt3 cr_fmt to_fmt fmt_max]; rewrite !conv_id, E; reflexivity.
Qed.
Lemma api_ibi_unif2 : forall v f (p : flt f), finite p = true -> 15 / 100 <= B2R p <= 85 / 100 ->
  exists w, rmap (AFlt _) (gcem_incomplete_beta_inv v (AFlt f (ofZ f 1)) (AFlt f (ofZ f 1)) (AFlt f p)) = Ok (AFlt f w) /\ finite w = true /\ 0 < B2R w < 1 /\
  abs_err (beta_I 1 1 (B2R w)) (B2R p) (84508 * bpow radix2 (- prec f) + bpow radix2 (-43)) /\ abs_err (B2R w) (B2R p) (84508 * bpow radix2 (- prec f) + bpow radix2 (-43)).
Proof.
  intros v f p F P. destruct (api_ibi_unif v f p F P) as (w & E & Fw & R). assert (W : 0 < B2R w < 1). { unfold abs_err in R. fold (uf f) in R. assert (u1 := uf_le f). change (bpow radix2 (-24)) with (/ 16777216) in u1. assert (bpow radix2 (-43) <= / 1000000) by (cbn; lra). apply Rabs_le_inv in R. lra. }
  exists w. split. exact E. split. exact Fw. split. exact W. rewrite beta_Ia1, Rpower_1 by lra. auto.
Qed.
