(** * Domain errors and special values *)
From Coq Require Import Lra Psatz.
From Flocq Require Import Plus_error.
From Verif Require Import Base ModelBasic ModelInt ModelElem ModelSpecial ModelApi FltLemmas ConvLemmas Spec IntProofs BasicProofs SymLemmas ScaleProofs TotalProofs ExpTotal EdgeProofs.
Open Scope R_scope.

Lemma ofZ_below {f} (x : flt f) z : (Z.abs z <= 16777216)%Z -> below x (IZR z) -> (ofZ f z <. x) = false.
Proof. intros Hz H. apply below_not_above; [apply ofZ_fin; auto|rewrite ofZ_B2R; auto]. Qed.
Lemma ofZ_above {f} (x : flt f) z : (Z.abs z <= 16777216)%Z -> above x (IZR z) -> (x <. ofZ f z) = false.
Proof. intros Hz H. apply above_not_below; [apply ofZ_fin; auto|rewrite ofZ_B2R; auto]. Qed.
Lemma above_not_tiny {f} (x : flt f) r : 1 <= r -> above x r -> (x <. fmin f) = false.
Proof.
  intros Hr H. destruct (fmin_spec f) as (E & F). apply above_not_below; auto. rewrite E.
  eapply above_trans; eauto. pose proof (fmin_small f). lra.
Qed.

(** ** Domain errors *)
Section Domain.
Context (v : cxx) {f : fmt}.
Implicit Type x : flt f.

Lemma sqrt_dom x : below x 0 -> sqrt_check x = Ok (nan_ f).
Proof. intros H. unfold sqrt_check. rewrite (below_not_nan x 0 H), below_ofZ; auto. lia. Qed.
Lemma inv_sqrt_dom x : below x 0 -> inv_sqrt_check x = Ok (nan_ f).
Proof. intros H. unfold inv_sqrt_check. rewrite (below_not_nan x 0 H), below_ofZ; auto. lia. Qed.
Lemma log_dom x : below x 0 -> log_check v x = Ok (nan_ f).
Proof. intros H. unfold log_check. rewrite (below_not_nan x 0 H), below_ofZ; auto. lia. Qed.
Lemma log2_dom x : below x 0 -> log2_check v x = Ok (nan_ f).
Proof. intros H. unfold log2_check. rewrite log_dom by auto. reflexivity. Qed.
Lemma log10_dom x : below x 0 -> log10_check v x = Ok (nan_ f).
Proof. intros H. unfold log10_check. rewrite log_dom by auto. reflexivity. Qed.
Lemma plus1_below x : below x (-1) -> below (ofZ f 1 +. x) 0.
Proof.
  intros H. destruct (finite x) eqn:Fx.
  - assert (L : B2R x < -1) by (destruct x; try discriminate; exact H).
    destruct (one_val f) as (F1 & E1).
    destruct (fadd_spec (ofZ f 1) x F1 Fx) as [E F].
    { rewrite E1. apply rnd_lt_emax with (Rabs (B2R x)); [apply generic_format_abs, fmt_format|apply B2R_lt_emax|].
      rewrite !Rabs_left by lra. lra. }
    assert (N : B2R (ofZ f 1 +. x) <= 0).
    { rewrite E, E1. apply rnd_le_0. lra. }
    assert (NZ : B2R (ofZ f 1 +. x) <> 0).
    { rewrite E. unfold rnd. apply round_plus_neq_0; auto with typeclass_instances; try apply fmt_format.
      rewrite E1. lra. }
    destruct (ofZ f 1 +. x) eqn:EE; try discriminate; destruct N as [N|N]; try contradiction; exact N.
  - destruct x; try discriminate; cbn in H; try tauto. subst. 
    destruct f; reflexivity.
Qed.
Lemma log1p_dom x : below x (-1) -> log1p_check v x = Ok (nan_ f).
Proof.
  intros H. unfold log1p_check. rewrite (below_not_nan x _ H).
  replace (dlit f 1 4 <. abs x) with true. { apply log_dom, plus1_below; auto. }
  symmetry. apply above_lt. { destruct f; vm_compute; reflexivity. }
  apply above_trans with 1; [apply above_abs; [lra|right; auto]|].
  apply Rlt_le. apply flt_true_inv with (y := ofZ f 1) (x := dlit f 1 4) || idtac.
  replace 1 with (B2R (ofZ f 1)) by (apply one_val). apply flt_true_inv; [destruct f; vm_compute; reflexivity|apply one_val|destruct f; vm_compute; reflexivity].
Qed.
Lemma acosh_dom x : below x 1 -> acosh_compute v x = Ok (nan_ f).
Proof. intros H. unfold acosh_compute. rewrite (below_not_nan x 1 H), below_ofZ; auto. lia. Qed.
Lemma asin_dom x : above x 1 \/ below x (-1) -> asin_check v x = Ok (nan_ f).
Proof.
  intros [H|H]; unfold asin_check, asin_compute.
  - rewrite (above_not_nan x 1 H), ofZ_above; [|lia|]. 2:{ eapply above_trans; [exact H|lra]. }
    rewrite above_ofZ; auto. lia.
  - rewrite (below_not_nan x _ H), (below_ofZ x 0); [|lia|]. 2:{ eapply below_trans; [exact H|lra]. }
    rewrite above_ofZ; [reflexivity|lia|]. apply below_neg in H. eapply above_trans; [exact H|lra].
Qed.
Lemma acos_dom x : above x 1 \/ below x (-1) -> acos_check v x = Ok (nan_ f).
Proof.
  intros H. assert (A : above (abs x) 1) by (apply above_abs; auto; lra).
  unfold acos_check, acos_compute. rewrite abs_neg. rewrite (above_ofZ (abs x) 1) by (auto; lia).
  destruct (is_nan x); auto. destruct (ofZ f 0 <. x); auto. cbn [bind]. unfold qNaN. rewrite fsub_nan_r. reflexivity.
Qed.
Lemma atanh_dom x : above x 1 \/ below x (-1) -> atanh_check v x = Ok (nan_ f).
Proof.
  intros H. assert (A : above (abs x) 1) by (apply above_abs; auto; lra).
  unfold atanh_check. rewrite above_ofZ by (auto; lia). destruct (is_nan x); auto.
Qed.
Lemma erf_inv_dom x : above x 1 \/ below x (-1) -> erf_inv_begin v x = Ok (nan_ f).
Proof.
  intros H. assert (A : above (abs x) 1) by (apply above_abs; auto; lra).
  unfold erf_inv_begin. rewrite above_ofZ by (auto; lia). destruct (is_nan x); auto.
Qed.
Lemma ig_dom (a z : flt f) : below a 0 -> incomplete_gamma_check v a z = Ok (nan_ f).
Proof. intros H. unfold incomplete_gamma_check. rewrite below_ofZ by (auto; lia). destruct (any_nan a z); auto. Qed.
Lemma igi_dom (a p : flt f) : above p 1 -> incomplete_gamma_inv_check v a p = Ok (nan_ f).
Proof.
  intros H. unfold incomplete_gamma_inv_check. rewrite above_ofZ by (auto; lia).
  rewrite (above_not_tiny p 1) by (auto; lra). destruct (any_nan a p); auto.
Qed.
Lemma lmgamma_dom n (a : flt f) p : (p < 1)%Z -> lmgamma_recur v (S n) a p = Ok (nan_ f).
Proof.
  intros H. cbn [lmgamma_recur]. replace (p =? 1)%Z with false by (symmetry; apply Z.eqb_neq; lia).
  replace (p <? 1)%Z with true by (symmetry; apply Z.ltb_lt; lia). destruct (is_nan a); auto.
Qed.
Lemma find_whole_int x n : has_val x (IZR n) -> in_range I64 n -> find_whole x = Ok n.
Proof.
  intros V R. unfold find_whole. rewrite (floor_id x n V). cbn [bind]. destruct V as (Fx & V).
  assert (E0 : has_val (x -. x) 0).
  { destruct (fsub_exact x x Fx Fx) as [A C]; rewrite ?Rminus_eq_0, ?Rabs_R0; try apply bpow_gt_0.
    apply generic_format_0. split; auto. rewrite A. ring. }
  rewrite half_le by (rewrite abs_finite; apply E0). rewrite abs_B2R, (proj2 E0), Rabs_R0.
  rewrite Rle_bool_false by lra. rewrite fcast_ok; auto; rewrite V, Ztrunc_IZR; auto.
Qed.
Lemma tgamma_dom n x k : has_val x (IZR k) -> (- 2 ^ 63 <= k < 0)%Z -> tgamma_check v (S n) x = Ok (nan_ f).
Proof.
  intros V Hk. destruct V as (Fx & V). cbn [tgamma_check]. rewrite finite_not_nan by auto.
  assert (K : B2R x <= -1). { rewrite V. apply IZR_le. lia. }
  destruct (one_val f) as (F1 & E1).
  assert (B63 : IZR (2 ^ 63) + 1 <= bpow radix2 64).
  { rewrite bpow_IZR by lia. rewrite <- plus_IZR. apply IZR_le. cbv. discriminate. }
  assert (K63 : - IZR (2 ^ 63) <= B2R x). { rewrite V, <- opp_IZR. apply IZR_le. lia. }
  destruct (fsub_spec x (ofZ f 1) Fx F1) as [Es Fs].
  { rewrite E1. apply rnd_lt_emax_bpow with 64%Z. destruct f; vm_compute; split; discriminate || reflexivity.
    rewrite Rabs_left by lra. lra. }
  rewrite below_min by auto. rewrite Rlt_bool_false.
  2:{ rewrite Es, E1, rnd_abs. apply rnd_ge_fmt. apply fmt_bpow. unfold emin; destruct f; cbn; lia.
      rewrite Rabs_left by lra. pose proof (fmin_small f). lra. }
  rewrite below_min by auto. rewrite Rlt_bool_false. 2:{ pose proof (fmin_small f). rewrite Rabs_left by lra. lra. }
  rewrite flt_true; [|auto|apply zero_val|rewrite (proj2 (zero_val f)); lra].
  rewrite (find_whole_int x k); [|split; auto|split; cbn; lia]. cbn [bind].
  assert (EX : ofZ f k = x).
  { assert (R : rnd f (IZR k) = IZR k) by (rewrite <- V; apply rnd_B2R).
    destruct (ofZ_gen f k) as (A & B & _). { rewrite R, <- V. apply B2R_lt_emax. }
    rewrite R in A. apply flt_inj_nz; auto; lra. }
  rewrite EX.
  assert (E0 : has_val (x -. x) 0).
  { destruct (fsub_exact x x Fx Fx) as [A C]; rewrite ?Rminus_eq_0, ?Rabs_R0; try apply bpow_gt_0.
    apply generic_format_0. split; auto. rewrite A. ring. }
  rewrite below_min by apply E0. rewrite (proj2 E0), Rabs_R0, Rlt_bool_true; auto. apply bpow_gt_0.
Qed.
End Domain.
Lemma pow_dom v (a : arg) g (y : flt g) :
  match a with AInt _ x => (x < 0)%Z | AFlt f x => below x 0 end ->
  gcem_pow v a (AFlt g y) = Ok (AFlt _ (nan_ (cr_fmt a (AFlt g y)))).
Proof.
  intros H. unfold gcem_pow. destruct a as [t x|f x].
  - replace (x <? 0)%Z with true by (symmetry; apply Z.ltb_lt; auto). reflexivity.
  - rewrite below_ofZ by (auto; lia). reflexivity.
Qed.
Lemma api_domain_neg v f (x : flt f) : below x 0 ->
  gcem_sqrt (AFlt f x) = Ok (nan_ f) /\ gcem_inv_sqrt (AFlt f x) = Ok (nan_ f) /\ gcem_log v (AFlt f x) = Ok (nan_ f) /\
  gcem_log2 v (AFlt f x) = Ok (nan_ f) /\ gcem_log10 v (AFlt f x) = Ok (nan_ f).
Proof. intros H. exact (conj (sqrt_dom x H) (conj (inv_sqrt_dom x H) (conj (log_dom v x H) (conj (log2_dom v x H) (log10_dom v x H))))). Qed.
Lemma api_domain_one v f (x : flt f) : above x 1 \/ below x (-1) ->
  gcem_asin v (AFlt f x) = Ok (nan_ f) /\ gcem_acos v (AFlt f x) = Ok (nan_ f) /\ gcem_atanh v (AFlt f x) = Ok (nan_ f) /\
  gcem_erf_inv v (AFlt f x) = Ok (nan_ f).
Proof. intros H. exact (conj (asin_dom v x H) (conj (acos_dom v x H) (conj (atanh_dom v x H) (erf_inv_dom v x H)))). Qed.
