(** * lmgamma with a floating-point second argument *)
From Verif Require Import Base ModelBasic ModelInt ModelElem ModelSpecial ModelApi ModelMore FltLemmas ConvLemmas Spec BasicProofs TotalProofs.
From Coq Require Import Lra Psatz.
Open Scope R_scope.

Lemma sub1_exact {g} (p : flt g) : finite p = true -> 1 < B2R p -> (forall k, B2R p <> IZR k) ->
  finite (p -. ofZ g 1) = true /\ B2R (p -. ofZ g 1) = B2R p - 1.
Proof.
  intros F L N. destruct (ofZ_small g 1 ltac:(lia)) as (V1 & F1 & _). change (IZR 1) with 1 in V1.
  assert (G : generic_format radix2 (fexpf g) (B2R p)) by apply generic_format_B2R.
  assert (G1 : generic_format radix2 (fexpf g) (B2R p - 1)).
  { set (e := cexp radix2 (fexpf g) (B2R p)). set (m := Ztrunc (scaled_mantissa radix2 (fexpf g) (B2R p))). assert (E : B2R p = IZR m * bpow radix2 e) by exact G.
    destruct (Z_le_gt_dec 0 e) as [P|P].
    - exfalso. apply (N (m * 2 ^ e)%Z). rewrite E, mult_IZR. f_equal. rewrite <- (IZR_Zpower radix2) by auto. reflexivity.
    - replace (B2R p - 1) with (F2R (Float radix2 (m - 2 ^ (- e)) e)).
      + apply generic_format_F2R. intros _. assert (Q : F2R (Float radix2 (m - 2 ^ (- e)) e) = B2R p - 1). { unfold F2R. cbn [Fnum Fexp]. rewrite minus_IZR, Rmult_minus_distr_r, <- E. change 2%Z with (radix_val radix2). rewrite (IZR_Zpower radix2) by lia. rewrite <- bpow_plus. replace (- e + e)%Z with 0%Z by ring. reflexivity. }
        rewrite Q. unfold e, cexp. assert (M := mag_le radix2 (B2R p - 1) (B2R p) ltac:(lra) ltac:(lra)). revert M. generalize (mag radix2 (B2R p - 1) : Z) (mag radix2 (B2R p) : Z). clear. intros a b M. unfold fexpf, SpecFloat.fexp. lia.
      + unfold F2R. cbn [Fnum Fexp]. rewrite minus_IZR, Rmult_minus_distr_r, <- E. change 2%Z with (radix_val radix2). rewrite (IZR_Zpower radix2) by lia. rewrite <- bpow_plus. replace (- e + e)%Z with 0%Z by ring. reflexivity. }
  destruct (fsub_spec p (ofZ g 1) F F1) as (V & Fs). { rewrite V1, rnd_id by auto. assert (B := abs_B2R_lt_emax (prec g) (emax g) p). apply Rabs_lt_inv in B. apply Rabs_lt. lra. }
  split. exact Fs. rewrite V, V1. apply rnd_id. exact G1.
Qed.
Lemma nan_add_r {h} (x : flt h) : x +. B754_nan = B754_nan.
Proof. destruct x as [[]|[]| |[] ? ? ?]; reflexivity. Qed.
Lemma lmg_nonint v {f g} : forall (n : nat) (a : flt f) (p : flt g), finite p = true -> (forall k, B2R p <> IZR k) -> B2R p < INR n -> (0 < n)%nat ->
  lmgamma_recur_flt v n a p = Ok (B754_nan : flt f).
Proof.
  induction n as [|n IH]; intros a p F N L P; [lia|]. cbn [lmgamma_recur_flt]. destruct (is_nan a). reflexivity.
  destruct (ofZ_small g 1 ltac:(lia)) as (V1 & F1 & _). change (IZR 1) with 1 in V1.
  rewrite feq_spec, flt_spec by auto. rewrite V1. assert (NE := N 1%Z). rewrite Req_bool_false by exact NE.
  destruct (Rlt_bool_spec (B2R p) 1) as [Q|Q]. reflexivity.
  destruct (lgamma_ok v a) as (l & ->). cbn [bind]. destruct (sub1_exact p F) as (Fs & Vs). change (IZR 1) with 1 in NE. lra. exact N.
  rewrite S_INR in L. rewrite (IH _ _ Fs). 
  - cbn [bind]. rewrite conv_nan, nan_add_r, conv_nan. reflexivity.
  - intros k E. apply (N (k + 1)%Z). rewrite plus_IZR. lra.
  - lra.
  - destruct n. cbn in L. lra. lia.
Qed.
Lemma lmg_int v {f g} : fmt_max f g = f -> forall (n : nat) (a : flt f) (p : flt g) k, finite p = true -> B2R p = IZR k -> (1 <= k <= 16777216)%Z ->
  lmgamma_recur_flt v n a p = lmgamma_recur v n a k.
Proof.
  intros W. induction n as [|n IH]; intros a p k F V K. reflexivity. cbn [lmgamma_recur_flt lmgamma_recur]. destruct (is_nan a). reflexivity.
  destruct (ofZ_small g 1 ltac:(lia)) as (V1 & F1 & _). destruct (ofZ_small g k ltac:(lia)) as (Vk & Fk & _).
  assert (EP : p = ofZ g k). { apply flt_inj_nz; auto. congruence. rewrite V. apply IZR_neq. lia. } 
  rewrite feq_spec, flt_spec by auto. rewrite V, V1.
  destruct (Z.eqb_spec k 1) as [->|NK]. rewrite Req_bool_true; reflexivity. rewrite Req_bool_false by (apply IZR_neq; exact NK).
  replace (k <? 1)%Z with false by (symmetry; apply Z.ltb_ge; lia). rewrite Rlt_bool_false by (apply IZR_le; lia).
  destruct (lgamma_ok v a) as (l & ->). cbn [bind].
  assert (S : finite (p -. ofZ g 1) = true /\ B2R (p -. ofZ g 1) = IZR (k - 1)). { destruct (ofZ_small g (k - 1) ltac:(lia)) as (Vm & Fm & _). assert (R1 : rnd g (B2R p - B2R (ofZ g 1)) = IZR (k - 1)). { rewrite V, V1, <- minus_IZR, <- Vm. apply rnd_id. apply generic_format_B2R. } destruct (fsub_spec p (ofZ g 1) F F1) as (A & B). rewrite R1, <- Vm. apply abs_B2R_lt_emax. split. exact B. rewrite A. exact R1. }
  destruct S as (Fs & Vs). rewrite (IH _ _ (k - 1)%Z Fs Vs ltac:(lia)).
  assert (WC : conv f p = ofZ f k). { assert (WW : wider g f) by (destruct f, g; try discriminate; unfold wider; cbn; lia). destruct (conv_exact f p WW F) as (A & B & _). destruct (ofZ_small f k ltac:(lia)) as (Vk' & Fk' & _). apply flt_inj_nz; auto. congruence. rewrite A, V. apply IZR_neq. lia. }
  destruct (lmgamma_recur v n (a -. half f) (k - 1)) as [r| |]; cbn [bind]; [|reflexivity|reflexivity]. rewrite W, !conv_id, WC. reflexivity.
Qed.
Lemma sub_half_nan {f} (a : flt f) : is_nan a = false -> is_nan (a -. half f) = false.
Proof.
  intros N. destruct (half_spec f) as (V & F). destruct (finite a) eqn:Fa.
  - pose proof (Bminus_correct (prec f) (emax f) _ _ mode_NE a (half f) Fa F) as C. simpl in C. destruct (Rlt_bool _ _).
    + apply finite_not_nan. apply C.
    + destruct C as (C & _). unfold is_nan, fsub. destruct (Bminus mode_NE a (half f)) as [s|s| |s m e H]; cbn in C; try discriminate. destruct s; reflexivity.
  - destruct a as [s|s| |s m e H]; try discriminate. unfold fsub. destruct (half f) as [t|t| |t m e H]; try discriminate; destruct s; reflexivity.
Qed.
Lemma lmg_loop v {f g} (p : flt g) : (p ==. ofZ g 1) = false -> (p <. ofZ g 1) = false -> p -. ofZ g 1 = p -> forall n (a : flt f), is_nan a = false -> lmgamma_recur_flt v n a p = NoFuel.
Proof.
  intros A B C. induction n as [|n IH]; intros a N. reflexivity. cbn [lmgamma_recur_flt]. rewrite N, A, B, C. destruct (lgamma_ok v a) as (l & ->). cbn [bind]. rewrite IH. reflexivity.
  apply sub_half_nan. exact N.
Qed.
Lemma api_lmg_int : forall v n f g (a : flt f) (p : flt g) k, (prec g <= prec f)%Z -> finite p = true -> B2R p = IZR k -> (1 <= k <= 16777216)%Z ->
  gcem_lmgamma_flt v n (AFlt f a) p = gcem_lmgamma v n (AFlt f a) k.
Proof. intros v n f g a p k W. apply lmg_int. destruct f, g; try reflexivity; exfalso; cbn in W; lia. Qed.
Lemma api_lmg_nonint : forall v n f g (a : flt f) (p : flt g), finite p = true -> (forall k, B2R p <> IZR k) -> B2R p < INR n -> (0 < n)%nat ->
  gcem_lmgamma_flt v n (AFlt f a) p = Ok B754_nan.
Proof. intros. apply lmg_nonint; auto. Qed.
Lemma api_lmg_neg : forall v n f g (a : flt f) (p : flt g), finite p = true -> B2R p < 1 -> gcem_lmgamma_flt v (S n) (AFlt f a) p = Ok B754_nan.
Proof.
  intros v n f g a p F L. unfold gcem_lmgamma_flt. cbn [ret_fmt ret_val lmgamma_recur_flt]. destruct (is_nan a). reflexivity.
  destruct (ofZ_small g 1 ltac:(lia)) as (V1 & F1 & _). change (IZR 1) with 1 in V1. rewrite feq_spec, flt_spec by auto. rewrite V1, Req_bool_false by lra. rewrite Rlt_bool_true by lra. reflexivity.
Qed.
Lemma api_lmg_loop : forall v n f g (a : flt f) (p : flt g), is_nan a = false -> p = B754_nan \/ p = B754_infinity false -> gcem_lmgamma_flt v n (AFlt f a) p = NoFuel.
Proof.
  intros v n f g a p N H. apply lmg_loop; auto; destruct (ofZ_small g 1 ltac:(lia)) as (V1 & F1 & _); destruct H; subst p; destruct (ofZ g 1) as [t|t| |t m e B]; try discriminate; reflexivity.
Qed.
