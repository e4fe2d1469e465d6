(** * Conversions between floating-point formats, literals *)
From Coq Require Import Lra Psatz.
From Verif Require Import Base FltLemmas.
Open Scope R_scope.

Lemma conv_spec {f} g (x : flt f) : finite x = true -> Rabs (rnd g (B2R x)) < bpow radix2 (emax g) ->
  B2R (conv g x) = rnd g (B2R x) /\ finite (conv g x) = true /\ Bsign (conv g x) = Bsign x.
Proof.
  intros Hx L. destruct x as [s|s| |s m e H]; try discriminate.
  - cbn. rewrite rnd_0. auto.
  - cbn [conv B2R finite Bsign] in * .
    pose proof (binary_normalize_correct (prec g) (emax g) _ _ mode_NE (cond_Zopp s (Zpos m)) e s) as C.
    cbv zeta in C. change (round_mode mode_NE) with ZnearestE in C.
    change (round radix2 (fexpf g) ZnearestE (F2R (Float radix2 (cond_Zopp s (Zpos m)) e))) with
      (rnd g (F2R (Float radix2 (cond_Zopp s (Zpos m)) e))) in C.
    rewrite Rlt_bool_true in C by exact L. destruct C as (A & B & S). split; [exact A|]. split; [exact B|].
    rewrite S. destruct s; cbn [cond_Zopp].
    + rewrite Rcompare_Lt; auto. apply F2R_lt_0. reflexivity.
    + rewrite Rcompare_Gt; auto. apply F2R_gt_0. reflexivity.
Qed.
Lemma conv_nan {f} g : conv g (B754_nan : flt f) = B754_nan.
Proof. reflexivity. Qed.
Lemma conv_inf {f} g s : conv g (B754_infinity s : flt f) = B754_infinity s.
Proof. reflexivity. Qed.

Definition wider (f g : fmt) : Prop := (prec f <= prec g)%Z /\ (emax f <= emax g)%Z.
Lemma wider_format {f} g (x : flt f) : wider f g -> generic_format radix2 (fexpf g) (B2R x).
Proof.
  intros (Hp & He). pose proof (fmt_format x) as G.
  apply FLT_format_generic in G; [|exact (prec_pos f)]. destruct G as [[m e] E M Ex]. cbn [Fnum Fexp] in * .
  change (emin f <= e)%Z in Ex. rewrite E. apply fmt_F2R.
  - eapply Z.lt_le_trans; [exact M|]. apply Z.pow_le_mono_r; simpl; lia.
  - unfold emin in * . lia.
Qed.
Lemma conv_exact {f} g (x : flt f) : wider f g -> finite x = true ->
  B2R (conv g x) = B2R x /\ finite (conv g x) = true /\ Bsign (conv g x) = Bsign x.
Proof.
  intros W Hx. pose proof (wider_format g x W) as G.
  destruct (conv_spec g x Hx) as (A & B & C); rewrite rnd_id in * by auto; auto.
  eapply Rlt_le_trans; [apply B2R_lt_emax|]. apply bpow_le. destruct W; auto.
Qed.
Lemma wider_refl f : wider f f.
Proof. split; lia. Qed.
Lemma conv_id {f} (x : flt f) : conv f x = x.
Proof.
  destruct (finite x) eqn:Hx.
  - destruct (conv_exact f x (wider_refl f) Hx) as (A & B & C). apply flt_inj; auto.
  - destruct x; try discriminate; reflexivity.
Qed.
Lemma conv_fneg {f} g (x : flt f) : conv g (-. x) = -. (conv g x).
Proof.
  destruct x as [s|s| |s m e H]; try reflexivity. cbn [conv fneg Bopp].
  unfold fneg. 
  pose proof (binary_normalize_correct (prec g) (emax g) _ _ mode_NE (cond_Zopp s (Zpos m)) e s) as C.
  pose proof (binary_normalize_correct (prec g) (emax g) _ _ mode_NE (cond_Zopp (negb s) (Zpos m)) e (negb s)) as D.
  cbv zeta in C, D. change (round_mode mode_NE) with ZnearestE in C, D.
  set (X := F2R (Float radix2 (cond_Zopp s (Zpos m)) e)) in * .
  assert (E : F2R (Float radix2 (cond_Zopp (negb s) (Zpos m)) e) = - X).
  { unfold X. rewrite <- F2R_Zopp. f_equal. destruct s; reflexivity. }
  assert (X0 : Rcompare X 0 = if s then Lt else Gt).
  { unfold X. destruct s; cbn [cond_Zopp]. apply Rcompare_Lt, F2R_lt_0; reflexivity. apply Rcompare_Gt, F2R_gt_0; reflexivity. }
  assert (X1 : Rlt_bool X 0 = s).
  { unfold X. destruct s; cbn [cond_Zopp]. apply Rlt_bool_true, F2R_lt_0; reflexivity. apply Rlt_bool_false. left. apply F2R_gt_0; reflexivity. }
  assert (Y0 : Rcompare (- X) 0 = if s then Gt else Lt).
  { unfold X. destruct s; cbn [cond_Zopp]. apply Rcompare_Gt. rewrite <- F2R_Zopp. apply F2R_gt_0; reflexivity.
    apply Rcompare_Lt. rewrite <- F2R_Zopp. apply F2R_lt_0; reflexivity. }
  assert (Y1 : Rlt_bool (- X) 0 = negb s).
  { unfold X. destruct s; cbn [cond_Zopp negb]. apply Rlt_bool_false. left. rewrite <- F2R_Zopp. apply F2R_gt_0; reflexivity.
    apply Rlt_bool_true. rewrite <- F2R_Zopp. apply F2R_lt_0; reflexivity. }
  rewrite E, Y0, Y1, round_NE_opp, Rabs_Ropp in D. rewrite X0, X1 in C.
  destruct (Rlt_bool (Rabs (round radix2 (fexpf g) ZnearestE X)) (bpow radix2 (emax g))).
  - destruct C as (C1 & C2 & C3). destruct D as (D1 & D2 & D3). apply flt_inj.
    + exact D2.
    + rewrite is_finite_Bopp. exact C2.
    + rewrite B2R_Bopp. etransitivity; [exact D1|]. f_equal. symmetry. exact C1.
    + rewrite Bsign_Bopp. { etransitivity; [exact D3|]. etransitivity; [|apply (f_equal negb); symmetry; exact C3]. destruct s; reflexivity. }
      destruct (binary_normalize _ _ _ _ _ _ _ _); try discriminate; reflexivity.
  - apply B2SF_inj. etransitivity; [exact D|]. 
    destruct (binary_normalize (prec g) (emax g) (fmt_prec_gt_0 g) (fmt_prec_lt_emax g) mode_NE (cond_Zopp s (Z.pos m)) e s) eqn:Q;
    rewrite ?Q in C; cbn in C |- * ; try discriminate; inversion C; reflexivity.
Qed.
Lemma conv_fneg_finite {f} g (x : flt f) : finite (conv g (-. x)) = finite (conv g x).
Proof. rewrite conv_fneg. apply fneg_finite. Qed.

(** The two formats of a common return type. *)
Lemma wider_total f g : wider f g \/ wider g f.
Proof. destruct f, g; unfold wider; simpl; lia. Qed.
