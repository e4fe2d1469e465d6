(** * Running error analysis.
    [approx w r A] says that the float [w] is finite and was computed for the real
    [r], where [A] encloses [r] and bounds |w - r| in units of 2^-prec. The
    functions [aadd], [asub], [amul], [adiv] compute such bounds for the result
    of a floating-point operation, uniformly for the three formats. *)
From Verif Require Import Base FltLemmas ConvLemmas PF.
From Coq Require Import Lra Psatz PrimFloat.
Open Scope R_scope.

Definition uf (f : fmt) : R := bpow radix2 (- prec f).
Lemma uf_pos f : 0 < uf f.
Proof. apply bpow_gt_0. Qed.
(** Largest unit, bound of the underflow term in units, magnitude limit. *)
Definition U : pf := 0x1p-24%float.
Definition T : pf := 0x1p-80%float.
Definition BIG : pf := 0x1p64%float.
Lemma U_val : isr U = true /\ rv U = bpow radix2 (-24).
Proof. destruct (lit U 4503599627370496 (-76) eq_refl) as (H & V). split; [exact H|]. rewrite V. cbn. lra. Qed.
Lemma T_val : isr T = true /\ rv T = bpow radix2 (-80).
Proof. destruct (lit T 4503599627370496 (-132) eq_refl) as (H & V). split; [exact H|]. rewrite V. cbn. lra. Qed.
Lemma BIG_val : isr BIG = true /\ rv BIG = bpow radix2 64.
Proof. destruct (lit BIG 4503599627370496 12 eq_refl) as (H & V). split; [exact H|]. rewrite V. cbn. lra. Qed.
Lemma uf_le f : uf f <= bpow radix2 (-24).
Proof. apply bpow_le. destruct f; discriminate. Qed.

Record aval := AV { lo : pf; hi : pf; er : pf }.
Definition approx {f} (w : flt f) (r : R) (A : aval) : Prop :=
  finite w = true /\ (isr (lo A) = true /\ isr (hi A) = true /\ isr (er A) = true) /\
  (rv (lo A) <= r <= rv (hi A)) /\ Rabs (B2R w - r) <= rv (er A) * uf f.
Definition mag2 (l h : pf) : pf := mx (ng l) h.
Definition mg (A : aval) : pf := mag2 (lo A) (hi A).
Lemma mag2_ok l h r : isr l = true -> isr h = true -> rv l <= r <= rv h -> isr (mag2 l h) = true /\ Rabs r <= rv (mag2 l h).
Proof.
  intros L H B. destruct (ng_real l L) as (N & V). unfold mag2. destruct (mx_ok _ _ N H) as (M & W). split; auto. rewrite W, V.
  apply Rabs_le. pose proof (Rmax_l (- rv l) (rv h)). pose proof (Rmax_r (- rv l) (rv h)). lra.
Qed.
Lemma approx_mg {f} (w : flt f) r A : approx w r A -> ub (mg A) (Rabs r).
Proof. intros (_ & (L & H & _) & B & _). destruct (mag2_ok _ _ r L H B). apply ub_intro; auto. Qed.
Lemma approx_er {f} (w : flt f) r A : approx w r A -> ub (er A) (rv (er A)) /\ 0 <= rv (er A).
Proof.
  intros (_ & (_ & _ & H) & _ & E). split. apply ub_intro; auto. lra. pose proof (Rabs_pos (B2R w - r)). pose proof (uf_pos f). nra.
Qed.
Lemma approx_lb {f} (w : flt f) r A : approx w r A -> lb (lo A) r.
Proof. intros (_ & (L & _ & _) & B & _). apply lb_intro; auto. lra. Qed.
Lemma approx_ub {f} (w : flt f) r A : approx w r A -> ub (hi A) r.
Proof. intros (_ & (_ & H & _) & B & _). apply ub_intro; auto. lra. Qed.

(** Generic closing step: [z] is the exact result of the operation on the
    floats, [r] on the reals. *)
Definition close (l h e : pf) : option aval :=
  let m := mag2 l h in
  let eU := mu e U in
  let e' := au (au e eU) (au m T) in
  if (isr l && isr h && ltF (au m eU) BIG && isr e')%bool then Some (AV l h e') else None.
Lemma eta_le f : bpow radix2 (emin f - 1) <= bpow radix2 (-80) * uf f.
Proof. unfold uf. rewrite <- bpow_plus. apply bpow_le. unfold emin. destruct f; discriminate. Qed.
Lemma close_ok {f} (w : flt f) z r l h e eps A : close l h e = Some A ->
  (Rabs (rnd f z) < bpow radix2 (emax f) -> B2R w = rnd f z /\ finite w = true) ->
  lb l r -> ub h r -> 0 <= eps -> ub e eps -> Rabs (z - r) <= eps * uf f -> approx w r A.
Proof.
  unfold close. destruct (isr l) eqn:Rl; [|discriminate]. destruct (isr h) eqn:Rh; [|discriminate].
  destruct (ltF _ _) eqn:LT; [|discriminate]. destruct (isr (au _ _)) eqn:Re; [|discriminate]. cbn [andb]. intros Q W Hl Hh E0 He Hz.
  assert (Q' : A = AV l h (au (au e (mu e U)) (au (mag2 l h) T))) by (now injection Q). subst A. clear Q.
  assert (B : rv l <= r <= rv h). { split. apply lb_elim; auto. apply ub_elim; auto. }
  destruct (mag2_ok _ _ r Rl Rh B) as (Rm & Hm). destruct U_val as (RU & VU). destruct T_val as (RT & VT). destruct BIG_val as (_ & VB).
  assert (UU : ub U (uf f)). { apply ub_intro; auto. rewrite VU. apply uf_le. }
  assert (u0 := uf_pos f).
  assert (EU : ub (mu e U) (eps * uf f)). { apply ub_mul; auto. lra. }
  assert (Zm : Rabs z <= Rabs r + eps * uf f). { replace z with (r + (z - r)) by ring. eapply Rle_trans. apply Rabs_triang. lra. }
  assert (Um : ub (mag2 l h) (Rabs r)) by (apply ub_intro; auto).
  destruct (ltF_ok _ _ LT) as (Rb & _ & Lb). assert (Zb := ub_elim _ _ (ub_add _ _ _ _ Um EU) Rb). rewrite VB in Lb.
  assert (Fin : Rabs (rnd f z) < bpow radix2 (emax f)).
  { apply rnd_lt_emax_bpow with 64%Z. split. unfold emin; destruct f; discriminate. destruct f; reflexivity. lra. }
  destruct (W Fin) as (V & F). split; auto. split; auto. split; auto. cbn [er].
  destruct (rnd_err f z) as (a & d & Ha & Hd & _ & Er). rewrite V.
  assert (Tt : ub T (bpow radix2 (-80))). { apply ub_intro; auto. lra. }
  assert (Fi := ub_elim _ _ (ub_add _ _ _ _ (ub_add _ _ _ _ He EU) (ub_add _ _ _ _ Um Tt)) Re).
  apply Rle_trans with ((eps + eps * uf f + (Rabs r + bpow radix2 (-80))) * uf f); [|apply Rmult_le_compat_r; lra].
  replace (rnd f z - r) with ((z - r) + (z * a + d)) by (rewrite Er; ring).
  eapply Rle_trans. apply Rabs_triang. eapply Rle_trans. apply Rplus_le_compat_l. apply Rabs_triang. rewrite Rabs_mult.
  assert (Rabs z * Rabs a <= (Rabs r + eps * uf f) * uf f). { apply Rmult_le_compat; auto using Rabs_pos. }
  pose proof (eta_le f). lra.
Qed.

(** ** Operations *)
Definition aadd (A B : aval) : option aval := close (ad (lo A) (lo B)) (au (hi A) (hi B)) (au (er A) (er B)).
Definition asub (A B : aval) : option aval := close (sd (lo A) (hi B)) (su (hi A) (lo B)) (au (er A) (er B)).
(** Non-negative factors. *)
Definition amul (A B : aval) : option aval :=
  if (nonneg (lo A) && nonneg (lo B))%bool then
    close (mx 0 (md (lo A) (lo B))) (mu (hi A) (hi B))
          (au (au (mu (hi A) (er B)) (mu (hi B) (er A))) (mu (mu (er A) U) (er B)))
  else None.
(** Quotient bounds for a positive denominator in [l,h]. *)
Definition qlo (a l h : pf) : pf := if nonneg a then mx 0 (dd a h) else ng (du (ng a) l).
Definition qhi (b l h : pf) : pf := if nonneg b then du b l else ng (dd (ng b) h).
Definition adiv (A B : aval) : option aval :=
  let l' := sd (lo B) (mu (er B) U) in
  if (pos (lo B) && pos l')%bool then
    close (qlo (lo A) (lo B) (hi B)) (qhi (hi A) (lo B) (hi B)) (du (au (er A) (mu (du (mg A) (lo B)) (er B))) l')
  else None.
Definition aneg (A : aval) : aval := AV (ng (hi A)) (ng (lo A)) (er A).
Definition aint (z : Z) : aval := AV (ofZd z) (ofZu z) 0.

Lemma aadd_ok {f} (x y : flt f) r s A B C : approx x r A -> approx y s B -> aadd A B = Some C -> approx (x +. y) (r + s) C.
Proof.
  intros HA HB Q. destruct (approx_er _ _ _ HA) as (EA & NA). destruct (approx_er _ _ _ HB) as (EB & NB).
  refine (close_ok (x +. y) (B2R x + B2R y) (r + s) _ _ _ _ C Q _ (lb_add _ _ _ _ (approx_lb _ _ _ HA) (approx_lb _ _ _ HB)) (ub_add _ _ _ _ (approx_ub _ _ _ HA) (approx_ub _ _ _ HB)) _ (ub_add _ _ _ _ EA EB) _).
  - intros H. apply fadd_spec; auto; [apply HA|apply HB].
  - lra.
  - replace (B2R x + B2R y - (r + s)) with ((B2R x - r) + (B2R y - s)) by ring. eapply Rle_trans. apply Rabs_triang.
    rewrite Rmult_plus_distr_r. apply Rplus_le_compat; [apply HA|apply HB].
Qed.
Lemma asub_ok {f} (x y : flt f) r s A B C : approx x r A -> approx y s B -> asub A B = Some C -> approx (x -. y) (r - s) C.
Proof.
  intros HA HB Q. destruct (approx_er _ _ _ HA) as (EA & NA). destruct (approx_er _ _ _ HB) as (EB & NB).
  refine (close_ok (x -. y) (B2R x - B2R y) (r - s) _ _ _ _ C Q _ (lb_sub _ _ _ _ (approx_lb _ _ _ HA) (approx_ub _ _ _ HB)) (ub_sub _ _ _ _ (approx_ub _ _ _ HA) (approx_lb _ _ _ HB)) _ (ub_add _ _ _ _ EA EB) _).
  - intros H. apply fsub_spec; auto; [apply HA|apply HB].
  - lra.
  - replace (B2R x - B2R y - (r - s)) with ((B2R x - r) - (B2R y - s)) by ring. eapply Rle_trans. apply Rabs_triang.
    rewrite Rabs_Ropp, Rmult_plus_distr_r. apply Rplus_le_compat; [apply HA|apply HB].
Qed.
Lemma amul_ok {f} (x y : flt f) r s A B C : approx x r A -> approx y s B -> amul A B = Some C -> approx (x *. y) (r * s) C.
Proof.
  intros HA HB. unfold amul. destruct (nonneg (lo A)) eqn:NA; [|discriminate]. destruct (nonneg (lo B)) eqn:NB; [|discriminate]. cbn [andb]. intros Q.
  destruct (approx_er _ _ _ HA) as (EA & A0). destruct (approx_er _ _ _ HB) as (EB & B0).
  destruct (nonneg_ok _ NA) as (_ & LA). destruct (nonneg_ok _ NB) as (_ & LB).
  assert (Pr : rv (lo A) <= r) by apply HA. assert (Ps : rv (lo B) <= s) by apply HB.
  assert (R0 : 0 <= r) by lra. assert (S0 : 0 <= s) by lra. assert (u0 := uf_pos f).
  assert (Uu : ub U (uf f)). { destruct U_val as (RU & VU). apply ub_intro; auto. rewrite VU. apply uf_le. }
  assert (Ha := approx_ub _ _ _ HA). assert (Hb := approx_ub _ _ _ HB).
  refine (close_ok (x *. y) (B2R x * B2R y) (r * s) _ _ _ (r * rv (er B) + s * rv (er A) + rv (er A) * uf f * rv (er B)) C Q _ _ _ _ _ _).
  - intros H. apply fmul_spec; auto; [apply HA|apply HB].
  - apply lb_mx0. nra. apply lb_mul; auto.
  - apply ub_mul; auto.
  - assert (0 <= rv (er A) * uf f * rv (er B)). { apply Rmult_le_pos; auto. apply Rmult_le_pos; lra. } nra.
  - apply ub_add. apply ub_add; apply ub_mul; auto. apply ub_mul; auto. apply Rmult_le_pos; lra. apply ub_mul; auto. lra.
  - replace (B2R x * B2R y - r * s) with (r * (B2R y - s) + s * (B2R x - r) + (B2R x - r) * (B2R y - s)) by ring.
    assert (XA : Rabs (B2R x - r) <= rv (er A) * uf f) by apply HA. assert (XB : Rabs (B2R y - s) <= rv (er B) * uf f) by apply HB.
    eapply Rle_trans. apply Rabs_triang. eapply Rle_trans. apply Rplus_le_compat_r. apply Rabs_triang. rewrite !Rabs_mult.
    rewrite (Rabs_pos_eq r), (Rabs_pos_eq s) by auto.
    assert (r * Rabs (B2R y - s) <= r * (rv (er B) * uf f)) by (apply Rmult_le_compat_l; auto).
    assert (s * Rabs (B2R x - r) <= s * (rv (er A) * uf f)) by (apply Rmult_le_compat_l; auto).
    assert (Rabs (B2R x - r) * Rabs (B2R y - s) <= (rv (er A) * uf f) * (rv (er B) * uf f)) by (apply Rmult_le_compat; auto using Rabs_pos).
    lra.
Qed.
Lemma qlo_ok a l h r s : isr a = true -> rv a <= r -> pos l = true -> rv l <= s -> isr h = true -> s <= rv h -> lb (qlo a l h) (r / s).
Proof.
  intros Ra La Pl Ll Rh Lh. destruct (pos_ok _ Pl) as (Rl & L0). assert (S0 : 0 < s) by lra. assert (I0 : 0 < / s) by (apply Rinv_0_lt_compat; auto).
  unfold qlo. destruct (nonneg a) eqn:N.
  - destruct (nonneg_ok _ N). apply lb_mx0. apply Rmult_le_pos; lra. apply lb_div; auto.
  - assert (A0 := nonneg_false _ Ra N). destruct (ng_real _ Ra) as (Rn & Vn). apply lb_le with (- (- rv a / s)).
    + apply lb_ng. apply ub_div; auto. lra. apply ub_intro; auto. lra.
    + unfold Rdiv. nra.
Qed.
Lemma qhi_ok b l h r s : isr b = true -> r <= rv b -> pos l = true -> rv l <= s -> isr h = true -> s <= rv h -> ub (qhi b l h) (r / s).
Proof.
  intros Rb Lb Pl Ll Rh Lh. destruct (pos_ok _ Pl) as (Rl & L0). assert (S0 : 0 < s) by lra. assert (I0 : 0 < / s) by (apply Rinv_0_lt_compat; auto).
  unfold qhi. destruct (nonneg b) eqn:N.
  - destruct (nonneg_ok _ N) as (_ & N0). apply ub_le with (rv b / s). apply ub_div; auto. apply ub_intro; auto. lra. unfold Rdiv. nra.
  - assert (A0 := nonneg_false _ Rb N). destruct (ng_real _ Rb) as (Rn & Vn). apply ub_le with (- (- rv b / s)).
    + apply ub_ng. apply lb_div; auto. 2: lra. apply nonneg_intro; auto; lra.
    + unfold Rdiv. nra.
Qed.
Lemma adiv_ok {f} (x y : flt f) r s A B C : approx x r A -> approx y s B -> adiv A B = Some C -> approx (x /. y) (r / s) C.
Proof.
  intros HA HB. unfold adiv. destruct (pos (lo B)) eqn:PB; [|discriminate]. destruct (pos (sd (lo B) _)) eqn:PB'; [|discriminate]. cbn [andb]. intros Q.
  destruct (approx_er _ _ _ HA) as (EA & A0). destruct (approx_er _ _ _ HB) as (EB & B0). assert (MA := approx_mg _ _ _ HA).
  destruct (pos_ok _ PB) as (RB & LB). destruct (pos_ok _ PB') as (RB' & LB'). assert (u0 := uf_pos f).
  assert (Uu : ub U (uf f)). { destruct U_val as (RU & VU). apply ub_intro; auto. rewrite VU. apply uf_le. }
  assert (XA : Rabs (B2R x - r) <= rv (er A) * uf f) by apply HA. assert (XB : Rabs (B2R y - s) <= rv (er B) * uf f) by apply HB.
  destruct HA as (Fx & (RlA & RhA & _) & (L1 & L2) & _), HB as (Fy & (RlB & RhB & _) & (L3 & L4) & _).
  assert (S0 : 0 < s) by lra.
  assert (Y : rv (sd (lo B) (mu (er B) U)) <= B2R y).
  { assert (G : lb (sd (lo B) (mu (er B) U)) (rv (lo B) - rv (er B) * uf f)).
    { apply lb_sub. apply lb_intro; auto. lra. apply ub_mul; auto. lra. } apply lb_elim in G; auto. apply Rabs_le_inv in XB. lra. }
  assert (Y0 : 0 < B2R y) by lra. assert (Iy : 0 < / B2R y) by (apply Rinv_0_lt_compat; auto).
  assert (Is : 0 < / s) by (apply Rinv_0_lt_compat; auto).
  refine (close_ok (x /. y) (B2R x / B2R y) (r / s) _ _ _ ((rv (er A) + Rabs r / s * rv (er B)) / B2R y) C Q _ (qlo_ok _ _ _ _ _ RlA L1 PB L3 RhB L4) (qhi_ok _ _ _ _ _ RhA L2 PB L3 RhB L4) _ _ _).
  - intros H. apply fdiv_spec; auto. lra.
  - assert (N := Rabs_pos r). assert (0 <= Rabs r / s * rv (er B)). { apply Rmult_le_pos; auto. apply Rmult_le_pos; lra. } apply Rmult_le_pos; lra.
  - assert (N := Rabs_pos r). assert (N2 : 0 <= Rabs r / s) by (apply Rmult_le_pos; lra).
    apply ub_div; auto. assert (0 <= Rabs r / s * rv (er B)) by (apply Rmult_le_pos; auto). lra.
    apply ub_add; auto. apply ub_mul; auto. apply ub_div; auto.
  - replace (B2R x / B2R y - r / s) with (((B2R x - r) - (r / s) * (B2R y - s)) * / B2R y) by (field; lra).
    rewrite Rabs_mult, (Rabs_pos_eq (/ B2R y)) by lra.
    replace ((rv (er A) + Rabs r / s * rv (er B)) / B2R y * uf f) with ((rv (er A) * uf f + (Rabs r * / s) * (rv (er B) * uf f)) * / B2R y) by (unfold Rdiv; ring).
    apply Rmult_le_compat_r. lra. eapply Rle_trans. apply Rabs_triang. rewrite Rabs_Ropp, Rabs_mult. unfold Rdiv. rewrite Rabs_mult, (Rabs_pos_eq (/ s)) by lra.
    apply Rplus_le_compat; auto. apply Rmult_le_compat_l; auto. apply Rmult_le_pos. apply Rabs_pos. lra.
Qed.
Lemma aneg_ok {f} (x : flt f) r A : approx x r A -> approx (-. x) (- r) (aneg A).
Proof.
  intros (F & (R1 & R2 & R3) & (H1 & H2) & H3). split. rewrite fneg_finite; auto. cbn [lo hi er aneg]. rewrite fneg_B2R.
  destruct (ng_real _ R1) as (N1 & ->). destruct (ng_real _ R2) as (N2 & ->). split; auto. split. lra.
  replace (- B2R x - - r) with (- (B2R x - r)) by ring. rewrite Rabs_Ropp; auto.
Qed.
Lemma aint_ok f z : (Z.abs z <= 16777216)%Z -> approx (ofZ f z) (IZR z) (aint z).
Proof.
  intros H. destruct (ofZ_small f z H) as (V & F & _). destruct (ofZ_val z ltac:(lia)) as ((R1 & V1) & (R2 & V2)).
  split; auto. unfold aint. cbn [lo hi er]. rewrite V, V1, V2. split; auto. split. lra. rewrite Rminus_diag_eq, Rabs_R0, rv0 by auto. lra.
Qed.
(** An exact argument in [l,h]. *)
Definition aex (l h : pf) : aval := AV l h 0.
Lemma aexact {f} (x : flt f) l h : finite x = true -> isr l = true -> isr h = true -> rv l <= B2R x <= rv h -> approx x (B2R x) (aex l h).
Proof. intros F Rl Rh H. split; auto. split; auto. split; auto. unfold aex. cbn [lo hi er]. rewrite Rminus_diag_eq, Rabs_R0, rv0 by auto. lra. Qed.
(** Conversion to another format. *)
Lemma awiden_ok {f} g (x : flt f) r A e : wider f g -> approx x r A -> isr e = true -> rv (er A) * uf f <= rv e * uf g -> approx (conv g x) r (AV (lo A) (hi A) e).
Proof. intros W (F & (R1 & R2 & R3) & H1 & H2) Re L. destruct (conv_exact g x W F) as (V & F2 & _). split; auto. split; auto. split; auto. rewrite V. cbn [er]. lra. Qed.

(** ** Covering an interval by pieces of width 2^-s *)
Fixpoint allZ (n : nat) (k : Z) (P : Z -> bool) : bool := match n with O => true | S m => P k && allZ m (k + 1) P end.
Lemma allZ_spec n : forall k P, allZ n k P = true -> forall j, (k <= j < k + Z.of_nat n)%Z -> P j = true.
Proof.
  induction n; intros k P H j Hj. lia. cbn [allZ] in H. apply andb_prop in H as (H1 & H2).
  destruct (Z.eq_dec j k) as [->|]; auto. apply (IHn (k + 1)%Z); auto. lia.
Qed.
(** The piece [a/2^s, b/2^s]. *)
Definition dlo (s a : Z) : pf := if (a =? 0)%Z then 0%float else if (0 <? a)%Z then dd (ofZd a) (ofZu (2 ^ s)) else ng (du (ofZu (- a)) (ofZd (2 ^ s))).
Definition dhi (s a : Z) : pf := if (a =? 0)%Z then 0%float else if (0 <? a)%Z then du (ofZu a) (ofZd (2 ^ s)) else ng (dd (ofZd (- a)) (ofZu (2 ^ s))).
Definition dgood (s a : Z) : bool :=
  (isr (dlo s a) && isr (dhi s a) && pos (ofZd (2 ^ s)) && isr (ofZu (2 ^ s)) && nonneg (ofZd (Z.abs a)))%bool.
Lemma dlo_ok s a : (0 <= s)%Z -> dgood s a = true -> isr (dlo s a) = true /\ rv (dlo s a) <= IZR a * bpow radix2 (- s).
Proof.
  intros Hs. unfold dgood. destruct (isr (dlo s a)) eqn:R1; [|discriminate]. destruct (isr (dhi s a)); [|discriminate].
  destruct (pos _) eqn:P1; [|discriminate]. destruct (isr (ofZu _)) eqn:R2; [|discriminate]. cbn [andb]. intros N1. split; auto.
  assert (E : IZR a * bpow radix2 (- s) = IZR a / IZR (2 ^ s)). { rewrite bpow_opp, bpow_IZR by auto. reflexivity. } rewrite E.
  assert (S0 : 0 < IZR (2 ^ s)) by (rewrite <- bpow_IZR by auto; apply bpow_gt_0).
  assert (D := ofZd_ok (2 ^ s)). assert (U2 := ofZu_ok (2 ^ s)). destruct (pos_ok _ P1) as (R3 & _).
  apply lb_elim; auto. unfold dlo in * . destruct (Z.eqb_spec a 0) as [->|]. { apply lb_intro; auto. rewrite rv0. unfold Rdiv. lra. }
  destruct (Z.ltb_spec 0 a).
  - rewrite Z.abs_eq in N1 by lia. destruct (nonneg_ok _ N1) as (R4 & _). apply lb_div; auto. apply lb_elim; auto. apply ofZd_ok. apply ub_elim; auto.
  - replace (IZR a / IZR (2 ^ s)) with (- (IZR (- a) / IZR (2 ^ s))) by (rewrite opp_IZR; unfold Rdiv; ring). apply lb_ng. apply ub_div; auto.
    apply IZR_le. lia. apply ofZu_ok. apply lb_elim; auto.
Qed.
Lemma dhi_ok s a : (0 <= s)%Z -> dgood s a = true -> isr (dhi s a) = true /\ IZR a * bpow radix2 (- s) <= rv (dhi s a).
Proof.
  intros Hs. unfold dgood. destruct (isr (dlo s a)); [|discriminate]. destruct (isr (dhi s a)) eqn:R1; [|discriminate].
  destruct (pos _) eqn:P1; [|discriminate]. destruct (isr (ofZu _)) eqn:R2; [|discriminate]. cbn [andb]. intros N1. split; auto.
  assert (E : IZR a * bpow radix2 (- s) = IZR a / IZR (2 ^ s)). { rewrite bpow_opp, bpow_IZR by auto. reflexivity. } rewrite E.
  assert (S0 : 0 < IZR (2 ^ s)) by (rewrite <- bpow_IZR by auto; apply bpow_gt_0).
  assert (D := ofZd_ok (2 ^ s)). assert (U2 := ofZu_ok (2 ^ s)). destruct (pos_ok _ P1) as (R3 & _).
  apply ub_elim; auto. unfold dhi in * . destruct (Z.eqb_spec a 0) as [->|]. { apply ub_intro; auto. rewrite rv0. unfold Rdiv. lra. }
  destruct (Z.ltb_spec 0 a).
  - apply ub_div; auto. apply IZR_le; lia. apply ofZu_ok. apply lb_elim; auto.
  - rewrite Z.abs_neq in N1 by lia. destruct (nonneg_ok _ N1) as (R4 & _).
    replace (IZR a / IZR (2 ^ s)) with (- (IZR (- a) / IZR (2 ^ s))) by (rewrite opp_IZR; unfold Rdiv; ring). apply ub_ng. apply lb_div; auto.
    apply lb_elim; auto. apply ofZd_ok. apply ub_elim; auto.
Qed.
Lemma cover (s : Z) x a b : (0 <= s)%Z -> IZR a * bpow radix2 (- s) <= x -> x < IZR b * bpow radix2 (- s) ->
  exists k, (a <= k < b)%Z /\ IZR k * bpow radix2 (- s) <= x <= IZR (k + 1) * bpow radix2 (- s).
Proof.
  intros Hs Ha Hb. set (y := x * bpow radix2 s). exists (Zfloor y).
  assert (P := bpow_gt_0 radix2 s). assert (Q := bpow_gt_0 radix2 (- s)).
  assert (PQ : bpow radix2 (- s) * bpow radix2 s = 1). { rewrite <- bpow_plus. replace (- s + s)%Z with 0%Z by ring. reflexivity. }
  assert (X : x = y * bpow radix2 (- s)). { unfold y. rewrite Rmult_assoc, (Rmult_comm (bpow _ s)), PQ. ring. }
  pose proof (Zfloor_lb y). pose proof (Zfloor_ub y). rewrite plus_IZR. repeat split.
  - apply Zfloor_lub. unfold y. apply Rmult_le_reg_r with (bpow radix2 (- s)); auto. rewrite Rmult_assoc, (Rmult_comm (bpow _ s)), PQ. lra.
  - apply lt_IZR. apply Rle_lt_trans with y; auto. unfold y. apply Rmult_lt_reg_r with (bpow radix2 (- s)); auto. rewrite Rmult_assoc, (Rmult_comm (bpow _ s)), PQ. lra.
  - rewrite X. apply Rmult_le_compat_r; lra.
  - rewrite X. apply Rmult_le_compat_r; lra.
Qed.

(** ** Loops *)
Definition obind {A B} (o : option A) (k : A -> option B) : option B := match o with Some a => k a | None => None end.
Notation "'do' x <- a ; b" := (obind a (fun x => b)) (at level 200, x name, a at level 100, b at level 200).
Lemma up_rec_approx {f} (fs : Z -> flt f -> flt f) (rs : Z -> R -> R) (as_ : Z -> aval -> option aval) (b : flt f) (rb : R) (A0 : aval) n :
  forall d B,
  (forall k w r A C, (d <= k < d + Z.of_nat n)%Z -> approx w r A -> as_ k A = Some C -> approx (fs k w) (rs k r) C) ->
  approx b rb A0 ->
  up_rec n d (fun k o => obind o (as_ k)) (Some A0) = Some B ->
  approx (up_rec n d fs b) (up_rec n d rs rb) B.
Proof.
  induction n; intros d B S Hb E.
  - cbn in E. injection E as <-. exact Hb.
  - cbn [up_rec] in E |- * . destruct (up_rec n (d + 1) _ (Some A0)) as [A|] eqn:EA; [|discriminate]. cbn [obind] in E.
    apply (S d _ _ A); auto. lia. apply IHn; auto. intros k w r A' C Hk. apply S. lia.
Qed.
Lemma obind_some {A B} (o : option A) (k : A -> option B) b : obind o k = Some b -> exists a, o = Some a /\ k a = Some b.
Proof. destruct o; [|discriminate]. eauto. Qed.
