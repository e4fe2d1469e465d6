(** * The error function: Gaussian integral and the continued fractions of erf.hpp
    over the reals. The tails of both truncated continued fractions satisfy a
    Riccati equation up to a residual which is a product of quotients. *)
From Verif Require Import Base.
From Coq Require Import Lra Psatz.
From Coquelicot Require Import Coquelicot.
Open Scope R_scope.

(** ** Gaussian integral *)
Ltac eqR := match goal with |- @eq _ ?a ?b => change (@eq R a b) end.
Definition gau (t : R) : R := exp (- (t * t)).
Definition gint (x : R) : R := RInt gau 0 x.
Lemma gau_cont t : continuous gau t.
Proof. apply (ex_derive_continuous gau). unfold gau. auto_derive. auto. Qed.
Lemma gau_int a b : ex_RInt gau a b.
Proof. apply (ex_RInt_continuous (V := R_CompleteNormedModule)). intros. apply gau_cont. Qed.
Lemma gint_derive x : is_derive gint x (gau x).
Proof.
  unfold gint. apply (is_derive_RInt gau (fun x => RInt gau 0 x) 0 x).
  - exists (mkposreal 1 Rlt_0_1). intros y _. apply (RInt_correct (V := R_CompleteNormedModule)). apply gau_int.
  - apply gau_cont.
Qed.
Lemma gint_0 : gint 0 = 0.
Proof. unfold gint. apply (RInt_point 0 gau). Qed.
Lemma gau_pos t : 0 < gau t.
Proof. apply exp_pos. Qed.
Lemma gau_le1 t : gau t <= 1.
Proof. unfold gau. rewrite <- exp_0. destruct (Req_dec t 0) as [->|]. right. f_equal. ring. left. apply exp_increasing. nra. Qed.

(** ∫_0^1 e^{-x²(1+t²)}/(1+t²) dt *)
Definition kern (x t : R) : R := exp (- (x * x * (1 + t * t))) / (1 + t * t).
Definition kern' (x t : R) : R := - 2 * x * exp (- (x * x * (1 + t * t))).
Lemma one_sq t : 1 + t * t <> 0.
Proof. nra. Qed.
Lemma kern_derive x t : is_derive (fun u => kern u t) x (kern' x t).
Proof. unfold kern, kern'. assert (H := one_sq t). auto_derive. auto. field. auto. Qed.
Lemma kern_int x : ex_RInt (kern x) 0 1.
Proof.
  apply (ex_RInt_continuous (V := R_CompleteNormedModule)). intros t _. apply (ex_derive_continuous (kern x)). unfold kern. assert (H := one_sq t). auto_derive. auto.
Qed.
Lemma kern'_cont x t : continuity_2d_pt kern' x t.
Proof.
  unfold kern'. apply continuity_2d_pt_mult. apply continuity_2d_pt_mult. apply continuity_2d_pt_const. apply continuity_2d_pt_id1.
  apply (continuity_1d_2d_pt_comp exp (fun x t => - (x * x * (1 + t * t)))). apply derivable_continuous_pt. apply derivable_pt_exp.
  apply continuity_2d_pt_opp. apply continuity_2d_pt_mult. apply continuity_2d_pt_mult; apply continuity_2d_pt_id1.
  apply continuity_2d_pt_plus. apply continuity_2d_pt_const. apply continuity_2d_pt_mult; apply continuity_2d_pt_id2.
Qed.
Definition kint (x : R) : R := RInt (kern x) 0 1.
Lemma kint_derive x : is_derive kint x (- 2 * gau x * gint x).
Proof.
  assert (D : forall y t, Derive (fun u => kern u t) y = kern' y t) by (intros; apply is_derive_unique; apply kern_derive).
  replace (- 2 * gau x * gint x) with (RInt (fun t => Derive (fun u => kern u t) x) 0 1).
  - unfold kint. apply (is_derive_RInt_param kern 0 1 x).
    + exists (mkposreal 1 Rlt_0_1). intros y _ t _. eexists. apply kern_derive.
    + intros t _. apply continuity_2d_pt_ext with kern'. intros. symmetry. apply D. apply kern'_cont.
    + exists (mkposreal 1 Rlt_0_1). intros y _. apply kern_int.
  - apply (is_RInt_unique (V := R_CompleteNormedModule)). apply is_RInt_ext with (fun t => (- 2 * gau x) * (x * gau (x * t + 0))).
    + intros t _. rewrite D. unfold kern', gau.
      replace (- (x * x * (1 + t * t))) with (- (x * x) + - ((x * t + 0) * (x * t + 0))) by ring. rewrite exp_plus. eqR. ring.
    + apply (is_RInt_scal (V := R_NormedModule) (fun t => x * gau (x * t + 0)) 0 1 (- 2 * gau x)).
      apply (is_RInt_comp_lin (V := R_NormedModule) gau x 0 0 1). rewrite Rmult_0_r, Rmult_1_r, !Rplus_0_r. apply (RInt_correct (V := R_CompleteNormedModule)). apply gau_int.
Qed.
Lemma kint_0 : kint 0 = PI / 4.
Proof.
  unfold kint. rewrite <- atan_1. replace (atan 1) with (minus (atan 1) (atan 0)) by (rewrite atan_0; unfold minus, plus, opp; cbn; ring).
  apply is_RInt_unique. apply is_RInt_ext with (fun t => / (1 + t * t)).
  - intros t _. unfold kern. rewrite Rmult_0_l, Rmult_0_l, Ropp_0, exp_0. eqR. unfold Rdiv. ring.
  - apply (is_RInt_derive atan (fun t => / (1 + t * t))).
    + intros t _. evar_last. apply is_derive_atan. eqR. unfold Rsqr. f_equal; ring.
    + intros t _. apply (ex_derive_continuous (fun t => / (1 + t * t))). assert (H := one_sq t). auto_derive. auto.
Qed.
Lemma kint_bnd x : 0 <= kint x <= gau x.
Proof.
  unfold kint. split.
  - apply RInt_ge_0. lra. apply kern_int. intros t _. unfold kern. apply Rmult_le_pos. left; apply exp_pos. left. apply Rinv_0_lt_compat. nra.
  - replace (gau x) with (RInt (fun _ => gau x) 0 1).
    + apply RInt_le. lra. apply kern_int. apply ex_RInt_const. intros t _. unfold kern, gau.
      apply Rle_trans with (exp (- (x * x)) / 1).
      * unfold Rdiv. apply Rmult_le_compat. left; apply exp_pos. left. apply Rinv_0_lt_compat. nra.
        destruct (Req_dec (x * x * (t * t)) 0) as [E|E]. right. f_equal. lra. left. apply exp_increasing. assert (0 <= x * x * (t * t)) by (apply Rmult_le_pos; nra). lra.
        apply Rinv_le_contravar; nra.
      * lra.
    + rewrite RInt_const. unfold scal. cbn. unfold mult. cbn. ring.
Qed.
Lemma gint_sq x : gint x * gint x + kint x = PI / 4.
Proof.
  set (F := fun x => gint x * gint x + kint x).
  assert (D : forall c, is_derive F c 0).
  { intros c. unfold F. evar_last. apply (is_derive_plus (fun x => gint x * gint x) kint). apply (is_derive_mult gint gint). apply gint_derive. apply gint_derive. intros; apply Rmult_comm. apply kint_derive.
    unfold plus, mult. cbn. ring. }
  assert (E : F x - F 0 = 0).
  { destruct (MVT_gen F 0 x (fun _ => 0)) as (c & _ & ->).
    - intros; apply D.
    - intros; apply continuity_pt_filterlim. apply (ex_derive_continuous F). eexists. apply D.
    - ring. }
  unfold F in E. rewrite gint_0, kint_0 in E. lra.
Qed.
Lemma gint_nonneg x : 0 <= x -> 0 <= gint x.
Proof. intros H. apply RInt_ge_0; auto. apply gau_int. intros. left. apply gau_pos. Qed.
(** The tail √π/2 - ∫_0^x e^{-t²} dt *)
Definition gtail (x : R) : R := sqrt PI / 2 - gint x.
Lemma gtail_bnd x : 0 <= x -> 0 <= gtail x <= 2 * gau x.
Proof.
  intros H. assert (S := gint_sq x). assert (K := kint_bnd x). assert (G := gint_nonneg x H). assert (P := PI_RGT_0). assert (P3 : 3 <= PI) by (pose proof PI2_3_2; unfold PI2 in * ; lra).
  assert (Q0 := sqrt_pos PI). assert (Q : sqrt PI * sqrt PI = PI) by (apply sqrt_sqrt; lra). unfold gtail.
  assert (Q1 : 1 < sqrt PI) by nra. set (a := sqrt PI / 2) in * . assert (A : a * a = PI / 4) by (unfold a; nra). assert (A0 : / 2 < a) by (unfold a; lra).
  assert (E : (a - gint x) * (a + gint x) = kint x) by nra.
  assert (0 <= a - gint x). { destruct (Rle_or_lt 0 (a - gint x)); auto. exfalso. assert ((a - gint x) * (a + gint x) < 0) by nra. lra. }
  split; auto. nra.
Qed.
Lemma gtail_derive x : is_derive gtail x (- gau x).
Proof.
  unfold gtail. evar_last. apply (is_derive_minus (fun _ => sqrt PI / 2) gint). apply (is_derive_const (V := R_NormedModule)). apply gint_derive. unfold minus, plus, opp, zero. cbn. ring.
Qed.

(** ** Small arguments: t_d = (2d-1) - 2x² + 4d x² / t_{d+1} *)
Definition estep (y : R) (k : Z) (r : R) : R := IZR (2 * k - 1) - 2 * y + IZR (4 * k) * y / r.
Definition et (n : nat) (d : Z) (x : R) : R := up_rec n d (estep (x * x)) (IZR (2 * (d + Z.of_nat n) - 1) - 2 * (x * x)).
Fixpoint etD (n : nat) (d : Z) (x : R) : R :=
  match n with
  | O => - 4 * x
  | S m => - 4 * x + IZR (4 * d) * (2 * x / et m (d + 1) x - x * x * etD m (d + 1) x / (et m (d + 1) x * et m (d + 1) x))
  end.
Fixpoint egood (n : nat) (d : Z) (x : R) : Prop :=
  match n with O => True | S m => et m (d + 1) x <> 0 /\ egood m (d + 1) x end.
Lemma et_S n d x : et (S n) d x = IZR (2 * d - 1) - 2 * (x * x) + IZR (4 * d) * (x * x) / et n (d + 1) x.
Proof. unfold et. cbn [up_rec]. unfold estep at 1. do 2 f_equal. f_equal. do 2 f_equal. lia. Qed.
Lemma et_derive n : forall d x, egood n d x -> is_derive (et n d) x (etD n d x).
Proof.
  induction n; intros d x G.
  - apply is_derive_ext with (fun x => IZR (2 * (d + Z.of_nat 0) - 1) - 2 * (x * x)). reflexivity. cbn [etD]. auto_derive. auto. ring.
  - destruct G as (G0 & G). specialize (IHn (d + 1)%Z x G).
    apply is_derive_ext with (fun x => IZR (2 * d - 1) - 2 * (x * x) + IZR (4 * d) * (x * x) / et n (d + 1) x). { intros t. symmetry. apply et_S. }
    cbn [etD]. generalize (IZR (2 * d - 1)) (IZR (4 * d)). intros c0 c1. set (t := et n (d + 1)) in * . set (t' := etD n (d + 1) x) in * .
    assert (ED : ex_derive t x) by (exists t'; auto). assert (DD : Derive t x = t') by (apply is_derive_unique; auto).
    auto_derive. tauto. match goal with |- context [Derive ?g x] => change (Derive g x) with (Derive t x) end. rewrite DD. field. auto.
Qed.
Fixpoint eres (n : nat) (d : Z) (x : R) : R :=
  match n with
  | O => IZR (4 * d) * (x * x)
  | S m => IZR (4 * d) * (x * x) / (et m (d + 1) x * et m (d + 1) x) * eres m (d + 1) x
  end.
Lemma et_ode n : forall d x, egood n d x -> exists e, (e = 1 \/ e = -1) /\
  x * etD n d x = IZR (4 * (d - 1)) * (x * x) + (IZR (2 * d - 1) - 2 * (x * x)) * et n d x - et n d x * et n d x + e * eres n d x.
Proof.
  induction n; intros d x G.
  - exists (-1). split; auto. cbn [etD eres]. unfold et. cbn [up_rec]. replace (d + Z.of_nat 0)%Z with d by (cbn; ring). rewrite !mult_IZR, !minus_IZR. ring.
  - destruct G as (G0 & G). destruct (IHn _ x G) as (e & He & IH). exists (- e). split. { destruct He as [->| ->]; [right|left]; ring. }
    rewrite et_S. cbn [etD eres]. set (t := et n (d + 1) x) in * . set (t' := etD n (d + 1) x) in * . set (r := eres n (d + 1) x) in * .
    replace (d + 1 - 1)%Z with d in IH by ring.
    replace (x * (- 4 * x + IZR (4 * d) * (2 * x / t - x * x * t' / (t * t)))) with (- 4 * (x * x) + IZR (4 * d) * (x * x) * (2 / t - (x * t') / (t * t))) by (field; auto).
    rewrite IH. rewrite !minus_IZR, !mult_IZR, !minus_IZR, !plus_IZR. field. auto.
Qed.
(** x e^{-x²} / t_1 against the integral. *)
Definition ew (n : nat) (x : R) : R := x * gau x / et n 1 x.
Lemma ew_derive n x : egood n 1 x -> et n 1 x <> 0 ->
  exists e, (e = 1 \/ e = -1) /\ is_derive (ew n) x (gau x * (1 + e * (eres n 1 x / (et n 1 x * et n 1 x)))).
Proof.
  intros G N. destruct (et_ode n 1 x G) as (e & He & O). exists (- e). split. { destruct He as [->| ->]; [right|left]; ring. }
  assert (D := et_derive n 1 x G). unfold ew. set (t := et n 1) in * . assert (ED : ex_derive t x) by (eexists; eauto).
  assert (DD : Derive t x = etD n 1 x) by (apply is_derive_unique; auto). unfold gau.
  auto_derive. tauto. match goal with |- context [Derive ?g x] => change (Derive g x) with (Derive t x) end. rewrite DD.
  set (t' := etD n 1 x) in * . change (4 * (1 - 1))%Z with 0%Z in O. change (IZR (2 * 1 - 1)) with 1 in O. set (E := exp (- (x * x))).
  assert (e * eres n 1 x = x * t' - (1 - 2 * (x * x)) * t x + t x * t x) by lra.
  replace (E * (1 + - e * (eres n 1 x / (t x * t x)))) with (E * (1 - (e * eres n 1 x) / (t x * t x))) by (field; auto). rewrite H. field. auto.
Qed.

(** ** Large arguments: t_d = X + 2d / t_{d+1}, X = 2x *)
Definition lcf_step (X : R) (k : Z) (r : R) : R := X + IZR (2 * k) / r.
Definition lcf (n : nat) (d : Z) (X : R) : R := up_rec n d (lcf_step X) X.
Fixpoint lcfD (n : nat) (d : Z) (X : R) : R :=
  match n with O => 1 | S m => 1 - IZR (2 * d) * lcfD m (d + 1) X / (lcf m (d + 1) X * lcf m (d + 1) X) end.
Lemma lcf_S n d X : lcf (S n) d X = X + IZR (2 * d) / lcf n (d + 1) X.
Proof. unfold lcf. cbn [up_rec]. unfold lcf_step at 1. reflexivity. Qed.
Lemma lcf_ge n : forall d X, (1 <= d)%Z -> 0 < X -> X <= lcf n d X.
Proof.
  induction n; intros d X Hd HX. right; reflexivity. rewrite lcf_S. specialize (IHn (d + 1)%Z X ltac:(lia) HX).
  assert (0 <= IZR (2 * d)) by (apply IZR_le; lia). assert (0 <= IZR (2 * d) / lcf n (d + 1) X) by (apply Rmult_le_pos; auto; left; apply Rinv_0_lt_compat; lra). lra.
Qed.
Lemma lcf_derive n : forall d X, (1 <= d)%Z -> 0 < X -> is_derive (lcf n d) X (lcfD n d X).
Proof.
  induction n; intros d X Hd HX.
  - apply is_derive_ext with (fun x => x). reflexivity. cbn [lcfD]. apply (is_derive_id (K := R_AbsRing)).
  - specialize (IHn (d + 1)%Z X ltac:(lia) HX). assert (P := lcf_ge n (d + 1) X ltac:(lia) HX).
    apply is_derive_ext with (fun x => x + IZR (2 * d) / lcf n (d + 1) x). { intros t. symmetry. apply lcf_S. }
    cbn [lcfD]. generalize (IZR (2 * d)). intros c1. set (t := lcf n (d + 1)) in * . set (t' := lcfD n (d + 1) X) in * .
    assert (ED : ex_derive t X) by (exists t'; auto). assert (DD : Derive t X = t') by (apply is_derive_unique; auto). assert (t X <> 0) by lra.
    auto_derive. tauto. match goal with |- context [Derive ?g X] => change (Derive g X) with (Derive t X) end. rewrite DD. field. auto.
Qed.
Fixpoint lres (n : nat) (d : Z) (X : R) : R :=
  match n with O => IZR (2 * d) | S m => IZR (2 * d) / (lcf m (d + 1) X * lcf m (d + 1) X) * lres m (d + 1) X end.
Lemma lcf_ode n : forall d X, (1 <= d)%Z -> 0 < X -> exists e, (e = 1 \/ e = -1) /\
  2 * lcfD n d X = lcf n d X * lcf n d X - X * lcf n d X - IZR (2 * (d - 1)) + e * lres n d X.
Proof.
  induction n; intros d X Hd HX.
  - exists 1. split; auto. cbn [lcfD lres]. unfold lcf. cbn [up_rec]. rewrite !mult_IZR, minus_IZR. ring.
  - destruct (IHn (d + 1)%Z X ltac:(lia) HX) as (e & He & IH). exists (- e). split. { destruct He as [->| ->]; [right|left]; ring. }
    assert (P := lcf_ge n (d + 1) X ltac:(lia) HX). rewrite lcf_S. cbn [lcfD lres]. set (t := lcf n (d + 1) X) in * . set (t' := lcfD n (d + 1) X) in * . set (r := lres n (d + 1) X) in * .
    replace (d + 1 - 1)%Z with d in IH by ring. assert (t <> 0) by lra.
    replace (2 * (1 - IZR (2 * d) * t' / (t * t))) with (2 - IZR (2 * d) * (2 * t') / (t * t)) by (field; auto). rewrite IH. rewrite !mult_IZR, minus_IZR. field. auto.
Qed.
(** The residual: a product of 2k / (2k + X t_{k+1}). *)
Fixpoint lprod (n : nat) (d : Z) (X : R) : R :=
  match n with O => 1 | S m => IZR (2 * d) / (IZR (2 * d) + X * lcf m (d + 1) X) * lprod m (d + 1) X end.
Lemma lres_prod n : forall d X, (1 <= d)%Z -> 0 < X -> lres n d X * X = IZR (2 * (d + Z.of_nat n)) * lprod n d X * lcf n d X.
Proof.
  induction n; intros d X Hd HX.
  - cbn [lres lprod]. unfold lcf. cbn [up_rec]. replace (d + Z.of_nat 0)%Z with d by (cbn; ring). ring.
  - specialize (IHn (d + 1)%Z X ltac:(lia) HX). assert (P := lcf_ge n (d + 1) X ltac:(lia) HX). assert (0 < IZR (2 * d)) by (apply IZR_lt; lia).
    cbn [lres lprod]. rewrite lcf_S. set (t := lcf n (d + 1) X) in * . replace (d + Z.of_nat (S n))%Z with (d + 1 + Z.of_nat n)%Z by lia.
    assert (N1 : t <> 0) by lra. assert (N2 : IZR (2 * d) + X * t <> 0) by nra.
    replace (IZR (2 * d) / (t * t) * lres n (d + 1) X * X) with (IZR (2 * d) / (t * t) * (lres n (d + 1) X * X)) by ring. rewrite IHn. field. auto.
Qed.
(** e^{-x²} / t_1 against the tail. *)
Definition lw (n : nat) (x : R) : R := gau x / lcf n 1 (2 * x).
Lemma lw_derive n x : 0 < x -> exists e, (e = 1 \/ e = -1) /\
  is_derive (lw n) x (- gau x * (1 + e * (lres n 1 (2 * x) / (lcf n 1 (2 * x) * lcf n 1 (2 * x))))).
Proof.
  intros Hx. destruct (lcf_ode n 1 (2 * x) ltac:(lia) ltac:(lra)) as (e & He & O). exists e. split. auto.
  assert (D := lcf_derive n 1 (2 * x) ltac:(lia) ltac:(lra)). assert (P := lcf_ge n 1 (2 * x) ltac:(lia) ltac:(lra)).
  unfold lw. set (t := lcf n 1) in * . assert (ED : ex_derive t (2 * x)) by (eexists; eauto).
  assert (DD : Derive t (2 * x) = lcfD n 1 (2 * x)) by (apply is_derive_unique; auto). unfold gau. assert (N : t (2 * x) <> 0) by lra.
  auto_derive. tauto. match goal with |- context [Derive ?g (2 * x)] => change (Derive g (2 * x)) with (Derive t (2 * x)) end. rewrite DD.
  set (t' := lcfD n 1 (2 * x)) in * . change (IZR (2 * (1 - 1))) with 0 in O. set (E := exp (- (x * x))). set (T := t (2 * x)) in * .
  assert (H : e * lres n 1 (2 * x) = 2 * t' - T * T + 2 * x * T) by lra.
  replace (- E * (1 + e * (lres n 1 (2 * x) / (T * T)))) with (- E * (1 + (e * lres n 1 (2 * x)) / (T * T))) by (field; auto). rewrite H. field. auto.
Qed.

(** ** Truncation errors *)
Lemma mvt_le (g g' : R -> R) a b : a <= b -> (forall x, a <= x <= b -> is_derive g x (g' x) /\ g' x <= 0) -> g b <= g a.
Proof.
  intros Hab H. destruct (MVT_gen g a b g') as (c & Hc & E).
  - intros x Hx. apply H. rewrite Rmin_left, Rmax_right in Hx; lra.
  - intros x Hx. rewrite Rmin_left, Rmax_right in Hx by auto. apply continuity_pt_filterlim. apply (ex_derive_continuous g). exists (g' x). apply H; lra.
  - rewrite Rmin_left, Rmax_right in Hc by auto. assert (g' c <= 0) by (apply H; auto). assert (0 <= b - a) by lra. nra.
Qed.
Lemma ew_trunc n b eps : (forall s, 0 <= s <= b -> egood n 1 s /\ 0 < et n 1 s /\ Rabs (eres n 1 s / (et n 1 s * et n 1 s)) <= eps) ->
  forall x, 0 <= x <= b -> Rabs (ew n x - gint x) <= eps * x.
Proof.
  intros H x Hx.
  assert (E0 : 0 <= eps). { eapply Rle_trans. apply Rabs_pos. apply (H x Hx). }
  assert (M : forall sg, (sg = 1 \/ sg = -1) -> sg * (ew n x - gint x) - eps * x <= 0).
  { intros sg Hs.
    destruct (MVT_gen (fun s => sg * (ew n s - gint s) - eps * s) 0 x (fun s => sg * (Derive (ew n) s - gau s) - eps)) as (c & Hc & E).
    - intros s Hs2. rewrite Rmin_left, Rmax_right in Hs2 by lra. destruct (H s ltac:(lra)) as (G & T & _). destruct (ew_derive n s G ltac:(lra)) as (e & _ & D).
      assert (D2 := gint_derive s). assert (ex_derive (ew n) s) by (eexists; eauto). assert (ex_derive gint s) by (eexists; eauto). auto_derive. auto.
      replace (Derive (fun x => gint x) s) with (gau s) by (symmetry; apply is_derive_unique; auto). change (Derive (fun x => ew n x) s) with (Derive (ew n) s). ring.
    - intros s Hs2. rewrite Rmin_left, Rmax_right in Hs2 by lra. destruct (H s ltac:(lra)) as (G & T & _). destruct (ew_derive n s G ltac:(lra)) as (e & _ & D).
      assert (D2 := gint_derive s). apply continuity_pt_filterlim. apply (ex_derive_continuous (fun s => sg * (ew n s - gint s) - eps * s)).
      assert (ex_derive (ew n) s) by (eexists; eauto). assert (ex_derive gint s) by (eexists; eauto). auto_derive. auto.
    - rewrite Rmin_left, Rmax_right in Hc by lra. destruct (H c ltac:(lra)) as (G & T & B). destruct (ew_derive n c G ltac:(lra)) as (e & He & D).
      rewrite (is_derive_unique _ _ _ D) in E.
      assert (Z : ew n 0 = 0) by (unfold ew, Rdiv; ring). rewrite Z, gint_0 in E.
      assert (G0 := gau_pos c). assert (G1 := gau_le1 c). set (r := eres n 1 c / (et n 1 c * et n 1 c)) in * . apply Rabs_le_inv in B.
      assert (Q : sg * (gau c * (1 + e * r) - gau c) <= eps).
      { replace (sg * (gau c * (1 + e * r) - gau c)) with (gau c * (sg * e * r)) by ring. assert (sg * e * r <= eps) by (destruct Hs as [->| ->], He as [->| ->]; lra).
        apply Rle_trans with (gau c * eps). apply Rmult_le_compat_l; lra. nra. }
      assert ((sg * (gau c * (1 + e * r) - gau c) - eps) * (x - 0) <= 0) by nra. lra. }
  assert (M1 := M 1 ltac:(auto)). assert (M2 := M (-1) ltac:(auto)). apply Rabs_le. lra.
Qed.
Lemma gau_vanish C eta x : 0 < eta -> exists y, x <= y /\ 0 < y /\ C * gau y < eta.
Proof.
  intros He. set (K := Rmax 1 (Rmax x ((Rabs C + 1) / eta))). exists K.
  assert (K1 : 1 <= K) by apply Rmax_l. assert (K2 : x <= K) by (eapply Rle_trans; [apply Rmax_l|apply Rmax_r]). assert (K3 : (Rabs C + 1) / eta <= K) by (eapply Rle_trans; [apply Rmax_r|apply Rmax_r]).
  split; auto. split. lra. unfold gau. rewrite exp_Ropp. assert (E := exp_ineq1_le (K * K)). assert (E2 : K < exp (K * K)) by nra.
  assert (I0 : 0 < / exp (K * K)) by (apply Rinv_0_lt_compat; lra).
  apply Rle_lt_trans with (Rabs C * / exp (K * K)). apply Rmult_le_compat_r. lra. apply Rle_abs.
  apply Rmult_lt_reg_r with (exp (K * K)). lra. rewrite Rmult_assoc, Rinv_l, Rmult_1_r by lra.
  assert (Rabs C + 1 <= K * eta). { apply Rmult_le_reg_r with (/ eta). apply Rinv_0_lt_compat; auto. rewrite (Rmult_assoc K), Rinv_r by lra. unfold Rdiv in K3. lra. } nra.
Qed.
Lemma lw_trunc n a eps : 0 < a -> (forall x, a <= x -> lres n 1 (2 * x) / (lcf n 1 (2 * x) * lcf n 1 (2 * x)) <= eps) ->
  forall x, a <= x -> Rabs (lw n x - gtail x) <= eps * gtail x.
Proof.
  intros Ha H x Hx.
  assert (N0 : forall y, a <= y -> 0 <= lres n 1 (2 * y) / (lcf n 1 (2 * y) * lcf n 1 (2 * y))).
  { intros y Hy. assert (P := lcf_ge n 1 (2 * y) ltac:(lia) ltac:(lra)). assert (Q := lres_prod n 1 (2 * y) ltac:(lia) ltac:(lra)).
    assert (L : forall m d X, (1 <= d)%Z -> 0 < X -> 0 <= lres m d X).
    { induction m; intros d X Hd HX; cbn [lres]. apply IZR_le; lia. apply Rmult_le_pos; [|apply IHm; auto; lia]. assert (P2 := lcf_ge m (d + 1) X ltac:(lia) HX).
      apply Rmult_le_pos. apply IZR_le; lia. left. apply Rinv_0_lt_compat. nra. }
    apply Rmult_le_pos. apply L. lia. lra. left. apply Rinv_0_lt_compat. nra. }
  assert (E0 : 0 <= eps) by (eapply Rle_trans; [apply (N0 x Hx)|apply H; auto]).
  assert (M : forall sg, (sg = 1 \/ sg = -1) -> 0 <= sg * (lw n x - gtail x) + eps * gtail x).
  { intros sg Hs. set (g := fun y => sg * (lw n y - gtail y) + eps * gtail y).
    destruct (Rle_or_lt 0 (g x)) as [L|L]; auto. exfalso.
    destruct (gau_vanish (/ (2 * a) + 2 + eps * 2) (- g x) x ltac:(lra)) as (y & Hy & Y0 & Ey).
    assert (Dec : g y <= g x).
    { apply (mvt_le g (fun s => sg * (Derive (lw n) s + gau s) - eps * gau s)); auto. intros s Hs2.
      destruct (lw_derive n s ltac:(lra)) as (e & He & D). assert (D2 := gtail_derive s). split.
      - assert (ex_derive (lw n) s) by (eexists; eauto). assert (ex_derive gtail s) by (eexists; eauto). unfold g. auto_derive. auto.
        replace (Derive (fun x => gtail x) s) with (- gau s) by (symmetry; apply is_derive_unique; auto). change (Derive (fun x => lw n x) s) with (Derive (lw n) s). ring.
      - rewrite (is_derive_unique _ _ _ D). assert (B := H s ltac:(lra)). assert (B0 := N0 s ltac:(lra)). set (r := lres n 1 (2 * s) / _) in * . assert (G0 := gau_pos s).
        replace (sg * (- gau s * (1 + e * r) + gau s) - eps * gau s) with (gau s * (- sg * e * r - eps)) by ring.
        assert (- sg * e * r - eps <= 0) by (destruct Hs as [->| ->], He as [->| ->]; lra). nra. }
    assert (T := gtail_bnd y ltac:(lra)). assert (P := lcf_ge n 1 (2 * y) ltac:(lia) ltac:(lra)). assert (G0 := gau_pos y).
    assert (W : 0 <= lw n y <= / (2 * a) * gau y).
    { unfold lw. split. apply Rmult_le_pos. lra. left. apply Rinv_0_lt_compat. lra. unfold Rdiv. rewrite Rmult_comm. apply Rmult_le_compat_r. lra. apply Rinv_le_contravar; lra. }
    assert (- (/ (2 * a) * gau y + 2 * gau y) <= sg * (lw n y - gtail y)) by (destruct Hs as [->| ->]; lra).
    assert (0 <= eps * gtail y) by (apply Rmult_le_pos; lra).
    assert (- (/ (2 * a) * gau y + 2 * gau y) <= g y) by (unfold g; lra).
    assert (0 <= eps * 2 * gau y) by nra. lra. }
  assert (M1 := M 1 ltac:(auto)). assert (M2 := M (-1) ltac:(auto)). apply Rabs_le. lra.
Qed.
