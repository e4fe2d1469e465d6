(** * The continued fractions of incomplete_gamma.hpp over the reals: Riccati
    equations of the tails and truncation errors *)
From Verif Require Import Base.
From Coq Require Import Lra Psatz.
From Coquelicot Require Import Coquelicot.
From Interval Require Import Tactic.
From Verif Require Import SpecGamma SpecInc GammaInt ErfReal.
Open Scope R_scope.

(** ** Lower incomplete gamma function: t_d = a + d - 1 + c_d z / t_{d+1} *)
Section Low.
Context (a : R).
Definition gc (d : Z) : R := if Z.odd d then - (a - 1 + IZR ((d + 1) / 2)) else IZR (d / 2).
Definition gsg (d : Z) : R := if Z.odd d then -1 else 1.
Definition gB (d : Z) : R := a + IZR d - 1.
Definition gstep (z : R) (k : Z) (r : R) : R := gB k + gc k * z / r.
Definition gt (n : nat) (d : Z) (z : R) : R := up_rec n d (gstep z) (gB (d + Z.of_nat n)).
Fixpoint gtD (n : nat) (d : Z) (z : R) : R :=
  match n with
  | O => 0
  | S m => gc d * (/ gt m (d + 1) z - z * gtD m (d + 1) z / (gt m (d + 1) z * gt m (d + 1) z))
  end.
Fixpoint ggood (n : nat) (d : Z) (z : R) : Prop :=
  match n with O => True | S m => gt m (d + 1) z <> 0 /\ ggood m (d + 1) z end.
Lemma gt_S n d z : gt (S n) d z = gB d + gc d * z / gt n (d + 1) z.
Proof. unfold gt. cbn [up_rec]. unfold gstep at 1. replace (d + 1 + Z.of_nat n)%Z with (d + Z.of_nat (S n))%Z by lia. reflexivity. Qed.
Lemma gt_0 d z : gt 0 d z = gB d.
Proof. unfold gt. cbn [up_rec]. f_equal. lia. Qed.
Lemma gt_derive n : forall d z, ggood n d z -> is_derive (gt n d) z (gtD n d z).
Proof.
  induction n; intros d z G.
  - apply is_derive_ext with (fun _ => gB d). intros t. symmetry. apply gt_0. cbn [gtD]. auto_derive. auto. ring.
  - destruct G as (G0 & G). specialize (IHn (d + 1)%Z z G).
    apply is_derive_ext with (fun z => gB d + gc d * z / gt n (d + 1) z). { intros t. symmetry. apply gt_S. }
    cbn [gtD]. generalize (gB d) (gc d). intros c0 c1. set (t := gt n (d + 1)) in * . set (t' := gtD n (d + 1) z) in * .
    assert (ED : ex_derive t z) by (exists t'; auto). assert (DD : Derive t z = t') by (apply is_derive_unique; auto).
    auto_derive. tauto. match goal with |- context [Derive ?g z] => change (Derive g z) with (Derive t z) end. rewrite DD. field. auto.
Qed.
Lemma gc_odd k : gc (2 * k + 1) = - (a + IZR k).
Proof. unfold gc. replace (Z.odd (2 * k + 1)) with true by (symmetry; rewrite Z.odd_add, Z.odd_mul; reflexivity). replace ((2 * k + 1 + 1) / 2)%Z with (k + 1)%Z by (replace (2 * k + 1 + 1)%Z with ((k + 1) * 2)%Z by ring; symmetry; apply Z.div_mul; discriminate). rewrite plus_IZR. ring. Qed.
Lemma gc_even k : gc (2 * k) = IZR k.
Proof. unfold gc. replace (Z.odd (2 * k)) with false by (symmetry; rewrite Z.odd_mul; reflexivity). f_equal. rewrite Z.mul_comm. apply Z.div_mul. discriminate. Qed.
Lemma par d : exists k, d = (2 * k)%Z \/ d = (2 * k + 1)%Z.
Proof. exists (d / 2)%Z. assert (E := Z.div_mod d 2 ltac:(lia)). assert (B := Z.mod_pos_bound d 2 ltac:(lia)). lia. Qed.
Lemma gc_rel d : gc d = gsg d * gB d + gc (d - 1).
Proof.
  destruct (par d) as (k & [E|E]); subst d; unfold gsg, gB.
  - replace (2 * k - 1)%Z with (2 * (k - 1) + 1)%Z by ring. rewrite gc_odd, gc_even. replace (Z.odd (2 * k)) with false by (symmetry; rewrite Z.odd_mul; reflexivity). rewrite mult_IZR, minus_IZR. ring.
  - replace (2 * k + 1 - 1)%Z with (2 * k)%Z by ring. rewrite gc_odd, gc_even. replace (Z.odd (2 * k + 1)) with true by (symmetry; rewrite Z.odd_add, Z.odd_mul; reflexivity). rewrite plus_IZR, mult_IZR. ring.
Qed.
Lemma gsg_S d : gsg (d + 1) = - gsg d.
Proof. unfold gsg. rewrite Z.odd_add. destruct (Z.odd d); cbn; ring. Qed.
Fixpoint gres (n : nat) (d : Z) (z : R) : R :=
  match n with
  | O => - (gc d * z)
  | S m => - (gc d * z / (gt m (d + 1) z * gt m (d + 1) z) * gres m (d + 1) z)
  end.
Lemma gt_ode n : forall d z, ggood n d z ->
  z * gtD n d z = gc (d - 1) * z + (gB d + gsg d * z) * gt n d z - gt n d z * gt n d z + gres n d z.
Proof.
  induction n; intros d z G.
  - cbn [gtD gres]. rewrite gt_0, (gc_rel d). ring.
  - destruct G as (G0 & G). specialize (IHn _ z G).
    rewrite gt_S. cbn [gtD gres]. set (t := gt n (d + 1) z) in * . set (t' := gtD n (d + 1) z) in * . set (r := gres n (d + 1) z) in * .
    replace (d + 1 - 1)%Z with d in IHn by ring. rewrite gsg_S in IHn.
    replace (z * (gc d * (/ t - z * t' / (t * t)))) with (gc d * z * (/ t - (z * t') / (t * t))) by (field; auto).
    rewrite IHn. replace (gc (d - 1)) with (gc d - gsg d * gB d) by (rewrite (gc_rel d) at 1; ring).
    assert (EB : gB (d + 1) = gB d + 1) by (unfold gB; rewrite plus_IZR; ring). rewrite EB. field. auto.
Qed.
Definition gw (n : nat) (z : R) : R := Rpower z a * exp (- z) / gt n 1 z.
Lemma gw_derive n z : 0 < z -> ggood n 1 z -> gt n 1 z <> 0 ->
  is_derive (gw n) z (gi a z * (1 + - (gres n 1 z / (gt n 1 z * gt n 1 z)))).
Proof.
  intros Hz G N. assert (O := gt_ode n 1 z G). assert (D := gt_derive n 1 z G). unfold gw. set (t := gt n 1) in * . assert (ED : ex_derive t z) by (eexists; eauto).
  assert (DD : Derive t z = gtD n 1 z) by (apply is_derive_unique; auto).
  assert (DR := rpow_derive a z Hz). set (rp := fun t => Rpower t a) in * . assert (ER : ex_derive rp z) by (eexists; eauto). assert (DR2 : Derive rp z = a * Rpower z (a - 1)) by (apply is_derive_unique; auto).
  apply is_derive_ext with (fun x => rp x * exp (- x) / t x). reflexivity.
  auto_derive. tauto. change (Derive (fun x => rp x) z) with (Derive rp z). change (Derive (fun x => t x) z) with (Derive t z). rewrite DD, DR2. unfold gi.
  set (t' := gtD n 1 z) in * . change (gc (1 - 1)) with 0 in O. unfold gB, gsg in O. cbn [Z.odd] in O.
  assert (P : rp z = z * Rpower z (a - 1)). { unfold rp. replace a with (1 + (a - 1)) at 1 by ring. rewrite Rpower_plus, Rpower_1 by auto. reflexivity. }
  rewrite P. assert (gres n 1 z = z * t' - (a - z) * t z + t z * t z) by lra. rewrite H. field. auto.
Qed.
(** [|res| / t_1²] is the product of [|c_k| z / t_k²] *)
Lemma gres_S n d z : ggood (S n) d z -> gt (S n) d z <> 0 -> Rabs (gres (S n) d z / (gt (S n) d z * gt (S n) d z)) =
  Rabs (gc d) * Rabs z / (gt (S n) d z * gt (S n) d z) * Rabs (gres n (d + 1) z / (gt n (d + 1) z * gt n (d + 1) z)).
Proof.
  intros (G0 & G) N. cbn [gres]. set (T := gt (S n) d z) in * . set (t := gt n (d + 1) z) in * . set (r := gres n (d + 1) z).
  replace (- (gc d * z / (t * t) * r) / (T * T)) with (- (gc d * z / (T * T) * (r / (t * t)))) by (field; auto).
  rewrite Rabs_Ropp, !Rabs_mult. unfold Rdiv. rewrite (Rabs_mult (gc d * z)), (Rabs_mult (gc d)). rewrite (Rabs_pos_eq (/ (T * T))). ring. left. apply Rinv_0_lt_compat. nra.
Qed.
End Low.

(** ** Bounds for 1/2 <= a <= 10, 0 < z <= a + 1/2 *)
Section LowB.
Context (a z : R) (Ha : / 2 <= a <= 10) (Hz : 0 < z <= a + / 2).
Lemma gt_low n : forall k, (0 <= k)%Z ->
  (a / (2 * (a + 1)) <= gt a n 1 z) /\
  ((1 <= k)%Z -> 2 * IZR k <= gt a n (2 * k + 1) z) /\ ((1 <= k)%Z -> a + 2 * IZR k - 1 <= gt a n (2 * k) z).
Proof.
  induction n as [|n IH]; intros k Hk.
  - rewrite !gt_0. unfold gB. rewrite !plus_IZR, !mult_IZR. repeat split; intros; try lra.
    apply (Rmult_le_reg_r (2 * (a + 1))). lra. unfold Rdiv. rewrite Rmult_assoc, Rinv_l by lra. nra.
  - rewrite !gt_S. repeat split.
    + destruct (IH 1%Z ltac:(lia)) as (_ & _ & L). specialize (L ltac:(lia)). change (2 * 1)%Z with (1 + 1)%Z in L. set (X := gt a n (1 + 1) z) in * .
      assert (gc a 1 = - a) by (change 1%Z with (2 * 0 + 1)%Z; rewrite gc_odd; ring). rewrite H. unfold gB.
      assert (I : / X <= / (a + 1)) by (apply Rinv_le_contravar; lra). assert (0 < / X) by (apply Rinv_0_lt_compat; lra).
      assert (a * z * / X <= a * (a + / 2) * / (a + 1)). { apply Rmult_le_compat; try lra. nra. apply Rmult_le_compat_l; lra. }
      replace (a / (2 * (a + 1))) with (a + 1 - 1 - a * (a + / 2) * / (a + 1)) by (field; lra). unfold Rdiv. lra.
    + intros K. destruct (IH (k + 1)%Z ltac:(lia)) as (_ & _ & L). specialize (L ltac:(lia)). replace (2 * (k + 1))%Z with (2 * k + 1 + 1)%Z in L by ring. set (X := gt a n (2 * k + 1 + 1) z) in * .
      rewrite gc_odd. unfold gB. rewrite plus_IZR in * . rewrite mult_IZR in * . apply IZR_le in K. set (x := IZR k) in * .
      assert (I : / X <= / (a + 2 * x + 1)) by (apply Rinv_le_contravar; lra). assert (0 < / X) by (apply Rinv_0_lt_compat; lra).
      assert (Q : (a + x) * z * / X <= (a + x) * (a + / 2) * / (a + 2 * x + 1)). { apply Rmult_le_compat; try lra. apply Rmult_le_pos; lra. apply Rmult_le_compat_l; lra. }
      assert (2 * x <= a + 2 * x - (a + x) * (a + / 2) * / (a + 2 * x + 1)). { apply (Rmult_le_reg_r (a + 2 * x + 1)). lra. rewrite (Rmult_minus_distr_r (a + 2 * x)). rewrite (Rmult_assoc ((a + x) * (a + / 2))), Rinv_l by lra. nra. }
      replace (- (a + x) * z / X) with (- ((a + x) * z * / X)) by (unfold Rdiv; ring). lra.
    + intros K. destruct (IH k Hk) as (_ & L & _). specialize (L K). set (X := gt a n (2 * k + 1) z) in * . rewrite gc_even. unfold gB. rewrite mult_IZR. apply IZR_le in K. set (x := IZR k) in * .
      assert (0 < / X) by (apply Rinv_0_lt_compat; lra). assert (0 <= x * z * / X) by (apply Rmult_le_pos; [apply Rmult_le_pos; lra|lra]). unfold Rdiv. lra.
Qed.
Lemma gt_pos n d : (1 <= d)%Z -> 0 < gt a n d z.
Proof.
  intros Hd. destruct (par d) as (k & [E|E]); subst d.
  - destruct (gt_low n k ltac:(lia)) as (_ & _ & L). specialize (L ltac:(lia)). assert (1 <= IZR k) by (apply IZR_le; lia). lra.
  - destruct (Z.eq_dec k 0) as [->|N]. destruct (gt_low n 0 ltac:(lia)) as (L & _). change (2 * 0 + 1)%Z with 1%Z. assert (0 < a / (2 * (a + 1))) by (apply Rdiv_lt_0_compat; lra). lra.
    destruct (gt_low n k ltac:(lia)) as (_ & L & _). specialize (L ltac:(lia)). assert (1 <= IZR k) by (apply IZR_le; lia). lra.
Qed.
Lemma gt_good n : forall d, (1 <= d)%Z -> ggood a n d z.
Proof. induction n; intros d Hd; cbn [ggood]; auto. split. assert (P := gt_pos n (d + 1) ltac:(lia)). lra. apply IHn. lia. Qed.

(** Bound of [|c_d| z / t_d²] *)
Definition gF (d : Z) : R :=
  if (d =? 1)%Z then 1000 else if Z.odd d then (10 + IZR (d / 2)) * (105 / 10) / (4 * IZR (d / 2) * IZR (d / 2))
  else if (d / 2 <=? 20)%Z then IZR (d / 2) / (8 * IZR (d / 2) - 6)
  else IZR (d / 2) * (105 / 10) / ((2 * IZR (d / 2) - / 2) * (2 * IZR (d / 2) - / 2)).
Lemma gF_ok n d : (1 <= d)%Z -> Rabs (gc a d) * Rabs z / (gt a n d z * gt a n d z) <= gF d.
Proof.
  intros Hd. assert (T := gt_pos n d Hd). rewrite (Rabs_pos_eq z) by lra. destruct (par d) as (k & [E|E]); subst d.
  - destruct (gt_low n k ltac:(lia)) as (_ & _ & L). specialize (L ltac:(lia)). assert (K : 1 <= IZR k) by (apply IZR_le; lia). set (t := gt a n (2 * k) z) in * .
    rewrite gc_even. unfold gF. replace (2 * k =? 1)%Z with false by (symmetry; apply Z.eqb_neq; lia). replace (Z.odd (2 * k)) with false by (symmetry; rewrite Z.odd_mul; reflexivity). replace (2 * k / 2)%Z with k by (rewrite Z.mul_comm, Z.div_mul; lia). set (x := IZR k) in * . rewrite Rabs_pos_eq by lra.
    assert (M : t * t >= (a + 2 * x - 1) * (a + 2 * x - 1)) by nra. assert (M0 : 0 < (a + 2 * x - 1) * (a + 2 * x - 1)) by nra.
    assert (I : / (t * t) <= / ((a + 2 * x - 1) * (a + 2 * x - 1))) by (apply Rinv_le_contravar; lra). assert (I0 : 0 < / (t * t)) by (apply Rinv_0_lt_compat; nra).
    unfold Rdiv. destruct (k <=? 20)%Z.
    + apply Rle_trans with (x * (a + / 2) * / ((a + 2 * x - 1) * (a + 2 * x - 1))). apply Rmult_le_compat; try lra. apply Rmult_le_pos; lra. apply Rmult_le_compat_l; lra.
      rewrite Rmult_assoc. apply Rmult_le_compat_l. lra. apply (Rmult_le_reg_r ((a + 2 * x - 1) * (a + 2 * x - 1))). auto. rewrite Rmult_assoc, Rinv_l by lra. apply (Rmult_le_reg_l (8 * x - 6)). lra. replace ((8 * x - 6) * (/ (8 * x - 6) * ((a + 2 * x - 1) * (a + 2 * x - 1)))) with ((a + 2 * x - 1) * (a + 2 * x - 1)) by (field; lra). rewrite Rmult_1_r.
      assert (0 <= (a + / 2 - (2 * x - 3 / 2)) * (a + / 2 - (2 * x - 3 / 2))) by apply Rle_0_sqr. nra.
    + assert (N : 0 < (2 * x - / 2) * (2 * x - / 2) <= (a + 2 * x - 1) * (a + 2 * x - 1)) by nra. assert (/ ((a + 2 * x - 1) * (a + 2 * x - 1)) <= / ((2 * x - / 2) * (2 * x - / 2))) by (apply Rinv_le_contravar; lra).
      apply Rmult_le_compat; try lra. apply Rmult_le_pos; lra. apply Rmult_le_compat_l; lra.
  - rewrite gc_odd. unfold gF. replace (Z.odd (2 * k + 1)) with true by (symmetry; rewrite Z.odd_add, Z.odd_mul; reflexivity). rewrite Rabs_Ropp. destruct (Z.eqb_spec (2 * k + 1) 1) as [E|E].
    + assert (k = 0)%Z by lia. subst k. destruct (gt_low n 0 ltac:(lia)) as (L & _). change (2 * 0 + 1)%Z with 1%Z in * . set (t := gt a n 1 z) in * . rewrite Rplus_0_r, Rabs_pos_eq by lra.
      assert (T2 : a * a <= 4 * ((a + 1) * (a + 1)) * (t * t)). { assert (a <= 2 * (a + 1) * t). { apply (Rmult_le_compat_l (2 * (a + 1))) in L; [|lra]. replace (2 * (a + 1) * (a / (2 * (a + 1)))) with a in L by (field; lra). exact L. } nra. }
      apply (Rmult_le_reg_r (t * t)). nra. unfold Rdiv. rewrite Rmult_assoc, Rinv_l by nra. rewrite Rmult_1_r.
      assert (a * z <= 2 * (a * a)) by nra. assert ((a + 1) * (a + 1) <= 121) by nra. assert (0 <= t * t) by nra. assert (4 * ((a + 1) * (a + 1)) * (t * t) <= 4 * 121 * (t * t)) by (apply Rmult_le_compat_r; lra). lra.
    + destruct (gt_low n k ltac:(lia)) as (_ & L & _). specialize (L ltac:(lia)). assert (K : 1 <= IZR k) by (apply IZR_le; lia). set (t := gt a n (2 * k + 1) z) in * . replace ((2 * k + 1) / 2)%Z with k. 2:{ rewrite Z.add_comm, Z.mul_comm, Z.div_add by lia. reflexivity. } set (x := IZR k) in * . rewrite Rabs_pos_eq by lra.
      assert (I0 : 0 < / (t * t)) by (apply Rinv_0_lt_compat; nra). assert (/ (t * t) <= / (4 * x * x)) by (apply Rinv_le_contravar; nra). unfold Rdiv. apply Rmult_le_compat; try lra. apply Rmult_le_pos; lra. apply Rmult_le_compat; lra.
Qed.
Fixpoint gP (n : nat) (d : Z) : R := match n with O => gF d | S m => gF d * gP m (d + 1) end.
Lemma gres_bnd n : forall d, (1 <= d)%Z -> Rabs (gres a n d z / (gt a n d z * gt a n d z)) <= gP n d.
Proof.
  induction n; intros d Hd; assert (T := gt_pos).
  - cbn [gP gres]. replace (- (gc a d * z) / (gt a 0 d z * gt a 0 d z)) with (- (gc a d * z * / (gt a 0 d z * gt a 0 d z))) by (unfold Rdiv; ring). rewrite Rabs_Ropp, !Rabs_mult. rewrite (Rabs_pos_eq (/ _)). apply (gF_ok 0 d Hd). left. apply Rinv_0_lt_compat. specialize (T 0%nat d Hd). nra.
  - rewrite gres_S. 2: apply gt_good; auto. 2: specialize (T (S n) d Hd); lra. cbn [gP]. apply Rmult_le_compat; auto. 2: apply Rabs_pos. 2: apply gF_ok; auto. 2: apply IHn; lia.
    specialize (T (S n) d Hd). apply Rmult_le_pos. apply Rmult_le_pos; apply Rabs_pos. left. apply Rinv_0_lt_compat. nra.
Qed.
End LowB.
Lemma gP_val : gP 54 1 <= bpow radix2 (-90).
Proof. change (bpow radix2 (-90)) with (/ IZR (2 ^ 90)). cbv [gP gF Z.add Z.eqb Z.odd Z.div Z.leb Z.compare Z.div_eucl Z.pos_div_eucl Pos.add Pos.succ Pos.compare Pos.compare_cont Pos.eqb Z.mul Pos.mul Z.ltb Z.sub Z.opp Z.pos_sub Z.double Z.pred_double Z.succ_double Pos.pred_double Pos.add_carry Z.pow Z.pow_pos Pos.iter]. interval. Qed.
(** ** From the derivative to the integral *)
Lemma comb_derive s e (G F : R -> R) t g f : is_derive G t g -> is_derive F t f -> is_derive (fun t => s * (G t - F t) - e * F t) t (s * (g - f) - e * f).
Proof. intros D1 D2. assert (ex_derive G t) by (eexists; eauto). assert (ex_derive F t) by (eexists; eauto). auto_derive. tauto. replace (Derive (fun x : R => G x) t) with g by (symmetry; apply is_derive_unique; exact D1). replace (Derive (fun x : R => F x) t) with f by (symmetry; apply is_derive_unique; exact D2). ring. Qed.
Lemma low_int a z (G h : R -> R) eps : 0 < a -> 0 < z -> 0 <= eps < 1 -> (forall t, 0 < t <= z -> is_derive G t (gi a t * (1 + h t)) /\ Rabs (h t) <= eps /\ 0 <= G t) ->
  is_lim_seq (fun n => G (z / (INR n + 1))) 0 -> exists L, is_lim_seq (fun n => RInt (gi a) (z / (INR n + 1)) z) (Finite L) /\ Rabs (G z - L) <= eps * L.
Proof.
  intros Ha Hz He H HL. set (dn := fun n : nat => z / (INR n + 1)) in * .
  assert (DN : forall n, 0 < dn n <= z). { intros n. assert (P := pos_INR n). split. apply Rdiv_lt_0_compat; lra. unfold dn. apply (Rmult_le_reg_r (INR n + 1)). lra. unfold Rdiv. rewrite Rmult_assoc, Rinv_l by lra. nra. }
  assert (B : forall d, 0 < d <= z -> Rabs (G z - G d - RInt (gi a) d z) <= eps * RInt (gi a) d z).
  { intros d Hd. assert (DI : forall t, d <= t <= z -> is_derive (fun t => RInt (gi a) d t) t (gi a t)).
    { intros t Ht. apply (is_derive_RInt (gi a) (fun t => RInt (gi a) d t) d t). 2: apply gi_cont; lra.
      assert (L0 : 0 < t) by lra. exists (mkposreal _ L0). intros y Hy. apply (@RInt_correct R_CompleteNormedModule). apply gi_ex. lra. cbn in Hy. unfold ball in Hy. cbn in Hy. unfold AbsRing_ball, abs, minus, plus, opp in Hy. cbn in Hy. apply Rabs_def2 in Hy. lra. }
    assert (M : forall sg, (sg = 1 \/ sg = -1) -> sg * (G z - G d - RInt (gi a) d z) <= eps * RInt (gi a) d z).
    { intros sg Hs. assert (Q := mvt_le (fun t => sg * (G t - RInt (gi a) d t) - eps * RInt (gi a) d t) (fun t => sg * (gi a t * (1 + h t) - gi a t) - eps * gi a t) d z ltac:(lra)).
      assert (RInt (gi a) d d = 0) by apply (RInt_point d (gi a)). cbn beta in Q. rewrite H0 in Q.
      assert (sg * (G z - RInt (gi a) d z) - eps * RInt (gi a) d z <= sg * (G d - 0) - eps * 0).
      { apply Q. intros t Ht. destruct (H t ltac:(lra)) as (D1 & B1 & _). assert (D2 := DI t Ht). split.
        - apply (comb_derive sg eps G (fun t => RInt (gi a) d t)); auto.
        - assert (P := gi_pos a t). apply Rabs_le_inv in B1. replace (sg * (gi a t * (1 + h t) - gi a t) - eps * gi a t) with (gi a t * (sg * h t - eps)) by ring. destruct Hs as [->| ->]; nra. }
      lra. }
    assert (M1 := M 1 ltac:(auto)). assert (M2 := M (-1) ltac:(auto)). apply Rabs_le. lra. }
  destruct (ex_finite_lim_seq_incr (fun n => RInt (gi a) (dn n) z) (G z / (1 - eps))) as (L & HLim).
  - intros n. apply gi_mono; try lra. 2: apply DN. split. apply DN. unfold dn. assert (P := pos_INR n). rewrite S_INR. unfold Rdiv. apply Rmult_le_compat_l. lra. apply Rinv_le_contravar; lra.
  - intros n. assert (Q := B (dn n) (DN n)). apply Rabs_le_inv in Q. destruct (H (dn n) (DN n)) as (_ & _ & P). apply (Rmult_le_reg_r (1 - eps)). lra. unfold Rdiv. rewrite Rmult_assoc, Rinv_l by lra. lra.
  - exists L. split. exact HLim.
    assert (L1 : is_lim_seq (fun n => G z - G (dn n) - RInt (gi a) (dn n) z) (G z - 0 - L)) by (apply is_lim_seq_minus'; [apply is_lim_seq_minus'; [apply is_lim_seq_const|exact HL]|exact HLim]).
    assert (L2 : is_lim_seq (fun n => eps * RInt (gi a) (dn n) z) (eps * L)) by (apply (is_lim_seq_scal_l _ eps L); exact HLim).
    assert (U := is_lim_seq_le _ _ _ _ (fun n => proj2 (Rabs_le_inv _ _ (B (dn n) (DN n)))) L1 L2). cbn in U.
    assert (V := is_lim_seq_le _ _ _ _ (fun n => proj1 (Rabs_le_inv _ _ (B (dn n) (DN n)))) (proj1 (is_lim_seq_opp _ _) L2) L1). cbn in V. apply Rabs_le. lra.
Qed.
Lemma rpow_lim0 a z : 0 < a -> 0 < z -> is_lim_seq (fun n => Rpower (z / (INR n + 1)) a) 0.
Proof.
  intros Ha Hz. apply (is_lim_seq_ext (fun n => Rpower z a * Rpower (ga n) a)). { intros n. assert (P := pos_INR n). rewrite Rpower_mult_distr. reflexivity. auto. apply ga_pos. }
  replace (Finite 0) with (Rbar_mult (Rpower z a) 0) by (cbn; f_equal; ring). apply is_lim_seq_scal_l. apply rpow_a_lim. auto.
Qed.
Lemma low_trunc a z : / 2 <= a <= 10 -> 0 < z <= a + / 2 -> 0 < gamma_P a z /\ Rabs (gw a 54 z / Gamma a - gamma_P a z) <= bpow radix2 (-90) * gamma_P a z.
Proof.
  intros Ha Hz. assert (b0 := bpow_gt_0 radix2 (-90)). assert (b1 : bpow radix2 (-90) < 1) by (apply (bpow_lt radix2 (-90) 0); lia).
  assert (C0 : 0 < a / (2 * (a + 1))) by (apply Rdiv_lt_0_compat; lra).
  assert (GP : forall t, 0 < t <= a + / 2 -> 0 <= gw a 54 t <= Rpower t a * (/ (a / (2 * (a + 1))))).
  { intros t Ht. assert (T := gt_pos a t Ha Ht 54 1 ltac:(lia)). destruct (gt_low a t Ha Ht 54 0 ltac:(lia)) as (L & _). unfold gw, Rdiv. assert (rp := rpow_pos t a). assert (ep := exp_pos (- t)). assert (e1 : exp (- t) <= 1) by (rewrite <- exp_0; apply Raux.exp_le; lra). assert (0 < / gt a 54 1 t) by (apply Rinv_0_lt_compat; lra). assert (/ gt a 54 1 t <= / (a / (2 * (a + 1)))) by (apply Rinv_le_contravar; lra).
    split. apply Rmult_le_pos; [apply Rmult_le_pos; lra|lra]. apply Rmult_le_compat; try lra. apply Rmult_le_pos; lra. rewrite <- (Rmult_1_r (Rpower t a)) at 2. apply Rmult_le_compat_l; lra. }
  destruct (low_int a z (gw a 54) (fun t => - (gres a 54 1 t / (gt a 54 1 t * gt a 54 1 t))) (bpow radix2 (-90)) ltac:(lra) ltac:(lra) ltac:(lra)) as (L & HL & HB).
  - intros t Ht. assert (Ht' : 0 < t <= a + / 2) by lra. assert (T := gt_pos a t Ha Ht' 54 1 ltac:(lia)). split. apply gw_derive. lra. apply gt_good; auto; lia. lra. split. rewrite Rabs_Ropp. eapply Rle_trans. apply gres_bnd; auto; lia. apply gP_val. apply GP; auto.
  - apply (is_lim_seq_le_le (fun _ => 0) _ (fun n => Rpower (z / (INR n + 1)) a * (/ (a / (2 * (a + 1)))))).
    + intros n. apply GP. assert (P := pos_INR n). assert (Q : 0 < z / (INR n + 1)) by (apply Rdiv_lt_0_compat; lra). assert (Q2 : z / (INR n + 1) <= z). { apply (Rmult_le_reg_r (INR n + 1)). lra. unfold Rdiv. rewrite Rmult_assoc, Rinv_l by lra. nra. } lra.
    + apply is_lim_seq_const.
    + replace (Finite 0) with (Rbar_mult 0 (/ (a / (2 * (a + 1))))) by (cbn; f_equal; ring). apply is_lim_seq_scal_r. apply rpow_lim0; lra.
  - assert (GG := Gamma_pos a ltac:(lra)). unfold gamma_P. change (fun t => Rpower t (a - 1) * exp (- t)) with (gi a). rewrite (is_lim_seq_unique _ _ HL). cbn [real].
    assert (L0 : 0 < L). { assert (W : 0 < gw a 54 z). { unfold gw. apply Rdiv_lt_0_compat. apply Rmult_lt_0_compat. apply rpow_pos. apply exp_pos. apply (gt_pos a z Ha Hz); lia. } apply Rabs_le_inv in HB. destruct (Rle_or_lt L 0); auto. nra. }
    split. apply Rdiv_lt_0_compat; auto. replace (gw a 54 z / Gamma a - L / Gamma a) with ((gw a 54 z - L) * / Gamma a) by (field; lra). rewrite Rabs_mult, (Rabs_pos_eq (/ Gamma a)) by (left; apply Rinv_0_lt_compat; auto). unfold Rdiv. rewrite <- Rmult_assoc. apply Rmult_le_compat_r; auto. left; apply Rinv_0_lt_compat; auto.
Qed.
