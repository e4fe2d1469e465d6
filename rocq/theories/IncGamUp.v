(** * The upper continued fraction of incomplete_gamma.hpp over the reals *)
From Verif Require Import Base SpecGamma SpecInc.
From Coq Require Import Lra Psatz.
From Coquelicot Require Import Coquelicot.
From Interval Require Import Tactic.
From Verif Require Import ErfReal GammaInt IncGamReal.
From Verif Require Import Base.
Open Scope R_scope.

Section Up.
Context (a : R).
Definition hB (d : Z) (z : R) : R := 2 * IZR d - 1 - a + z.
Definition hc (d : Z) : R := IZR d * (a - IZR d).
Definition hstep (z : R) (d : Z) (r : R) : R := hB d z + hc d / r.
Definition ht (n : nat) (d : Z) (z : R) : R := up_rec n d (hstep z) (hB (d + Z.of_nat n) z).
Fixpoint htD (n : nat) (d : Z) (z : R) : R :=
  match n with
  | O => 1
  | S m => 1 - hc d * htD m (d + 1) z / (ht m (d + 1) z * ht m (d + 1) z)
  end.
Fixpoint hgood (n : nat) (d : Z) (z : R) : Prop :=
  match n with
  | O => True
  | S m => ht m (d + 1) z <> 0 /\ hgood m (d + 1) z
  end.
Lemma ht_S n d z : ht (S n) d z = hB d z + hc d / ht n (d + 1) z.
Proof. unfold ht. cbn [up_rec]. unfold hstep at 1. replace (d + Z.of_nat (S n))%Z with (d + 1 + Z.of_nat n)%Z by lia. reflexivity. Qed.
Lemma ht_0 d z : ht 0 d z = hB d z.
Proof. unfold ht. cbn [up_rec]. rewrite Z.add_0_r. reflexivity. Qed.
Lemma ht_derive n : forall d z, hgood n d z -> is_derive (ht n d) z (htD n d z).
Proof.
  induction n; intros d z G.
  - apply is_derive_ext with (fun z => hB d z). intros t. symmetry. apply ht_0. cbn [htD]. unfold hB. auto_derive. auto. ring.
  - destruct G as (G0 & G). specialize (IHn _ z G). assert (E : ex_derive (ht n (d + 1)) z) by (eexists; eauto).
    apply is_derive_ext with (fun z => hB d z + hc d / ht n (d + 1) z). { intros t. symmetry. apply ht_S. }
    unfold hB. auto_derive. tauto. replace (Derive (fun x : R => ht n (d + 1) x) z) with (htD n (d + 1) z) by (symmetry; apply is_derive_unique; exact IHn). cbn [htD]. field. auto.
Qed.
Fixpoint hres (n : nat) (d : Z) (z : R) : R :=
  match n with
  | O => hc d
  | S m => - (hc d / (ht m (d + 1) z * ht m (d + 1) z) * hres m (d + 1) z)
  end.
Lemma ht_ode n : forall d z, hgood n d z ->
  z * htD n d z = ht n d z * ht n d z + (1 - hB d z) * ht n d z - hc (d - 1) + hres n d z.
Proof.
  induction n; intros d z G.
  - cbn [htD hres]. rewrite ht_0. unfold hB, hc. rewrite minus_IZR. ring.
  - destruct G as (G0 & G). specialize (IHn _ z G). rewrite ht_S. cbn [htD hres]. set (t := ht n (d + 1) z) in * . set (t' := htD n (d + 1) z) in * . set (r := hres n (d + 1) z) in * .
    replace (d + 1 - 1)%Z with d in IHn by ring. replace (z * (1 - hc d * t' / (t * t))) with (z - hc d * (z * t') / (t * t)) by (field; auto). rewrite IHn.
    unfold hB, hc. rewrite plus_IZR, minus_IZR. field. auto.
Qed.
Definition hw (n : nat) (z : R) : R := Rpower z a * exp (- z) / ht n 1 z.
Lemma hw_derive n z : 0 < z -> hgood n 1 z -> ht n 1 z <> 0 ->
  is_derive (hw n) z (- (gi a z * (1 + hres n 1 z / (ht n 1 z * ht n 1 z)))).
Proof.
  intros Hz G N. assert (O := ht_ode n 1 z G). assert (D := ht_derive n 1 z G). unfold hw. set (t := ht n 1) in * . assert (ED : ex_derive t z) by (eexists; eauto).
  assert (DD : Derive t z = htD n 1 z) by (apply is_derive_unique; auto).
  assert (DR := rpow_derive a z Hz). set (rp := fun t => Rpower t a) in * . assert (ER : ex_derive rp z) by (eexists; eauto). assert (DR2 : Derive rp z = a * Rpower z (a - 1)) by (apply is_derive_unique; auto).
  apply is_derive_ext with (fun x => rp x * exp (- x) / t x). reflexivity.
  auto_derive. tauto. change (Derive (fun x => rp x) z) with (Derive rp z). change (Derive (fun x => t x) z) with (Derive t z). rewrite DD, DR2. unfold gi.
  set (t' := htD n 1 z) in * . unfold hB, hc in O. change (1 - 1)%Z with 0%Z in O.
  assert (P : rp z = z * Rpower z (a - 1)). { unfold rp. replace a with (1 + (a - 1)) at 1 by ring. rewrite Rpower_plus, Rpower_1 by auto. reflexivity. }
  rewrite P. assert (hres n 1 z = z * t' - (a - z) * t z - t z * t z) by lra. rewrite H. field. auto.
Qed.
Lemma hres_S n d z : hgood (S n) d z -> ht (S n) d z <> 0 -> Rabs (hres (S n) d z / (ht (S n) d z * ht (S n) d z)) =
  Rabs (hc d) / (ht (S n) d z * ht (S n) d z) * Rabs (hres n (d + 1) z / (ht n (d + 1) z * ht n (d + 1) z)).
Proof.
  intros (G0 & G) N. cbn [hres]. set (T := ht (S n) d z) in * . set (t := ht n (d + 1) z) in * . set (r := hres n (d + 1) z).
  replace (- (hc d / (t * t) * r) / (T * T)) with (- (hc d / (T * T) * (r / (t * t)))) by (field; auto).
  rewrite Rabs_Ropp, !Rabs_mult. unfold Rdiv. rewrite (Rabs_mult (hc d)). rewrite (Rabs_pos_eq (/ (T * T))). ring. left. apply Rinv_0_lt_compat. nra.
Qed.
End Up.

(** ** Bounds for 1/2 <= a <= 10, z >= a + 99/10 *)
Section UpB.
Context (a z : R) (Ha : / 2 <= a <= 10) (Hz : a + 99 / 10 <= z).
Lemma ht_low n : forall d, (1 <= d)%Z -> (IZR d <= a -> 2 * IZR d - 1 - a + z <= ht a n d z) /\ (a <= IZR d -> IZR d - 1 + z <= ht a n d z).
Proof.
  induction n as [|n IH]; intros d Hd; assert (D1 : 1 <= IZR d) by (apply IZR_le; lia).
  - rewrite ht_0. unfold hB. lra.
  - rewrite ht_S. destruct (IH (d + 1)%Z ltac:(lia)) as (I1 & I2). rewrite plus_IZR in * . set (x := IZR d) in * . set (X := ht a n (d + 1) z) in * . unfold hB, hc. fold x.
    assert (XP : x <= X). { destruct (Rle_or_lt (x + 1) a) as [C|C]. specialize (I1 C). lra. specialize (I2 ltac:(lra)). lra. }
    assert (IX : 0 < / X) by (apply Rinv_0_lt_compat; lra). split; intros C.
    + assert (0 <= x * (a - x) / X) by (apply Rmult_le_pos; [apply Rmult_le_pos; lra|lra]). lra.
    + assert (x / X <= 1). { apply (Rmult_le_reg_r X). lra. unfold Rdiv. rewrite Rmult_assoc, Rinv_l by lra. lra. } assert (x / X * (x - a) <= 1 * (x - a)) by (apply Rmult_le_compat_r; lra). replace (x * (a - x) / X) with (- (x / X * (x - a))) by (unfold Rdiv; ring). lra.
Qed.
Lemma ht_nine n d : (1 <= d)%Z -> IZR d + 89 / 10 <= ht a n d z.
Proof. intros Hd. assert (D1 : 1 <= IZR d) by (apply IZR_le; lia). destruct (ht_low n d Hd) as (L1 & L2). destruct (Rle_or_lt (IZR d) a) as [C|C]. specialize (L1 C). lra. specialize (L2 ltac:(lra)). lra. Qed.
Lemma ht_good n : forall d, (1 <= d)%Z -> hgood a n d z.
Proof. induction n; intros d Hd; cbn [hgood]; auto. split. assert (P := ht_nine n (d + 1) ltac:(lia)). assert (1 <= IZR (d + 1)) by (apply IZR_le; lia). lra. apply IHn. lia. Qed.
Definition hF (d : Z) : R := if (d <=? 4)%Z then / 10 else IZR d * IZR d / ((IZR d + 89 / 10) * (IZR d + 89 / 10)).
Lemma hF_ok n d : (1 <= d)%Z -> Rabs (hc a d) / (ht a n d z * ht a n d z) <= hF d.
Proof.
  intros Hd. assert (D1 : 1 <= IZR d) by (apply IZR_le; lia). destruct (ht_low n d Hd) as (L1 & L2). assert (L3 := ht_nine n d Hd). set (t := ht a n d z) in * . unfold hc, hF. 
  assert (M : (IZR d + 89 / 10) * (IZR d + 89 / 10) <= t * t) by nra. assert (M0 : 0 < (IZR d + 89 / 10) * (IZR d + 89 / 10)) by nra. 
  destruct (Z.leb_spec d 4) as [C|C].
  - apply IZR_le in C. set (x := IZR d) in * . apply (Rmult_le_reg_r (t * t)). lra. unfold Rdiv. rewrite Rmult_assoc, Rinv_l by lra. rewrite Rmult_1_r. destruct (Rle_or_lt x a) as [E|E].
    + specialize (L1 E). rewrite Rabs_pos_eq by (apply Rmult_le_pos; lra). assert ((2 * x + 89 / 10) * (2 * x + 89 / 10) <= t * t) by nra. assert (x * (a - x) <= x * (10 - x)) by (apply Rmult_le_compat_l; lra). assert (0 <= (x - 23 / 10) * (x - 23 / 10)) by apply Rle_0_sqr. lra.
    + rewrite Rabs_left by nra. assert (x * (x - a) <= x * x) by (apply Rmult_le_compat_l; lra). assert (x * x <= x * 4) by (apply Rmult_le_compat_l; lra). lra.
  - assert (D5 : 5 <= IZR d) by (apply IZR_le; lia). set (x := IZR d) in * . apply Rmult_le_compat. apply Rabs_pos. left. apply Rinv_0_lt_compat. lra. 2: apply Rinv_le_contravar; lra.
    apply Rabs_le. split. assert (x * (x - a) <= x * x) by (apply Rmult_le_compat_l; lra). lra. apply Rmult_le_compat_l; lra.
Qed.
Fixpoint hP (n : nat) (d : Z) : R := match n with O => hF d | S m => hF d * hP m (d + 1) end.
Lemma hres_bnd n : forall d, (1 <= d)%Z -> Rabs (hres a n d z / (ht a n d z * ht a n d z)) <= hP n d.
Proof.
  induction n; intros d Hd; assert (T := ht_nine); assert (D1 : 1 <= IZR d) by (apply IZR_le; lia).
  - cbn [hP hres]. specialize (T 0%nat d Hd). unfold Rdiv. rewrite Rabs_mult, (Rabs_pos_eq (/ _)). apply (hF_ok 0 d Hd). left. apply Rinv_0_lt_compat. nra.
  - specialize (T (S n) d Hd). rewrite hres_S. 2: apply ht_good; auto. 2: lra. cbn [hP]. apply Rmult_le_compat; auto. 2: apply Rabs_pos. 2: apply hF_ok; auto. 2: apply IHn; lia.
    apply Rmult_le_pos. apply Rabs_pos. left. apply Rinv_0_lt_compat. nra.
Qed.
End UpB.
Lemma hP_val : hP 99 1 <= bpow radix2 (-76).
Proof. change (bpow radix2 (-76)) with (/ IZR (2 ^ 76)). cbv [hP hF Z.add Z.leb Z.compare Pos.add Pos.succ Pos.compare Pos.compare_cont Pos.add_carry Z.pow Z.pow_pos Pos.iter Z.mul Pos.mul]. interval. Qed.

(** ** From the derivative to the integral *)
Lemma INR_above x : 0 < x -> exists m, x < INR m.
Proof. intros H. destruct (archimed x) as (A & _). exists (Z.to_nat (up x)). rewrite INR_IZR_INZ, Z2Nat.id. exact A. apply le_IZR. lra. Qed.
Lemma low_lim a z : 0 < a -> 1 <= z -> exists L, is_lim_seq (fun n => RInt (gi a) (z / (INR n + 1)) z) (Finite L) /\ is_lim_seq (fun n => RInt (gi a) (ga n) z) (Finite L) /\ 0 <= L.
Proof.
  intros Ha Hz. set (s := fun n => RInt (gi a) (z / (INR n + 1)) z). set (s' := fun n => RInt (gi a) (ga n) z).
  assert (ZN : forall n, z / (INR n + 1) = z * ga n) by (intros; reflexivity). assert (GP := ga_pos).
  assert (Z1 : forall n, z * ga n <= z). { intros n. rewrite <- (Rmult_1_r z) at 2. apply Rmult_le_compat_l. lra. apply GP. }
  assert (Z2 : forall n, ga n <= z * ga n). { intros n. rewrite <- (Rmult_1_l (ga n)) at 1. apply Rmult_le_compat_r. apply Rlt_le, GP. lra. }
  assert (SS : forall n, s n <= s' n). { intros n. unfold s, s'. rewrite ZN. apply gi_mono. split. apply GP. apply Z2. apply Z1. lra. }
  assert (BD : forall n, s' n <= 1 / a + 2 * gC (a - 1)). { intros n. unfold s'. destruct (GP n) as (G0 & G1). rewrite (gi_chasles a (ga n) 1 z) by lra. assert (H1 := gi_head a (ga n) Ha ltac:(lra)). assert (H2 := gi_tail a z Hz). lra. }
  destruct (ex_finite_lim_seq_incr s (1 / a + 2 * gC (a - 1))) as (L & HL). { intros n. unfold s. rewrite !ZN. assert (A := ga_S n). apply gi_mono. split. apply Rmult_lt_0_compat. lra. apply GP. apply Rmult_le_compat_l; lra. apply Z1. lra. } { intros n. eapply Rle_trans. apply SS. apply BD. }
  destruct (ex_finite_lim_seq_incr s' (1 / a + 2 * gC (a - 1))) as (L' & HL'). { intros n. unfold s'. assert (A := ga_S n). apply gi_mono. split. apply GP. lra. assert (B := GP n). lra. lra. } { exact BD. }
  assert (LL : L <= L') by exact (is_lim_seq_le _ _ _ _ SS HL HL').
  assert (INC : forall n, s n <= L). { intros n. apply (is_lim_seq_incr_compare s). exact HL. intros m. unfold s. rewrite !ZN. assert (A := ga_S m). apply gi_mono. split. apply Rmult_lt_0_compat. lra. apply GP. apply Rmult_le_compat_l; lra. apply Z1. lra. }
  assert (LU : L' <= L). { apply (is_lim_seq_le s' (fun _ => L) L' L); auto. 2: apply is_lim_seq_const. intros n. destruct (INR_above (z * (INR n + 1))) as (m & Hm). { apply Rmult_lt_0_compat. lra. assert (P := pos_INR n). lra. } eapply Rle_trans; [|apply (INC m)]. unfold s', s. rewrite ZN. apply gi_mono.
    - split. apply Rmult_lt_0_compat. lra. apply GP. unfold ga. assert (P := pos_INR n). assert (Q := pos_INR m). apply (Rmult_le_reg_r ((INR m + 1) * (INR n + 1))). apply Rmult_lt_0_compat; lra. replace (z * / (INR m + 1) * ((INR m + 1) * (INR n + 1))) with (z * (INR n + 1)) by (field; lra). replace (/ (INR n + 1) * ((INR m + 1) * (INR n + 1))) with (INR m + 1) by (field; lra). lra.
    - assert (B := GP n). lra.
    - lra. }
  exists L. split. exact HL. split. replace L with L' by lra. exact HL'. apply (is_lim_seq_le (fun _ => 0) s 0 L); auto. 2: apply is_lim_seq_const. intros n. unfold s. rewrite ZN. apply gi_int_pos. split. apply Rmult_lt_0_compat. lra. apply GP. apply Z1.
Qed.
Lemma up_int a z (G h : R -> R) eps : 0 < a -> 1 <= z -> 0 <= eps < 1 -> (forall t, z <= t -> is_derive G t (- (gi a t * (1 + h t))) /\ Rabs (h t) <= eps) ->
  is_lim_seq (fun n => G (gb n)) 0 -> 0 <= gamma_P a z <= 1 /\ Rabs (G z / Gamma a - (1 - gamma_P a z)) <= eps * (1 - gamma_P a z).
Proof.
  intros Ha Hz He H HL. destruct (low_lim a z Ha Hz) as (L & H1 & H2 & L0). assert (HG := Gamma_lim a Ha). assert (GG := Gamma_pos a Ha).
  assert (HU : is_lim_seq (fun n => RInt (gi a) z (gb n)) (Gamma a - L)). { apply (is_lim_seq_ext (fun n => gseq a n - RInt (gi a) (ga n) z)). intros n. unfold gseq. assert (A := ga_pos n). assert (B := gb_ge n). rewrite (gi_chasles a (ga n) z (gb n)) by lra. ring. apply is_lim_seq_minus'; auto. }
  assert (B : forall b, z <= b -> Rabs (G z - G b - RInt (gi a) z b) <= eps * RInt (gi a) z b).
  { intros b Hb. assert (DI : forall t, z <= t <= b -> is_derive (fun t => RInt (gi a) z t) t (gi a t)).
    { intros t Ht. apply (is_derive_RInt (gi a) (fun t => RInt (gi a) z t) z t). 2: apply gi_cont; lra.
      assert (T0 : 0 < t) by lra. exists (mkposreal _ T0). intros y Hy. apply (@RInt_correct R_CompleteNormedModule). apply gi_ex. lra. cbn in Hy. unfold ball in Hy. cbn in Hy. unfold AbsRing_ball, abs, minus, plus, opp in Hy. cbn in Hy. apply Rabs_def2 in Hy. lra. }
    assert (M : forall sg, (sg = 1 \/ sg = -1) -> sg * (G z - G b - RInt (gi a) z b) <= eps * RInt (gi a) z b).
    { intros sg Hs. assert (Q := mvt_le (fun t => (- sg) * (G t - RInt (gi a) z t) - (eps + 2 * sg) * RInt (gi a) z t) (fun t => (- sg) * (- (gi a t * (1 + h t)) - gi a t) - (eps + 2 * sg) * gi a t) z b Hb).
      assert (E0 : RInt (gi a) z z = 0) by apply (RInt_point z (gi a)). cbn beta in Q. rewrite E0 in Q.
      assert ((- sg) * (G b - RInt (gi a) z b) - (eps + 2 * sg) * RInt (gi a) z b <= (- sg) * (G z - 0) - (eps + 2 * sg) * 0).
      { apply Q. intros t Ht. destruct (H t ltac:(lra)) as (D1 & B1). assert (D2 := DI t Ht). split.
        - apply (comb_derive (- sg) (eps + 2 * sg) G (fun t => RInt (gi a) z t)); auto.
        - assert (P := gi_pos a t). apply Rabs_le_inv in B1. replace ((- sg) * (- (gi a t * (1 + h t)) - gi a t) - (eps + 2 * sg) * gi a t) with (gi a t * (sg * h t - eps)) by ring. destruct Hs as [->| ->]; nra. }
      lra. }
    assert (M1 := M 1 ltac:(auto)). assert (M2 := M (-1) ltac:(auto)). apply Rabs_le. lra. }
  assert (EV : exists N, forall n, (N <= n)%nat -> z <= gb n). { destruct (INR_above z ltac:(lra)) as (m & Hm). exists m. intros n Hn. unfold gb. apply le_INR in Hn. lra. }
  set (U := Gamma a - L) in * .
  assert (L1 : is_lim_seq (fun n => G z - G (gb n) - RInt (gi a) z (gb n)) (G z - 0 - U)) by (apply is_lim_seq_minus'; [apply is_lim_seq_minus'; [apply is_lim_seq_const|exact HL]|exact HU]).
  assert (L2 : is_lim_seq (fun n => eps * RInt (gi a) z (gb n)) (eps * U)) by (apply (is_lim_seq_scal_l _ eps U); exact HU).
  assert (V1 : Rbar_le (G z - 0 - U) (eps * U)). { apply (is_lim_seq_le_loc (fun n => G z - G (gb n) - RInt (gi a) z (gb n)) (fun n => eps * RInt (gi a) z (gb n))); auto. destruct EV as (N & EV). exists N. intros n Hn. apply (proj2 (Rabs_le_inv _ _ (B (gb n) (EV n Hn)))). }
  assert (V2 : Rbar_le (- (eps * U)) (G z - 0 - U)). { apply (is_lim_seq_le_loc (fun n => - (eps * RInt (gi a) z (gb n))) (fun n => G z - G (gb n) - RInt (gi a) z (gb n))); auto. destruct EV as (N & EV). exists N. intros n Hn. apply (proj1 (Rabs_le_inv _ _ (B (gb n) (EV n Hn)))). exact (proj1 (is_lim_seq_opp _ _) L2). }
  cbn in V1, V2. assert (U0 : 0 <= U). { apply (is_lim_seq_le_loc (fun _ => 0) (fun n => RInt (gi a) z (gb n)) 0 U); auto. destruct EV as (N & EV). exists N. intros n Hn. apply gi_int_pos. specialize (EV n Hn). lra. apply is_lim_seq_const. }
  unfold gamma_P. change (fun t => Rpower t (a - 1) * exp (- t)) with (gi a). rewrite (is_lim_seq_unique _ _ H1). cbn [real].
  assert (I : 0 < / Gamma a) by (apply Rinv_0_lt_compat; auto). replace (1 - L / Gamma a) with (U * / Gamma a) by (unfold U; field; lra). split.
  - split. apply Rmult_le_pos; lra. apply (Rmult_le_reg_r (Gamma a)). auto. unfold Rdiv. rewrite Rmult_assoc, Rinv_l by lra. unfold U in U0. lra.
  - replace (G z / Gamma a - U * / Gamma a) with ((G z - U) * / Gamma a) by (unfold Rdiv; ring). rewrite Rabs_mult, (Rabs_pos_eq (/ Gamma a)) by lra. rewrite <- Rmult_assoc. apply Rmult_le_compat_r. lra. apply Rabs_le. lra.
Qed.
Lemma up_trunc a z : / 2 <= a <= 10 -> a + 99 / 10 <= z -> 0 <= gamma_P a z <= 1 /\ Rabs (hw a 99 z / Gamma a - (1 - gamma_P a z)) <= bpow radix2 (-76) * (1 - gamma_P a z).
Proof.
  intros Ha Hz. assert (b0 := bpow_gt_0 radix2 (-76)). assert (b1 : bpow radix2 (-76) < 1) by (apply (bpow_lt radix2 (-76) 0); lia).
  apply (up_int a z (hw a 99) (fun t => hres a 99 1 t / (ht a 99 1 t * ht a 99 1 t))); try lra.
  - intros t Ht. assert (Ht' : a + 99 / 10 <= t) by lra. assert (T := ht_nine a t Ha Ht' 99 1 ltac:(lia)). split. apply hw_derive. lra. apply ht_good; auto; lia. lra. eapply Rle_trans. apply hres_bnd; auto; lia. apply hP_val.
  - apply (is_lim_seq_le_le_loc (fun _ => 0) _ (fun n => Rpower (gb n) a * exp (- gb n))).
    + destruct (INR_above z ltac:(lra)) as (m & Hm). exists m. intros n Hn. apply le_INR in Hn. assert (Ht' : a + 99 / 10 <= gb n) by (unfold gb; lra). assert (T := ht_nine a (gb n) Ha Ht' 99 1 ltac:(lia)). unfold hw. assert (rp := rpow_pos (gb n) a). assert (ep := exp_pos (- gb n)). assert (re : 0 <= Rpower (gb n) a * exp (- gb n)) by (apply Rmult_le_pos; lra). assert (0 < / ht a 99 1 (gb n)) by (apply Rinv_0_lt_compat; lra). assert (/ ht a 99 1 (gb n) <= 1) by (rewrite <- Rinv_1; apply Rinv_le_contravar; lra).
      split. apply Rmult_le_pos; lra. unfold Rdiv. rewrite <- (Rmult_1_r (Rpower (gb n) a * exp (- gb n))) at 2. apply Rmult_le_compat_l; lra.
    + apply is_lim_seq_const.
    + apply rpow_b_lim.
Qed.
