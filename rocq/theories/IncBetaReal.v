(** * The continued fraction of incomplete_beta.hpp: continuants, Riccati
    equations of the tails, truncation error *)
From Verif Require Import Base.
From Coq Require Import Lra Psatz.
From Coquelicot Require Import Coquelicot.
From Interval Require Import Tactic.
From Verif Require Import SpecGamma SpecInc GammaInt ErfReal IncBeta IncGamReal IncBetaCF.
Open Scope R_scope.

(** ** Continuants *)
Section K.
Context (al : nat -> R).
Fixpoint kb (n m : nat) : R :=
  match n with
  | O => 1
  | S p => match p with O => 1 + al m | S q => kb p (S m) + al m * kb q (S (S m)) end
  end.
Lemma kb_SS n m : kb (S (S n)) m = kb (S n) (S m) + al m * kb n (S (S m)).
Proof. reflexivity. Qed.
Lemma kb_fwd n : forall m, kb (S (S n)) m = kb (S n) m + al (m + S n)%nat * kb n m.
Proof.
  enough (H : forall m, kb (S (S n)) m = kb (S n) m + al (m + S n)%nat * kb n m /\ kb (S (S (S n))) m = kb (S (S n)) m + al (m + S (S n))%nat * kb (S n) m) by (intros m; apply H).
  induction n; intros m.
  - split. cbn. replace (m + 1)%nat with (S m) by lia. ring. rewrite (kb_SS 1). cbn. replace (m + 2)%nat with (S (S m)) by lia. ring.
  - split. apply IHn. rewrite (kb_SS (S (S n))). destruct (IHn (S m)) as (_ & A). rewrite A. destruct (IHn (S (S m))) as (B & _). rewrite B. rewrite (kb_SS (S n) m), (kb_SS n m).
    replace (S m + S (S n))%nat with (m + S (S (S n)))%nat by lia. replace (S (S m) + S n)%nat with (m + S (S (S n)))%nat by lia. ring.
Qed.
Lemma kb_tt n : (forall n m, 0 < tt al n m) -> forall m, 0 < kb n m /\ kb (S n) m = tt al (S n) m * kb n (S m).
Proof.
  intros P. induction n; intros m.
  - split. cbn. lra. cbn. field.
  - destruct (IHn m) as (_ & E). destruct (IHn (S m)) as (K1 & E1). assert (T := P (S n) m). split. rewrite E. apply Rmult_lt_0_compat; auto.
    rewrite kb_SS, E1. assert (T1 := P (S n) (S m)). change (tt al (S (S n)) m) with (1 + al m / tt al (S n) (S m)). field. lra.
Qed.
Context (P : forall n m, 0 < tt al n m).
Notation D := (dd al (/ (1 + al 0%nat))).
Notation G := (dd al 1).
Lemma kb_pos n m : 0 < kb n m. Proof. apply kb_tt. auto. Qed.
Lemma D_kb n : D n = kb n 0 / kb (S n) 0.
Proof.
  induction n. cbn. unfold Rdiv. ring. rewrite dd_S, IHn, (kb_fwd n 0). cbn [Nat.add]. assert (A := kb_pos n 0). assert (B := kb_pos (S n) 0). assert (C := kb_pos (S (S n)) 0). rewrite (kb_fwd n 0) in C. cbn [Nat.add] in C.
  field. repeat split; lra.
Qed.
Lemma G_kb n : G (S n) = kb n 1 / kb (S n) 1.
Proof.
  induction n. cbn. rewrite Rmult_1_r. unfold Rdiv. ring. rewrite dd_S, IHn, (kb_fwd n 1). assert (A := kb_pos n 1). assert (B := kb_pos (S n) 1). assert (C := kb_pos (S (S n)) 1). rewrite (kb_fwd n 1) in C. cbn [Nat.add] in * .
  field. repeat split; lra.
Qed.
(** The approximants *)
Fixpoint FF (n : nat) : R :=
  match n with
  | O => 1
  | S m => match m with O => D 0 | S _ => FF m * (D m / G m) end
  end.
Lemma FF_S n : FF (S (S n)) = FF (S n) * (D (S n) / G (S n)).
Proof. reflexivity. Qed.
Lemma FF_kb n : FF (S n) = kb n 1 / kb (S n) 0.
Proof.
  induction n. cbn. unfold Rdiv. ring. rewrite FF_S, IHn, D_kb, G_kb. assert (A := kb_pos n 1). assert (B := kb_pos (S n) 0). assert (C := kb_pos (S n) 1). assert (E := kb_pos (S (S n)) 0). field. repeat split; lra.
Qed.
Lemma FF_tt n : FF n = / tt al n 0.
Proof. destruct n. cbn. field. rewrite FF_kb. destruct (kb_tt n P 0%nat) as (_ & E). rewrite E. assert (A := P (S n) 0%nat). assert (B := kb_pos n 1). field. lra. Qed.
(** Differences *)
Fixpoint pr (n : nat) : R := match n with O => D 0 - 1 | S m => pr m * (D n - 1) end.
Lemma D_pos n : 0 < D n. Proof. rewrite D_kb. apply Rdiv_lt_0_compat; apply kb_pos. Qed.
Lemma G_pos n : 0 < G n. Proof. destruct n. cbn; lra. rewrite G_kb. apply Rdiv_lt_0_compat; apply kb_pos. Qed.
Lemma FF_pos n : 0 < FF n. Proof. rewrite FF_tt. apply Rinv_0_lt_compat. auto. Qed.
Lemma inv_nz d : 0 < / d -> d <> 0.
Proof. intros H ->. rewrite Rinv_0 in H. lra. Qed.
Lemma FF_diff n : FF (S n) - FF n = pr n.
Proof.
  induction n. reflexivity. cbn [pr]. rewrite <- IHn, FF_S. assert (D1 := D_pos (S n)). assert (G1 := G_pos (S n)). rewrite (dd_S al _ n), (dd_S al 1 n) in * . apply inv_nz in D1. apply inv_nz in G1.
  destruct n.
  - cbn [FF]. cbn [dd] in * . assert (D0 := D_pos 0). cbn [dd] in D0. apply inv_nz in D0. set (x := al 1%nat) in * . set (y := al 0%nat) in * . rewrite Rmult_1_r in G1. assert (X : 1 + y + x <> 0). { intros E. apply D1. apply (Rmult_eq_reg_r (1 + y)); auto. rewrite Rmult_0_l. rewrite <- E. field. auto. } field. repeat split; auto.
  - rewrite FF_S. assert (D2 := D_pos (S n)). assert (G2 := G_pos (S n)). set (p := D (S n)) in * . set (q := G (S n)) in * . set (x := al (S (S n))) in * . field. repeat split; auto; lra.
Qed.
Fixpoint pal (n d : nat) : R := match n with O => Rabs (al d) | S m => Rabs (al d) * pal m (S d) end.
Lemma pal_S n : forall d, pal (S n) d = pal n d * Rabs (al (d + S n)%nat).
Proof. induction n; intros d. cbn. replace (d + 1)%nat with (S d) by lia. ring. change (pal (S (S n)) d) with (Rabs (al d) * pal (S n) (S d)). rewrite IHn. cbn [pal]. replace (S d + S n)%nat with (d + S (S n))%nat by lia. ring. Qed.
Lemma pr_abs n : Rabs (pr n) = pal n 0 / (kb n 0 * kb (S n) 0).
Proof.
  induction n.
  - cbn [pr pal]. rewrite D_kb. assert (B := kb_pos 1 0). cbn [kb] in * . replace (1 / (1 + al 0%nat) - 1) with (- (al 0%nat * / (1 + al 0%nat))) by (field; lra). rewrite Rabs_Ropp, Rabs_mult, (Rabs_pos_eq (/ _)) by (left; apply Rinv_0_lt_compat; auto). unfold Rdiv. rewrite Rmult_1_l. reflexivity.
  - cbn [pr]. rewrite Rabs_mult, IHn, pal_S. cbn [Nat.add]. assert (A := kb_pos n 0). assert (B := kb_pos (S n) 0). assert (C := kb_pos (S (S n)) 0).
    replace (D (S n) - 1) with (- (al (S n) * (kb n 0 / kb (S (S n)) 0))). 2:{ rewrite D_kb. rewrite (kb_fwd n 0) in * . cbn [Nat.add] in * . field. lra. }
    rewrite Rabs_Ropp, Rabs_mult, (Rabs_pos_eq (kb n 0 / _)) by (left; apply Rdiv_lt_0_compat; auto). field. lra.
Qed.
End K.

(** ** Riccati equations *)
Section Ric.
Context (a b : R) (Ha : 0 < a).
Lemma cf_lin z d : cf a b z d = z * cf a b 1 d.
Proof. unfold cf, ce, co. destruct (Nat.even d); unfold Rdiv; ring. Qed.
Definition p1 (d : nat) : R := if Nat.even d then - (a + b) else a + b - 1.
Definition ss (d : nat) : R := match d with O => 0 | S m => (a + INR m) * cf a b 1 m end.
Lemma cf_rel d : cf a b 1 d * (1 + a + INR d) = p1 d + ss d.
Proof.
  destruct (Nat.Even_or_Odd d) as [(k & ->)|(k & ->)].
  - rewrite cf_even. unfold p1. rewrite Nat.even_mul. cbn [Nat.even orb]. destruct k. change (2 * 0)%nat with 0%nat. change (INR 0) with 0. cbn [ss]. unfold ce. field. lra.
    replace (2 * S k)%nat with (S (S (2 * k))) by lia. cbn [ss]. rewrite cf_odd. rewrite !S_INR. rewrite mult_INR. assert (P := pos_INR k). change (INR 2) with 2. set (x := INR k) in * . unfold ce, co. field. lra.
  - replace (2 * k + 1)%nat with (S (2 * k)) by lia. rewrite cf_odd. unfold p1. rewrite Nat.even_succ, Nat.odd_mul. cbn [Nat.odd Nat.even negb andb ss]. rewrite cf_even, S_INR, mult_INR. assert (P := pos_INR k). change (INR 2) with 2. set (x := INR k) in * . unfold ce, co. field. lra.
Qed.
Lemma p1_S d : p1 (S d) = - (1 + p1 d).
Proof. unfold p1. rewrite Nat.even_succ. rewrite <- Nat.negb_even. destruct (Nat.even d); cbn [negb]; ring. Qed.
Definition bt (n d : nat) (z : R) : R := tt (cf a b z) n d.
Lemma bt_S n d z : bt (S n) d z = 1 + cf a b 1 d * z / bt n (S d) z.
Proof. unfold bt. cbn [tt]. rewrite cf_lin. unfold Rdiv. ring. Qed.
Fixpoint btD (n d : nat) (z : R) : R :=
  match n with
  | O => 0
  | S m => cf a b 1 d * (/ bt m (S d) z - z * btD m (S d) z / (bt m (S d) z * bt m (S d) z))
  end.
Fixpoint bres (n d : nat) (z : R) : R :=
  match n with
  | O => - (cf a b 1 d * (1 + a + INR d) * z)
  | S m => - (cf a b 1 d * z / (bt m (S d) z * bt m (S d) z) * bres m (S d) z)
  end.
Lemma bt_derive n : forall d z, (forall n d, 0 < bt n d z) -> is_derive (bt n d) z (btD n d z).
Proof.
  induction n; intros d z G.
  - apply is_derive_ext with (fun _ => 1). reflexivity. cbn [btD]. auto_derive. auto. ring.
  - specialize (IHn (S d) z G). assert (G0 := G n (S d)).
    apply is_derive_ext with (fun z => 1 + cf a b 1 d * z / bt n (S d) z). { intros t. symmetry. apply bt_S. }
    cbn [btD]. generalize (cf a b 1 d). intros c1. set (t := bt n (S d)) in * . set (t' := btD n (S d) z) in * .
    assert (ED : ex_derive t z) by (exists t'; auto). assert (DD : Derive t z = t') by (apply is_derive_unique; auto).
    auto_derive. split. auto. split. lra. auto. match goal with |- context [Derive ?g z] => change (Derive g z) with (Derive t z) end. rewrite DD. field. lra.
Qed.
Lemma bt_ode n : forall d z, (forall n d, 0 < bt n d z) ->
  z * (1 - z) * btD n d z = (a + INR d + p1 d * z) * bt n d z - (a + INR d) * (bt n d z * bt n d z) + ss d * z + bres n d z.
Proof.
  induction n; intros d z G.
  - cbn [btD bres]. rewrite cf_rel. unfold bt. cbn [tt]. ring.
  - specialize (IHn (S d) z G). assert (G0 := G n (S d)).
    rewrite bt_S. cbn [btD bres]. set (t := bt n (S d) z) in * . set (t' := btD n (S d) z) in * . set (r := bres n (S d) z) in * . assert (R := cf_rel d).
    rewrite p1_S, S_INR in IHn. cbn [ss] in IHn. set (c := cf a b 1 d) in * .
    replace (z * (1 - z) * (c * (/ t - z * t' / (t * t)))) with (c * z * ((1 - z) * / t - (z * (1 - z) * t') / (t * t))) by (field; lra).
    rewrite IHn. replace (ss d) with (c * (1 + a + INR d) - p1 d) by lra. field. lra.
Qed.
Definition bw (n : nat) (z : R) : R := Rpower z a * Rpower (1 - z) b / (a * bt n 0 z).
Definition bk (t : R) : R := Rpower t (a - 1) * Rpower (1 - t) (b - 1).
Lemma bw_derive n z : 0 < z < 1 -> (forall n d, 0 < bt n d z) ->
  is_derive (bw n) z (bk z * (1 + - (bres n 0 z / (a * (bt n 0 z * bt n 0 z))))).
Proof.
  intros Hz G. assert (O := bt_ode n 0 z G). assert (D := bt_derive n 0 z G). assert (G0 := G n 0%nat). unfold bw. set (t := bt n 0) in * . assert (ED : ex_derive t z) by (eexists; eauto).
  assert (DD : Derive t z = btD n 0 z) by (apply is_derive_unique; auto).
  assert (DR := rpow_derive a z ltac:(lra)). set (rp := fun t => Rpower t a) in * . assert (ER : ex_derive rp z) by (eexists; eauto). assert (DR2 : Derive rp z = a * Rpower z (a - 1)) by (apply is_derive_unique; auto).
  assert (DQ := rpow_derive b (1 - z) ltac:(lra)). set (rq := fun t => Rpower t b) in * . assert (EQ : ex_derive rq (1 - z)) by (eexists; eauto). assert (DQ2 : Derive rq (1 - z) = b * Rpower (1 - z) (b - 1)) by (apply is_derive_unique; auto).
  apply is_derive_ext with (fun x => rp x * rq (1 - x) / (a * t x)). reflexivity.
  auto_derive. repeat split; auto. nra. change (Derive (fun x => rp x) z) with (Derive rp z). change (Derive (fun x => t x) z) with (Derive t z). change (Derive (fun x => rq x) (1 + - z)) with (Derive rq (1 - z)). rewrite DD, DR2, DQ2. unfold bk.
  set (t' := btD n 0 z) in * . cbn [INR ss p1 Nat.even] in O. unfold p1 in O. cbn [Nat.even] in O.
  assert (PA : rp z = z * Rpower z (a - 1)). { unfold rp. replace a with (1 + (a - 1)) at 1 by ring. rewrite Rpower_plus, Rpower_1 by lra. reflexivity. }
  assert (PB : rq (1 - z) = (1 - z) * Rpower (1 - z) (b - 1)). { unfold rq. replace b with (1 + (b - 1)) at 1 by ring. rewrite Rpower_plus, Rpower_1 by lra. reflexivity. }
  change (rq (1 + - z)) with (rq (1 - z)). rewrite PA, PB. assert (E : bres n 0 z = z * (1 - z) * t' - (a - (a + b) * z) * t z + a * (t z * t z)) by lra. rewrite E. generalize (Rpower z (a - 1)) (Rpower (1 - z) (b - 1)). intros A B. field. lra.
Qed.
Lemma bres_abs n : forall d z, 0 < z -> (forall n d, 0 < bt n d z) -> Rabs (bres n d z) / (bt n d z * bt n d z) = pal (cf a b z) n d * (1 + a + INR (d + n)) / (kb (cf a b z) n d * kb (cf a b z) n d).
Proof.
  induction n; intros d z Hz G.
  - cbn [bres pal kb]. unfold bt. cbn [tt]. rewrite Rabs_Ropp, (cf_lin z d). rewrite !Rabs_mult. rewrite (Rabs_pos_eq (1 + a + INR d)), (Rabs_pos_eq z). rewrite Nat.add_0_r. field. lra. assert (P := pos_INR d). lra.
  - assert (G0 := G n (S d)). assert (G1 := G (S n) d). specialize (IHn (S d) z Hz G). destruct (kb_tt (cf a b z) n G d) as (_ & EK). assert (K0 := proj1 (kb_tt (cf a b z) n G (S d))).
    cbn [bres pal]. rewrite EK. fold (bt (S n) d z). set (T := bt (S n) d z) in * . set (t := bt n (S d) z) in * . rewrite Rabs_Ropp, Rabs_mult. replace (cf a b 1 d * z / (t * t)) with (cf a b z d * / (t * t)) by (rewrite (cf_lin z d); unfold Rdiv; ring).
    rewrite Rabs_mult, (Rabs_pos_eq (/ (t * t))) by (left; apply Rinv_0_lt_compat; nra). replace (Rabs (cf a b z d) * / (t * t) * Rabs (bres n (S d) z) / (T * T)) with (Rabs (cf a b z d) / (T * T) * (Rabs (bres n (S d) z) / (t * t))) by (field; lra).
    rewrite IHn. replace (S d + n)%nat with (d + S n)%nat by lia. field. lra.
Qed.
End Ric.

(** ** Size of the differences *)
Section P.
Context (a b z : R) (Ha : / 2 <= a <= 10) (Hb : / 2 <= b <= 10) (Hz : 0 < z <= 7 / 8) (Hzt : z * (a + b + 2) <= (a + 1) * (1 + ee)).
Notation al := (cf a b z).
Lemma cf_hal n : Rabs (al n - al n) <= ee * Rabs (al n).
Proof. unfold Rminus. rewrite Rplus_opp_r, Rabs_R0. apply Rmult_le_pos. unfold ee; lra. apply Rabs_pos. Qed.
Lemma cf_tpos n m : 0 < tt al n m.
Proof. apply (tt_pos a b z Ha Hb Hz Hzt al cf_hal). Qed.
Notation D := (dd al (/ (1 + al 0%nat))).
Lemma D_start : 1 <= / (1 + al 0%nat) <= 51 / 100 * (a + b + 2).
Proof. assert (H := D0_bnd a b z Ha Hb Hz Hzt al cf_hal). lra. Qed.
Lemma G_start : 1 <= 1 <= 51 / 100 * (a + b + 2).
Proof. lra. Qed.
Lemma pr_odd k : Rabs (pr al (S (2 * k))) <= Rabs (pr al (2 * k)).
Proof. cbn [pr]. rewrite Rabs_mult. assert (H := odd_one a b z Ha Hb Hz Hzt al cf_hal _ D_start k). assert (P := Rabs_pos (pr al (2 * k))). rewrite <- (Rmult_1_r (Rabs (pr al (2 * k)))) at 2. apply Rmult_le_compat_l; auto. Qed.
Lemma pr_pair k r : Rabs (D (2 * S k - 1)%nat - 1) * (D (2 * S k)%nat - 1) <= r -> Rabs (pr al (2 * S k)) <= r * Rabs (pr al (2 * k)).
Proof.
  intros H. assert (E := even_six a b z Ha Hb Hz Hzt al cf_hal _ D_start (S k) ltac:(lia)). replace (2 * S k)%nat with (S (S (2 * k))) in * by lia. replace (S (S (2 * k)) - 1)%nat with (S (2 * k)) in H by lia.
  change (pr al (S (S (2 * k)))) with (pr al (2 * k) * (D (S (2 * k)) - 1) * (D (S (S (2 * k))) - 1)). rewrite !Rabs_mult. rewrite (Rabs_pos_eq (D (S (S (2 * k))) - 1)) by lra. rewrite Rmult_assoc, Rmult_comm. apply Rmult_le_compat_r. apply Rabs_pos. exact H.
Qed.
Lemma pr_34 k : Rabs (pr al (2 * S k)) <= 3 / 4 * Rabs (pr al (2 * k)).
Proof. apply pr_pair. destruct k. apply (pair1 a b z Ha Hb Hz Hzt al cf_hal _ D_start). assert (H := pair2 a b z Ha Hb Hz Hzt al cf_hal _ D_start (S (S k)) ltac:(lia)). eapply Rle_trans. exact H. lra. Qed.
Lemma pr_geo k : Rabs (pr al (2 * S k)) <= 3 / 4 * (2 / 3) ^ k * Rabs (pr al 0).
Proof.
  induction k. rewrite pow_O, Rmult_1_r. apply (pr_34 0). apply Rle_trans with (2 / 3 * Rabs (pr al (2 * S k))). apply pr_pair. apply (pair2 a b z Ha Hb Hz Hzt al cf_hal _ D_start). lia. cbn [pow]. lra.
Qed.
Lemma sum7 : forall m k, Rabs (FF al (2 * k + 1 + m) - FF al (2 * k + 1)) <= 7 * Rabs (pr al (2 * k)).
Proof.
  assert (X : forall m k, (forall i, (i <= m)%nat -> Rabs (FF al (2 * k + 1 + i) - FF al (2 * k + 1)) <= 7 * Rabs (pr al (2 * k)))).
  { induction m as [m IH] using lt_wf_ind. intros k i Hi. assert (P0 := Rabs_pos (pr al (2 * k))). assert (O := pr_odd k). assert (F := FF_diff al cf_tpos).
    destruct i as [|[|i]].
    - rewrite Nat.add_0_r. unfold Rminus. rewrite Rplus_opp_r, Rabs_R0. lra.
    - replace (2 * k + 1 + 1)%nat with (S (S (2 * k))) by lia. replace (2 * k + 1)%nat with (S (2 * k)) by lia. rewrite F. lra.
    - assert (Q := IH i ltac:(lia) (S k) i ltac:(lia)). assert (R := pr_34 k). replace (2 * S k + 1 + i)%nat with (2 * k + 1 + S (S i))%nat in Q by lia. 
      assert (F1 := F (S (2 * k))). assert (F2 := F (S (S (2 * k)))). replace (2 * S k + 1)%nat with (S (S (S (2 * k)))) in Q by lia. replace (2 * S k)%nat with (S (S (2 * k))) in * by lia. replace (2 * k + 1)%nat with (S (2 * k)) in * by lia.
      replace (FF al (S (2 * k) + S (S i)) - FF al (S (2 * k))) with ((FF al (S (2 * k) + S (S i)) - FF al (S (S (S (2 * k))))) + (pr al (S (2 * k)) + pr al (S (S (2 * k))))) by (rewrite <- F1, <- F2; ring).
      eapply Rle_trans. apply Rabs_triang. assert (T := Rabs_triang (pr al (S (2 * k))) (pr al (S (S (2 * k))))). lra. }
  intros m k. apply (X m k m). lia.
Qed.
Lemma sum44 n m : (1 <= n)%nat -> Rabs (FF al (S n + m) - FF al (S n)) <= 44 * Rabs (pr al n).
Proof.
  intros N. assert (P0 := Rabs_pos (pr al n)). destruct (Nat.Even_or_Odd n) as [(k & ->)|(k & ->)].
  - assert (Q := sum7 m k). replace (S (2 * k) + m)%nat with (2 * k + 1 + m)%nat by lia. replace (S (2 * k)) with (2 * k + 1)%nat by lia. lra.
  - destruct m as [|m]. rewrite Nat.add_0_r. unfold Rminus. rewrite Rplus_opp_r, Rabs_R0. lra.
    replace (2 * k + 1)%nat with (S (2 * k)) in * by lia. assert (Q := sum7 m (S k)). assert (E := even_six a b z Ha Hb Hz Hzt al cf_hal _ D_start (S k) ltac:(lia)). replace (2 * S k + 1)%nat with (S (S (S (2 * k)))) in Q by lia. replace (2 * S k)%nat with (S (S (2 * k))) in * by lia. replace (S (S (2 * k)) + S m)%nat with (S (S (S (2 * k))) + m)%nat by lia.
    assert (F := FF_diff al cf_tpos (S (S (2 * k)))). replace (FF al (S (S (S (2 * k))) + m) - FF al (S (S (2 * k)))) with (FF al (S (S (S (2 * k))) + m) - FF al (S (S (S (2 * k)))) + pr al (S (S (2 * k)))) by (rewrite <- F; ring).
    eapply Rle_trans. apply Rabs_triang. assert (PB : Rabs (pr al (S (S (2 * k)))) <= 55 / 10 * Rabs (pr al (S (2 * k)))). { change (pr al (S (S (2 * k)))) with (pr al (S (2 * k)) * (D (S (S (2 * k))) - 1)). rewrite Rabs_mult, Rmult_comm. rewrite (Rabs_pos_eq (_ - 1)) by lra. apply Rmult_le_compat_r. apply Rabs_pos. lra. } lra.
Qed.
Lemma res_gen k n : n = (2 * S k)%nat -> Rabs (bres a b n 0 z / (a * (bt a b n 0 z * bt a b n 0 z))) <= Rabs (pr al n) * ((1 + a + INR n) * / a).
Proof.
  intros EN. assert (T := cf_tpos n 0). assert (T2 : 0 < bt a b n 0 z * bt a b n 0 z) by (apply Rmult_lt_0_compat; exact T).
  replace (bres a b n 0 z / (a * (bt a b n 0 z * bt a b n 0 z))) with (bres a b n 0 z * / (bt a b n 0 z * bt a b n 0 z) * / a) by (field; split; [intros E; rewrite E in T2; lra|lra]).
  rewrite !Rabs_mult. rewrite (Rabs_pos_eq (/ _)), (Rabs_pos_eq (/ a)) by (left; apply Rinv_0_lt_compat; lra). change (Rabs (bres a b n 0 z) * / (bt a b n 0 z * bt a b n 0 z)) with (Rabs (bres a b n 0 z) / (bt a b n 0 z * bt a b n 0 z)).
  rewrite (bres_abs a b ltac:(lra) n 0 z ltac:(lra) cf_tpos). assert (PA := pr_abs al cf_tpos n). assert (K1 := kb_pos al cf_tpos n 0). assert (K2 := kb_pos al cf_tpos (S n) 0). assert (DK := D_kb al cf_tpos n).
  assert (E := even_six a b z Ha Hb Hz Hzt al cf_hal _ D_start (S k) ltac:(lia)). rewrite <- EN in E. rewrite DK in E.
  assert (KK : kb al (S n) 0 <= kb al n 0). { apply (Rmult_le_reg_r (/ kb al (S n) 0)). apply Rinv_0_lt_compat; auto. rewrite Rinv_r by lra. unfold Rdiv in E. lra. }
  cbn [Nat.add]. set (X := kb al n 0) in * . set (Y := kb al (S n) 0) in * . set (L := pal al n 0) in * . clearbody X Y L.
  assert (PP : L / (X * X) <= Rabs (pr al n)).
  { rewrite PA. unfold Rdiv. apply Rmult_le_compat_l. { assert (0 <= Rabs (pr al n)) by apply Rabs_pos. rewrite PA in H. unfold Rdiv in H. destruct (Rle_or_lt 0 L); auto. assert (0 < / (X * Y)) by (apply Rinv_0_lt_compat; nra). nra. } apply Rinv_le_contravar. nra. apply Rmult_le_compat_l; lra. }
  replace (L * (1 + a + INR n) / (X * X) * / a) with (L / (X * X) * ((1 + a + INR n) * / a)) by (field; lra). apply Rmult_le_compat_r; auto. apply Rmult_le_pos. assert (P := pos_INR n). lra. left. apply Rinv_0_lt_compat; lra.
Qed.
Lemma res_small : Rabs (bres a b 206 0 z / (a * (bt a b 206 0 z * bt a b 206 0 z))) <= bpow radix2 (-47).
Proof.
  assert (H := res_gen 102 206 eq_refl). replace (INR 206) with 206 in H by (rewrite INR_IZR_INZ; reflexivity).
  assert (Q := pr_geo 102). change (2 * 103)%nat with 206%nat in Q. assert (P0 : Rabs (pr al 0) <= 103 / 10). { cbn [pr dd]. assert (S := D_start). rewrite Rabs_pos_eq by lra. lra. }
  assert (A1 : 0 <= (1 + a + 206) * / a <= 415). { split. apply Rmult_le_pos. lra. left. apply Rinv_0_lt_compat; lra. apply (Rmult_le_reg_r a). lra. rewrite Rmult_assoc, Rinv_l by lra. lra. }
  assert (PW : 3 / 4 * (2 / 3) ^ 102 * (103 / 10) * 415 <= bpow radix2 (-47)). { change (bpow radix2 (-47)) with (/ 140737488355328). interval. }
  set (p := Rabs (pr al 206)) in * . assert (p0 : 0 <= p) by apply Rabs_pos. clearbody p.
  eapply Rle_trans. exact H. eapply Rle_trans. 2: exact PW. apply Rmult_le_compat; try lra.
Qed.
End P.

(** ** From the derivative to the integral *)
Lemma low_int_g (g : R -> R) z (G h : R -> R) eps : 0 < z < 1 -> 0 <= eps < 1 -> (forall t, 0 < t < 1 -> continuous g t) -> (forall t, 0 < g t) ->
  (forall t, 0 < t <= z -> is_derive G t (g t * (1 + h t)) /\ Rabs (h t) <= eps /\ 0 <= G t) ->
  is_lim_seq (fun n => G (z / (INR n + 1))) 0 -> exists L, is_lim_seq (fun n => RInt g (z / (INR n + 1)) z) (Finite L) /\ Rabs (G z - L) <= eps * L.
Proof.
  intros Hz He Cg Pg H HL. set (dn := fun n : nat => z / (INR n + 1)) in * .
  assert (DN : forall n, 0 < dn n <= z). { intros n. assert (P := pos_INR n). split. apply Rdiv_lt_0_compat; lra. unfold dn. apply (Rmult_le_reg_r (INR n + 1)). lra. unfold Rdiv. rewrite Rmult_assoc, Rinv_l by lra. nra. }
  assert (EX : forall x y, 0 < x < 1 -> 0 < y < 1 -> ex_RInt g x y). { intros x y Hx Hy. apply (ex_RInt_continuous g). intros t Ht. apply Cg. unfold Rmin, Rmax in Ht. destruct Rle_dec; lra. }
  assert (B : forall d, 0 < d <= z -> Rabs (G z - G d - RInt g d z) <= eps * RInt g d z).
  { intros d Hd. assert (DI : forall t, d <= t <= z -> is_derive (fun t => RInt g d t) t (g t)).
    { intros t Ht. apply (is_derive_RInt g (fun t => RInt g d t) d t). 2: apply Cg; lra.
      assert (L0 : 0 < Rmin t (1 - t)) by (apply Rmin_glb_lt; lra). exists (mkposreal _ L0). intros y Hy. apply (@RInt_correct R_CompleteNormedModule). cbn in Hy. unfold ball in Hy. cbn in Hy. unfold AbsRing_ball, abs, minus, plus, opp in Hy. cbn in Hy. apply Rabs_def2 in Hy. assert (M1 := Rmin_l t (1 - t)). assert (M2 := Rmin_r t (1 - t)). apply EX; lra. }
    assert (M : forall sg, (sg = 1 \/ sg = -1) -> sg * (G z - G d - RInt g d z) <= eps * RInt g d z).
    { intros sg Hs. assert (Q := mvt_le (fun t => sg * (G t - RInt g d t) - eps * RInt g d t) (fun t => sg * (g t * (1 + h t) - g t) - eps * g t) d z ltac:(lra)).
      assert (RInt g d d = 0) by apply (RInt_point d g). cbn beta in Q. rewrite H0 in Q.
      assert (sg * (G z - RInt g d z) - eps * RInt g d z <= sg * (G d - 0) - eps * 0).
      { apply Q. intros t Ht. destruct (H t ltac:(lra)) as (D1 & B1 & _). assert (D2 := DI t Ht). split.
        - apply (comb_derive sg eps G (fun t => RInt g d t)); auto.
        - assert (P := Pg t). apply Rabs_le_inv in B1. replace (sg * (g t * (1 + h t) - g t) - eps * g t) with (g t * (sg * h t - eps)) by ring. destruct Hs as [->| ->]; nra. }
      lra. }
    assert (M1 := M 1 ltac:(auto)). assert (M2 := M (-1) ltac:(auto)). apply Rabs_le. lra. }
  destruct (ex_finite_lim_seq_incr (fun n => RInt g (dn n) z) (G z / (1 - eps))) as (L & HLim).
  - intros n. assert (D1 := DN n). assert (D2 := DN (S n)). assert (D3 : dn (S n) <= dn n). { unfold dn. assert (P := pos_INR n). rewrite S_INR. unfold Rdiv. apply Rmult_le_compat_l. lra. apply Rinv_le_contravar; lra. }
    assert (CH : RInt g (dn (S n)) z = RInt g (dn (S n)) (dn n) + RInt g (dn n) z) by (symmetry; apply (RInt_Chasles g); apply EX; lra). rewrite CH.
    assert (0 <= RInt g (dn (S n)) (dn n)). { apply RInt_ge_0. auto. apply EX; lra. intros t _. left. apply Pg. } lra.
  - intros n. assert (Q := B (dn n) (DN n)). apply Rabs_le_inv in Q. destruct (H (dn n) (DN n)) as (_ & _ & P). apply (Rmult_le_reg_r (1 - eps)). lra. unfold Rdiv. rewrite Rmult_assoc, Rinv_l by lra. lra.
  - exists L. split. exact HLim.
    assert (L1 : is_lim_seq (fun n => G z - G (dn n) - RInt g (dn n) z) (G z - 0 - L)) by (apply is_lim_seq_minus'; [apply is_lim_seq_minus'; [apply is_lim_seq_const|exact HL]|exact HLim]).
    assert (L2 : is_lim_seq (fun n => eps * RInt g (dn n) z) (eps * L)) by (apply (is_lim_seq_scal_l _ eps L); exact HLim).
    assert (U := is_lim_seq_le _ _ _ _ (fun n => proj2 (Rabs_le_inv _ _ (B (dn n) (DN n)))) L1 L2). cbn in U.
    assert (V := is_lim_seq_le _ _ _ _ (fun n => proj1 (Rabs_le_inv _ _ (B (dn n) (DN n)))) (proj1 (is_lim_seq_opp _ _) L2) L1). cbn in V. apply Rabs_le. lra.
Qed.
Lemma rpow_le1 x y : 0 < x <= 1 -> 0 <= y -> Rpower x y <= 1.
Proof. intros Hx Hy. unfold Rpower. rewrite <- exp_0. apply Raux.exp_le. assert (ln x <= 0) by (destruct (Rle_lt_or_eq_dec x 1 (proj2 Hx)) as [Q| ->]; [left; rewrite <- ln_1; apply ln_increasing; lra|rewrite ln_1; lra]). nra. Qed.
Lemma beta_trunc a b z : / 2 <= a <= 10 -> / 2 <= b <= 10 -> 0 < z <= 7 / 8 -> z * (a + b + 2) <= (a + 1) * (1 + ee) ->
  0 < beta_I a b z /\ Rabs (bw a b 206 z / (Gamma a * Gamma b / Gamma (a + b)) - beta_I a b z) <= bpow radix2 (-47) * beta_I a b z.
Proof.
  intros Ha Hb Hz Hzt. assert (b0 := bpow_gt_0 radix2 (-47)). assert (b1 : bpow radix2 (-47) < 1) by (apply (bpow_lt radix2 (-47) 0); lia).
  assert (TT : forall t, 0 < t <= z -> 0 < t <= 7 / 8 /\ t * (a + b + 2) <= (a + 1) * (1 + ee)). { intros t Ht. split. lra. eapply Rle_trans. 2: exact Hzt. apply Rmult_le_compat_r; lra. }
  assert (GP : forall t, 0 < t <= z -> 0 < bw a b 206 t <= Rpower t a * 24).
  { intros t Ht. destruct (TT t Ht) as (T1 & T2). assert (L := tt_zero a b t Ha Hb T1 T2 (cf a b t) (cf_hal a b t) 206). change (tt (cf a b t) 206 0) with (bt a b 206 0 t) in L. unfold bw, Rdiv. assert (rp := rpow_pos t a). assert (rq := rpow_pos (1 - t) b). assert (r1 := rpow_le1 (1 - t) b ltac:(lra) ltac:(lra)). set (T := bt a b 206 0 t) in * . clearbody T.
    assert (AT : / 24 <= a * T) by nra. assert (I1 : / (a * T) <= 24) by (rewrite <- (Rinv_inv 24); apply Rinv_le_contravar; lra). assert (I0 : 0 < / (a * T)) by (apply Rinv_0_lt_compat; lra). split. apply Rmult_lt_0_compat; [apply Rmult_lt_0_compat; lra|lra].
    apply Rmult_le_compat; try lra. apply Rmult_le_pos; lra. rewrite <- (Rmult_1_r (Rpower t a)) at 2. apply Rmult_le_compat_l; lra. }
  destruct (low_int_g (bk a b) z (bw a b 206) (fun t => - (bres a b 206 0 t / (a * (bt a b 206 0 t * bt a b 206 0 t)))) (bpow radix2 (-47)) ltac:(lra) ltac:(lra)) as (L & HL & HB).
  - intros t Ht. apply kern_cont. auto.
  - intros t. apply Rmult_lt_0_compat; apply rpow_pos.
  - intros t Ht. destruct (TT t Ht) as (T1 & T2). split. apply bw_derive. lra. lra. intros n d. apply (cf_tpos a b t Ha Hb T1 T2). split. rewrite Rabs_Ropp. apply (res_small a b t Ha Hb T1 T2). left. apply GP; auto.
  - apply (is_lim_seq_le_le (fun _ => 0) _ (fun n => Rpower (z / (INR n + 1)) a * 24)).
    + intros n. assert (P := pos_INR n). assert (Q : 0 < z / (INR n + 1)) by (apply Rdiv_lt_0_compat; lra). assert (Q2 : z / (INR n + 1) <= z). { apply (Rmult_le_reg_r (INR n + 1)). lra. unfold Rdiv. rewrite Rmult_assoc, Rinv_l by lra. nra. } assert (X := GP (z / (INR n + 1)) ltac:(lra)). lra.
    + apply is_lim_seq_const.
    + replace (Finite 0) with (Rbar_mult 0 24) by (cbn; f_equal; ring). apply is_lim_seq_scal_r. apply rpow_lim0; lra.
  - assert (G1 := Gamma_pos a ltac:(lra)). assert (G2 := Gamma_pos b ltac:(lra)). assert (G3 := Gamma_pos (a + b) ltac:(lra)). unfold beta_I. change (fun t => Rpower t (a - 1) * Rpower (1 - t) (b - 1)) with (bk a b). rewrite (is_lim_seq_unique _ _ HL). cbn [real].
    set (B := Gamma a * Gamma b / Gamma (a + b)). assert (B0 : 0 < B) by (unfold B; apply Rdiv_lt_0_compat; [apply Rmult_lt_0_compat|]; auto). clearbody B.
    assert (W := proj1 (GP z ltac:(lra))). set (w := bw a b 206 z) in * . clearbody w.
    assert (L0 : 0 < L). { apply Rabs_le_inv in HB. destruct (Rle_or_lt L 0); auto. nra. }
    split. apply Rdiv_lt_0_compat; auto. replace (w / B - L / B) with ((w - L) * / B) by (field; lra). rewrite Rabs_mult, (Rabs_pos_eq (/ B)) by (left; apply Rinv_0_lt_compat; auto). unfold Rdiv. rewrite <- Rmult_assoc. apply Rmult_le_compat_r; auto. left; apply Rinv_0_lt_compat; auto.
Qed.
