(** * The continued fraction of incomplete_beta.hpp over the reals: the forward
    (Lentz) recursion with perturbed coefficients *)
From Verif Require Import Base.
From Coq Require Import Lra Psatz.
Open Scope R_scope.

(** d_n = 1 / (1 + a_n d_{n-1}) *)
Fixpoint dd (al : nat -> R) (d0 : R) (n : nat) : R :=
  match n with O => d0 | S m => / (1 + al n * dd al d0 m) end.
Lemma dd_S al d0 n : dd al d0 (S n) = / (1 + al (S n) * dd al d0 n).
Proof. reflexivity. Qed.
(** T n d = 1 + a_d / (1 + a_{d+1} / ...), n terms *)
Fixpoint tt (al : nat -> R) (n d : nat) : R :=
  match n with O => 1 | S m => 1 + al d / tt al m (S d) end.

(** The exact coefficients *)
Definition ce (a b z x : R) : R := - (z * (a + x) * (a + b + x) / ((a + 2 * x) * (a + 2 * x + 1))).
Definition co (a b z x : R) : R := z * (x + 1) * (b - (x + 1)) / ((a + 2 * x + 1) * (a + 2 * x + 2)).
Definition cf (a b z : R) (n : nat) : R := if Nat.even n then ce a b z (INR (Nat.div2 n)) else co a b z (INR (Nat.div2 n)).
Lemma cf_even a b z k : cf a b z (2 * k) = ce a b z (INR k).
Proof. unfold cf. rewrite Nat.even_mul, Nat.div2_double. reflexivity. Qed.
Lemma cf_odd a b z k : cf a b z (S (2 * k)) = co a b z (INR k).
Proof. unfold cf. rewrite Nat.even_succ, Nat.odd_mul, Nat.div2_succ_double. reflexivity. Qed.
Definition ee : R := / 500000.

(** Product of two consecutive factors, over the reals *)
Lemma pair_neg p q x y S r : 0 <= p -> 0 <= q -> p + q <= 1 -> 0 <= y <= 876 / 1000 * p -> 0 <= x <= S * q -> 0 <= S < 1 -> 
  (forall t, 0 <= t <= 1 -> 876 / 1000 * t * (S * (1 - t)) <= r * ((1 - 876 / 1000 * t) * (1 - S * (1 - t)))) -> 0 <= r ->
  y / (1 - y) * (x / (1 - x)) <= r.
Proof.
  intros Hp Hq Hpq Hy Hx Hs H Hr. specialize (H p ltac:(lra)). set (Y := 876 / 1000 * p) in * . set (X := S * (1 - p)) in * .
  assert (X1 : x <= X). { unfold X. apply Rle_trans with (S * q). lra. apply Rmult_le_compat_l; lra. } assert (Xl : X < 1). { unfold X. apply Rle_lt_trans with (S * 1). apply Rmult_le_compat_l; lra. lra. } assert (Yl : Y < 1) by (unfold Y; lra).
  assert (M : forall s t, 0 <= s <= t -> t < 1 -> 0 <= s / (1 - s) <= t / (1 - t)). { intros s t H1 H2. split. apply Rmult_le_pos. lra. left. apply Rinv_0_lt_compat. lra. apply (Rmult_le_reg_r ((1 - s) * (1 - t))). apply Rmult_lt_0_compat; lra. replace (s / (1 - s) * ((1 - s) * (1 - t))) with (s * (1 - t)) by (field; lra). replace (t / (1 - t) * ((1 - s) * (1 - t))) with (t * (1 - s)) by (field; lra). lra. }
  apply Rle_trans with (Y / (1 - Y) * (X / (1 - X))). apply Rmult_le_compat; [apply (M y Y)|apply (M x X)|apply (M y Y)|apply (M x X)]; lra.
  apply (Rmult_le_reg_r ((1 - Y) * (1 - X))). apply Rmult_lt_0_compat; lra. replace (Y / (1 - Y) * (X / (1 - X)) * ((1 - Y) * (1 - X))) with (Y * X) by (field; lra). exact H.
Qed.
Lemma pair_pos y e : 0 <= y -> 0 <= e < 1 -> y / (1 + y) * (e / (1 + y) / (1 - e / (1 + y))) <= e.
Proof.
  intros Hy He. replace (y / (1 + y) * (e / (1 + y) / (1 - e / (1 + y)))) with (e * (y / ((1 + y) * (1 + y - e)))) by (field; lra).
  apply Rle_trans with (e * 1); [|lra]. apply Rmult_le_compat_l. lra. apply (Rmult_le_reg_r ((1 + y) * (1 + y - e))). nra. unfold Rdiv. rewrite Rmult_assoc, Rinv_l by nra. nra.
Qed.

Section B.
Context (a b z : R) (Ha : / 2 <= a <= 10) (Hb : / 2 <= b <= 10) (Hz : 0 < z <= 7 / 8) (Hzt : z * (a + b + 2) <= (a + 1) * (1 + ee)).
Context (al : nat -> R) (Hal : forall n, Rabs (al n - cf a b z n) <= ee * Rabs (cf a b z n)).

Lemma zk1 : z * (a + b + 1) * (1 + ee) <= 96 / 100 * (a + 1).
Proof.
  assert (z * (a + b + 1) <= 21 / 22 * (z * (a + b + 2))). { replace (21 / 22 * (z * (a + b + 2))) with (z * (21 / 22 * (a + b + 2))) by ring. apply Rmult_le_compat_l; lra. }
  apply Rle_trans with (21 / 22 * ((a + 1) * (1 + ee)) * (1 + ee)). apply Rmult_le_compat_r. unfold ee. lra. lra. unfold ee. lra.
Qed.
Lemma zk2 x : 2 <= x -> z * (a + b + x) * (1 + ee) <= 92 / 100 * (a + x).
Proof.
  intros Hx. assert (z * (x - 2) <= 7 / 8 * (x - 2)) by (apply Rmult_le_compat_r; lra).
  apply Rle_trans with (((a + 1) * (1 + ee) + 7 / 8 * (x - 2)) * (1 + ee)). apply Rmult_le_compat_r. unfold ee. lra. lra. unfold ee. lra.
Qed.
Lemma zk x : 2 <= x \/ x = 1 -> z * (a + b + x) * (1 + ee) <= 96 / 100 * (a + x).
Proof. intros [H| ->]. assert (Q := zk2 x H). lra. apply zk1. Qed.
Lemma al_neg n : cf a b z n <= 0 -> 0 <= - al n <= - cf a b z n * (1 + ee).
Proof. intros H. assert (Q := Hal n). rewrite (Rabs_left1 (cf a b z n)) in Q by auto. apply Rabs_le_inv in Q. unfold ee in * . lra. Qed.
Lemma al_pos n : 0 <= cf a b z n -> 0 <= al n <= cf a b z n * (1 + ee).
Proof. intros H. assert (Q := Hal n). rewrite (Rabs_pos_eq (cf a b z n)) in Q by auto. apply Rabs_le_inv in Q. unfold ee in * . lra. Qed.
Lemma div_bnd x y m M : 0 < m -> x = y / m -> y <= M -> x * m <= M.
Proof. intros H -> L. unfold Rdiv. rewrite Rmult_assoc, Rinv_l by lra. lra. Qed.
(** Even coefficients *)
Lemma ev_pos k : 0 < - al (2 * k)%nat.
Proof.
  assert (P := pos_INR k). assert (N : 0 < - cf a b z (2 * k)). { rewrite cf_even. unfold ce. rewrite Ropp_involutive. apply Rdiv_lt_0_compat; repeat apply Rmult_lt_0_compat; lra. }
  assert (Q := Hal (2 * k)%nat). rewrite (Rabs_left1 (cf a b z (2 * k))) in Q by lra. apply Rabs_le_inv in Q. unfold ee in * . lra.
Qed.
Lemma ev_bnd k S : (forall x, x = INR k -> z * (a + b + x) * (1 + ee) <= S * (a + x)) ->
  - al (2 * k)%nat * ((a + 2 * INR k) * (a + 2 * INR k + 1)) <= S * ((a + INR k) * (a + INR k)).
Proof.
  intros H. specialize (H _ eq_refl). assert (P := pos_INR k). assert (N := ev_pos k). set (x := INR k) in * . assert (M : 0 < (a + 2 * x) * (a + 2 * x + 1)) by nra.
  assert (E : cf a b z (2 * k) = - (z * (a + x) * (a + b + x) / ((a + 2 * x) * (a + 2 * x + 1)))) by (rewrite cf_even; reflexivity).
  assert (C0 : cf a b z (2 * k) <= 0). { rewrite E. assert (0 <= z * (a + x) * (a + b + x) / ((a + 2 * x) * (a + 2 * x + 1))). { apply Rmult_le_pos. repeat apply Rmult_le_pos; lra. left. apply Rinv_0_lt_compat; auto. } lra. }
  destruct (al_neg _ C0) as (_ & U). apply Rle_trans with (- cf a b z (2 * k) * (1 + ee) * ((a + 2 * x) * (a + 2 * x + 1))). apply Rmult_le_compat_r; lra.
  rewrite E, Ropp_involutive. replace (z * (a + x) * (a + b + x) / ((a + 2 * x) * (a + 2 * x + 1)) * (1 + ee) * ((a + 2 * x) * (a + 2 * x + 1))) with ((a + x) * (z * (a + b + x) * (1 + ee))) by (field; nra).
  replace (S * ((a + x) * (a + x))) with ((a + x) * (S * (a + x))) by ring. apply Rmult_le_compat_l; lra.
Qed.
Lemma ev1 k : (1 <= k)%nat -> - al (2 * k)%nat * ((a + 2 * INR k) * (a + 2 * INR k + 1)) <= 96 / 100 * ((a + INR k) * (a + INR k)).
Proof. intros K. apply ev_bnd. intros x ->. apply zk. destruct (Nat.eq_dec k 1) as [->|N]. right. reflexivity. left. apply (le_INR 2). lia. Qed.
Lemma ev2 k : (2 <= k)%nat -> - al (2 * k)%nat * ((a + 2 * INR k) * (a + 2 * INR k + 1)) <= 92 / 100 * ((a + INR k) * (a + INR k)).
Proof. intros K. apply ev_bnd. intros x ->. apply zk2. apply (le_INR 2). lia. Qed.
(** Odd coefficients *)
Lemma od_cases k : (0 <= al (S (2 * k)) /\ 0 <= cf a b z (S (2 * k))) \/
  (al (S (2 * k)) <= 0 /\ - al (S (2 * k)) * ((a + 2 * INR k + 1) * (a + 2 * INR k + 2)) <= 876 / 1000 * ((INR k + 1) * (INR k + 1)) /\ cf a b z (S (2 * k)) <= 0).
Proof.
  assert (P := pos_INR k). set (x := INR k) in * . assert (M : 0 < (a + 2 * x + 1) * (a + 2 * x + 2)) by nra.
  assert (E : cf a b z (S (2 * k)) = z * (x + 1) * (b - (x + 1)) / ((a + 2 * x + 1) * (a + 2 * x + 2))) by (rewrite cf_odd; reflexivity).
  destruct (Rle_or_lt (x + 1) b) as [B|B].
  - left. assert (0 <= cf a b z (S (2 * k))). { rewrite E. apply Rmult_le_pos. repeat apply Rmult_le_pos; lra. left. apply Rinv_0_lt_compat; auto. } split; auto. apply al_pos. auto.
  - right. assert (C0 : cf a b z (S (2 * k)) <= 0). { rewrite E. replace (z * (x + 1) * (b - (x + 1)) / ((a + 2 * x + 1) * (a + 2 * x + 2))) with (- (z * (x + 1) * (x + 1 - b) / ((a + 2 * x + 1) * (a + 2 * x + 2)))) by (unfold Rdiv; ring).
      assert (0 <= z * (x + 1) * (x + 1 - b) / ((a + 2 * x + 1) * (a + 2 * x + 2))). { apply Rmult_le_pos. repeat apply Rmult_le_pos; lra. left. apply Rinv_0_lt_compat; auto. } lra. }
    destruct (al_neg _ C0) as (N & U). split. lra. split. 2: auto. apply Rle_trans with (- cf a b z (S (2 * k)) * (1 + ee) * ((a + 2 * x + 1) * (a + 2 * x + 2))). apply Rmult_le_compat_r; lra.
    rewrite E. replace (- (z * (x + 1) * (b - (x + 1)) / ((a + 2 * x + 1) * (a + 2 * x + 2))) * (1 + ee) * ((a + 2 * x + 1) * (a + 2 * x + 2))) with ((x + 1) * (z * (1 + ee) * (x + 1 - b))) by (field; lra).
    replace (876 / 1000 * ((x + 1) * (x + 1))) with ((x + 1) * (876 / 1000 * (x + 1))) by ring. apply Rmult_le_compat_l. lra. apply Rmult_le_compat; try lra. apply Rmult_le_pos; unfold ee; lra. unfold ee; lra.
Qed.
(** First coefficient *)
Lemma al0 : 0 < - al 0%nat /\ - al 0%nat * (a + b + 2) <= (a + b) * (1 + 3 * ee).
Proof.
  split. apply (ev_pos 0). assert (Q := ev_bnd 0 (z * (a + b) * (1 + ee) / a)). cbn [Nat.mul INR] in Q. rewrite !Rmult_0_r, !Rplus_0_r in Q.
  assert (Q1 : - al 0%nat * (a * (a + 1)) <= z * (a + b) * (1 + ee) / a * (a * a)). { apply Q. intros x ->. rewrite !Rplus_0_r. apply Req_le. field. lra. }
  replace (z * (a + b) * (1 + ee) / a * (a * a)) with (a * (z * (a + b) * (1 + ee))) in Q1 by (field; lra).
  assert (Q2 : - al 0%nat * (a + 1) <= z * (a + b) * (1 + ee)). { apply (Rmult_le_reg_l a). lra. lra. }
  apply (Rmult_le_reg_r (a + 1)). lra. apply Rle_trans with (z * (a + b) * (1 + ee) * (a + b + 2)). { replace (- al 0%nat * (a + b + 2) * (a + 1)) with (- al 0%nat * (a + 1) * (a + b + 2)) by ring. apply Rmult_le_compat_r; lra. }
  replace (z * (a + b) * (1 + ee) * (a + b + 2)) with ((a + b) * (1 + ee) * (z * (a + b + 2))) by ring.
  apply Rle_trans with ((a + b) * (1 + ee) * ((a + 1) * (1 + ee))). apply Rmult_le_compat_l; auto. apply Rmult_le_pos; unfold ee; lra.
  replace ((a + b) * (1 + ee) * ((a + 1) * (1 + ee))) with ((a + b) * ((1 + ee) * (1 + ee)) * (a + 1)) by ring. apply Rmult_le_compat_r. lra. apply Rmult_le_compat_l. lra. unfold ee. lra.
Qed.
Lemma D0_bnd : 1 < / (1 + al 0%nat) <= 51 / 100 * (a + b + 2).
Proof.
  destruct al0 as (P & U). assert (L : 1.99 <= (1 + al 0%nat) * (a + b + 2)). { unfold ee in U. lra. }
  assert (P1 : 0 < 1 + al 0%nat). { destruct (Rle_or_lt (1 + al 0%nat) 0); auto. nra. }
  split. rewrite <- Rinv_1 at 1. apply Rinv_lt_contravar; lra.
  apply (Rmult_le_reg_r (1 + al 0%nat)). auto. rewrite Rinv_l by lra. lra.
Qed.

(** ** Lower bounds of the tails *)
Lemma tt_S n m : tt al (S n) m = 1 + al m / tt al n (S m).
Proof. reflexivity. Qed.
Lemma tt_low n : forall k, (0 < tt al n (S (2 * k)) /\ a + INR k <= tt al n (S (2 * k)) * (a + 2 * INR k + 1)) /\ ((1 <= k)%nat -> 0 < tt al n (2 * k)%nat /\ INR k <= tt al n (2 * k)%nat * (a + 2 * INR k)).
Proof.
  induction n as [|n IH]; intros k; assert (P := pos_INR k).
  - cbn [tt]. split. lra. intros K. lra.
  - split.
    + destruct (IH (S k)) as (_ & L). specialize (L ltac:(lia)). replace (2 * S k)%nat with (S (S (2 * k))) in L by lia. rewrite S_INR in L. rewrite tt_S. destruct L as (T0 & L). set (t := tt al n (S (S (2 * k)))) in * . set (x := INR k) in * .
      assert (I0 : 0 < / t) by (apply Rinv_0_lt_compat; auto).
      destruct (od_cases k) as [(O & _)|(O & B & _)]; fold x in B || idtac.
      * assert (0 <= al (S (2 * k)) / t) by (apply Rmult_le_pos; lra). split. lra. nra.
      * fold x in B. set (o := - al (S (2 * k))) in * . replace (al (S (2 * k)) / t) with (- (o / t)) by (unfold o, Rdiv; ring).
        assert (Y : o / t * (a + 2 * x + 1) <= 876 / 1000 * (x + 1)).
        { apply (Rmult_le_reg_r (t * (a + 2 * x + 2))). apply Rmult_lt_0_compat; lra. replace (o / t * (a + 2 * x + 1) * (t * (a + 2 * x + 2))) with (o * ((a + 2 * x + 1) * (a + 2 * x + 2))) by (field; lra). eapply Rle_trans. exact B.
          replace (876 / 1000 * (x + 1) * (t * (a + 2 * x + 2))) with (876 / 1000 * (x + 1) * (t * (a + 2 * (x + 1)))) by ring. replace (876 / 1000 * ((x + 1) * (x + 1))) with (876 / 1000 * (x + 1) * (x + 1)) by ring. apply Rmult_le_compat_l; lra. }
        assert (Y2 : a + x <= (1 + - (o / t)) * (a + 2 * x + 1)) by lra. split. 2: auto.
        destruct (Rlt_or_le 0 (1 + - (o / t))); auto. assert (0 <= - (1 + - (o / t)) * (a + 2 * x + 1)) by (apply Rmult_le_pos; lra). lra.
    + intros K. destruct (IH k) as ((T0 & L) & _). rewrite tt_S. assert (E1 := ev1 k K). assert (E0 := ev_pos k). assert (1 <= INR k) by (apply (le_INR 1); lia). set (t := tt al n (S (2 * k))) in * . set (e := - al (2 * k)%nat) in * . replace (al (2 * k)%nat / t) with (- (e / t)) by (unfold e, Rdiv; ring). set (x := INR k) in * .
      assert (Y : e / t * (a + 2 * x) <= 96 / 100 * (a + x)).
      { apply (Rmult_le_reg_r (t * (a + 2 * x + 1))). apply Rmult_lt_0_compat; lra. replace (e / t * (a + 2 * x) * (t * (a + 2 * x + 1))) with (e * ((a + 2 * x) * (a + 2 * x + 1))) by (field; lra). eapply Rle_trans. exact E1.
        replace (96 / 100 * ((a + x) * (a + x))) with (96 / 100 * (a + x) * (a + x)) by ring. apply Rmult_le_compat_l; lra. }
      assert (Y2 : x <= (1 + - (e / t)) * (a + 2 * x)) by lra. split. 2: auto.
      destruct (Rlt_or_le 0 (1 + - (e / t))); auto. assert (0 <= - (1 + - (e / t)) * (a + 2 * x)) by (apply Rmult_le_pos; lra). lra.
Qed.
Lemma tt_zero n : / 12 <= tt al n 0.
Proof.
  destruct n as [|n]. cbn. lra. rewrite tt_S. destruct al0 as (E0 & EU). set (e := - al 0%nat) in * . replace (al 0%nat) with (- e) by (unfold e; ring). destruct (tt_low n 0) as ((T0 & _) & _). cbn [Nat.mul Nat.add] in T0. set (t := tt al n 1) in * .
  assert (EB : e * (a + b + 2) <= a + b + / 1000) by (unfold ee in EU; lra). assert (E1 : e <= 1 - / 12). { apply (Rmult_le_reg_r (a + b + 2)). lra. lra. }
  assert (C : 1 <= t \/ (t <= 1 /\ / 12 <= t - e)).
  { destruct n as [|n]. left. unfold t. cbn. lra. unfold t. rewrite tt_S. destruct (tt_low n 1) as (_ & L). specialize (L ltac:(lia)). change (2 * 1)%nat with 2%nat in L. change (INR 1) with 1 in L. set (s := tt al n 2) in * . destruct L as (S0 & L). assert (I0 : 0 < / s) by (apply Rinv_0_lt_compat; auto).
    destruct (od_cases 0) as [(O & _)|(O & _ & C0)]; change (S (2 * 0)) with 1%nat in * .
    - left. assert (0 <= al 1%nat / s) by (apply Rmult_le_pos; lra). lra.
    - right. destruct (al_neg 1 C0) as (N & U). assert (CO := cf_odd a b z 0). change (S (2 * 0)) with 1%nat in CO. change (INR 0) with 0 in CO. unfold co in CO. rewrite CO in U, C0. set (o := - al 1%nat) in * . replace (al 1%nat / s) with (- (o / s)) by (unfold o, Rdiv; ring).
      assert (0 <= o / s) by (apply Rmult_le_pos; lra). split. lra.
      assert (U2 : o * ((a + 1) * (a + 2)) <= z * (1 - b) * (1 + ee)). { apply Rle_trans with (- (z * (0 + 1) * (b - (0 + 1)) / ((a + 2 * 0 + 1) * (a + 2 * 0 + 2))) * (1 + ee) * ((a + 1) * (a + 2))). apply Rmult_le_compat_r; nra. apply Req_le. field. lra. }
      assert (Y : o / s * (a + 1) <= z * (1 - b) * (1 + ee)).
      { assert (o / s <= o * (a + 2)). { unfold Rdiv. apply Rmult_le_compat_l. lra. apply (Rmult_le_reg_r s). auto. rewrite Rinv_l by lra. lra. } apply Rle_trans with (o * (a + 2) * (a + 1)). apply Rmult_le_compat_r; lra. lra. }
      assert (E2 : e * (a + 1) <= z * (a + b) * (1 + ee)).
      { assert (Q := ev_bnd 0 (z * (a + b) * (1 + ee) / a)). change (2 * 0)%nat with 0%nat in Q. change (INR 0) with 0 in Q. rewrite !Rmult_0_r, !Rplus_0_r in Q.
        assert (Q1 : e * (a * (a + 1)) <= z * (a + b) * (1 + ee) / a * (a * a)). { apply Q. intros x ->. rewrite !Rplus_0_r. apply Req_le. field. lra. }
        replace (z * (a + b) * (1 + ee) / a * (a * a)) with (a * (z * (a + b) * (1 + ee))) in Q1 by (field; lra). apply (Rmult_le_reg_l a). lra. lra. }
      apply (Rmult_le_reg_r (a + 1)). lra. assert (z * (a + 1) <= 7 / 8 * (a + 1)) by (apply Rmult_le_compat_r; lra). unfold ee in * . lra. }
  assert (I0 : 0 < / t) by (apply Rinv_0_lt_compat; auto). unfold Rdiv. destruct C as [C|(C1 & C2)].
  - assert (/ t <= 1) by (rewrite <- Rinv_1; apply Rinv_le_contravar; lra). nra.
  - apply (Rmult_le_reg_r t). auto. rewrite Rmult_plus_distr_r, Rmult_assoc, Rinv_l by lra. lra.
Qed.
Lemma tt_pos n m : 0 < tt al n m.
Proof.
  destruct (Nat.Even_or_Odd m) as [(k & ->)|(k & ->)]. destruct k. change (2 * 0)%nat with 0%nat. assert (H := tt_zero n). lra. apply (proj2 (tt_low n (S k))). lia.
  replace (2 * k + 1)%nat with (S (2 * k)) by lia. apply (tt_low n k).
Qed.

(** ** Bounds along the recursion *)
Lemma inv_pos_pos x : 0 < / x -> 0 < x.
Proof. intros P. destruct (Rlt_or_le 0 x) as [|H]; auto. destruct H as [H|H]. apply Rinv_lt_0_compat in H. lra. rewrite H, Rinv_0 in P. lra. Qed.
Context (d0 : R) (Hd0 : 1 <= d0 <= 51 / 100 * (a + b + 2)).
Notation d := (dd al d0).
Lemma od_prod k : (0 < d (2 * k)%nat /\ (1 <= k)%nat /\ d (2 * k)%nat * (INR k + 1) <= a + 2 * INR k + 1) \/ k = O ->
  0 <= al (S (2 * k)) * d (2 * k)%nat \/ (al (S (2 * k)) * d (2 * k)%nat <= 0 /\ - (al (S (2 * k)) * d (2 * k)%nat) * (a + 2 * INR k + 2) <= 876 / 1000 * (INR k + 1)).
Proof.
  intros H. destruct (od_cases k) as [(O & _)|(O & B & C0)].
  - left. apply Rmult_le_pos; auto. destruct H as [(H & _)| ->]. lra. cbn. lra.
  - right. assert (P := pos_INR k). destruct H as [(H & K & L)| ->].
    + split. nra. set (x := INR k) in * . set (o := - al (S (2 * k))) in * . set (y := d (2 * k)%nat) in * .
      replace (- (al (S (2 * k)) * y)) with (o * y) by (unfold o; ring).
      apply (Rmult_le_reg_r ((a + 2 * x + 1) * (x + 1))). nra.
      replace (o * y * (a + 2 * x + 2) * ((a + 2 * x + 1) * (x + 1))) with ((o * ((a + 2 * x + 1) * (a + 2 * x + 2))) * (y * (x + 1))) by ring.
      replace (876 / 1000 * (x + 1) * ((a + 2 * x + 1) * (x + 1))) with (876 / 1000 * ((x + 1) * (x + 1)) * (a + 2 * x + 1)) by ring. apply Rmult_le_compat; auto. apply Rmult_le_pos. unfold o; lra. apply Rmult_le_pos; lra. apply Rmult_le_pos; lra.
    + change (2 * 0)%nat with 0%nat in * . change (dd al d0 0) with d0. change (INR 0) with 0 in * . split. nra. destruct (al_neg 1 C0) as (N & U). assert (CO := cf_odd a b z 0). change (S (2 * 0)) with 1%nat in CO. rewrite CO in U. unfold co in U. cbn [INR] in U.
      rewrite !Rmult_0_r, !Rplus_0_r, !Rplus_0_l in * . rewrite !Rmult_1_r in * . set (o := - al 1%nat) in * . replace (- (al 1%nat * d0)) with (o * d0) by (unfold o; ring).
      assert (U2 : o * ((a + 1) * (a + 2)) <= z * (1 - b) * (1 + ee)). { apply Rle_trans with (- (z * (b - 1) / ((a + 1) * (a + 2))) * (1 + ee) * ((a + 1) * (a + 2))). apply Rmult_le_compat_r; nra. apply Req_le. field. lra. }
      assert (B1 : 0 <= z * (1 - b) * (1 + ee)). { eapply Rle_trans. 2: exact U2. apply Rmult_le_pos; nra. } 
      apply (Rmult_le_reg_r (a + 1)). lra. replace (o * d0 * (a + 2) * (a + 1)) with (o * ((a + 1) * (a + 2)) * d0) by ring. apply Rle_trans with (z * (1 - b) * (1 + ee) * (51 / 100 * (a + b + 2))). apply Rmult_le_compat; try lra. apply Rmult_le_pos; nra.
      replace (z * (1 - b) * (1 + ee) * (51 / 100 * (a + b + 2))) with (z * (a + b + 2) * ((1 - b) * ((1 + ee) * (51 / 100)))) by ring.
      assert (0 <= 1 - b). { destruct (Rle_or_lt 0 (1 - b)); auto. assert (z * (1 - b) * (1 + ee) < 0) by (unfold ee; nra). lra. }
      apply Rle_trans with ((a + 1) * (1 + ee) * ((1 - b) * ((1 + ee) * (51 / 100)))). apply Rmult_le_compat_r; auto. apply Rmult_le_pos; unfold ee; lra. unfold ee. nra.
Qed.
Lemma d_bnd k : (0 < d (S (2 * k)) /\ d (S (2 * k)) * (a + INR k + 1) <= a + 2 * INR k + 2) /\
  ((1 <= k)%nat -> 0 < d (2 * k)%nat /\ d (2 * k)%nat * (INR k + 1) <= a + 2 * INR k + 1).
Proof.
  assert (ST : forall k, ((0 < d (2 * k)%nat /\ (1 <= k)%nat /\ d (2 * k)%nat * (INR k + 1) <= a + 2 * INR k + 1) \/ k = O) -> 0 < d (S (2 * k)) /\ d (S (2 * k)) * (a + INR k + 1) <= a + 2 * INR k + 2).
  { clear k. intros k H. assert (Q := od_prod k H). rewrite dd_S. assert (P := pos_INR k). set (x := INR k) in * . set (y := al (S (2 * k)) * d (2 * k)%nat) in * .
    assert (Y : a + x + 1 <= (1 + y) * (a + 2 * x + 2)). { destruct Q as [Q|(Q & L)]; nra. }
    assert (Y1 : 0 < 1 + y). { destruct (Rle_or_lt (1 + y) 0); auto. assert (0 <= - (1 + y) * (a + 2 * x + 2)) by (apply Rmult_le_pos; lra). lra. }
    split. apply Rinv_0_lt_compat; auto. apply (Rmult_le_reg_l (1 + y)). auto. rewrite <- Rmult_assoc, Rinv_r by lra. lra. }
  induction k as [|k IH].
  - split. apply ST. auto. intros; lia.
  - destruct IH as ((O1 & O2) & _). assert (EV : 0 < d (2 * S k)%nat /\ d (2 * S k)%nat * (INR (S k) + 1) <= a + 2 * INR (S k) + 1).
    { replace (2 * S k)%nat with (S (S (2 * k))) by lia. rewrite dd_S. replace (S (S (2 * k))) with (2 * S k)%nat by lia. assert (E1 := ev1 (S k) ltac:(lia)). assert (E0 := ev_pos (S k)). set (e := - al (2 * S k)%nat) in * . replace (al (2 * S k)%nat) with (- e) by (unfold e; ring).
      rewrite S_INR in * . assert (P := pos_INR k). set (x := INR k) in * . set (y := d (S (2 * k))) in * .
      assert (X : e * y * (a + 2 * x + 3) <= 96 / 100 * (a + x + 1)).
      { apply (Rmult_le_reg_r ((a + 2 * x + 2) * (a + x + 1))). apply Rmult_lt_0_compat; lra. replace (e * y * (a + 2 * x + 3) * ((a + 2 * x + 2) * (a + x + 1))) with (e * ((a + 2 * (x + 1)) * (a + 2 * (x + 1) + 1)) * (y * (a + x + 1))) by ring.
        replace (96 / 100 * (a + x + 1) * ((a + 2 * x + 2) * (a + x + 1))) with (96 / 100 * ((a + (x + 1)) * (a + (x + 1))) * (a + 2 * x + 2)) by ring. apply Rmult_le_compat; auto. apply Rmult_le_pos; nra. apply Rmult_le_pos; lra. }
      assert (Y : x + 2 <= (1 + - e * y) * (a + 2 * x + 3)) by lra. assert (Y1 : 0 < 1 + - e * y). { destruct (Rle_or_lt (1 + - e * y) 0); auto. assert (0 <= - (1 + - e * y) * (a + 2 * x + 3)) by (apply Rmult_le_pos; lra). lra. }
      split. apply Rinv_0_lt_compat; auto. apply (Rmult_le_reg_l (1 + - e * y)). auto. rewrite <- Rmult_assoc, Rinv_r by lra. lra. }
    split. apply ST. left. split. apply EV. split. lia. apply EV. intros _. exact EV.
Qed.
Lemma d_pos n : 0 < d n.
Proof.
  destruct (Nat.Even_or_Odd n) as [(k & ->)|(k & ->)]. destruct k. cbn. lra. apply (proj2 (d_bnd (S k))). lia.
  replace (2 * k + 1)%nat with (S (2 * k)) by lia. apply (d_bnd k).
Qed.
(** Amplification factors *)
Lemma odd_one k : Rabs (d (S (2 * k)) - 1) <= 1.
Proof.
  assert (Q := od_prod k). assert (P := pos_INR k). destruct (d_bnd k) as ((O & L) & EV).
  assert (H : 0 <= al (S (2 * k)) * d (2 * k)%nat \/ (al (S (2 * k)) * d (2 * k)%nat <= 0 /\ - (al (S (2 * k)) * d (2 * k)%nat) * (a + 2 * INR k + 2) <= 876 / 1000 * (INR k + 1))).
  { apply Q. destruct k. auto. left. specialize (EV ltac:(lia)). repeat split; try apply EV. lia. }
  apply Rabs_le. split. lra. enough (d (S (2 * k)) <= 2) by lra. apply (Rmult_le_reg_r (a + INR k + 1)). lra. lra.
Qed.
Lemma even_bnd k : (1 <= k)%nat -> 0 < d (2 * k)%nat - 1 /\ (d (2 * k)%nat - 1) * (INR k + 1) <= a + INR k.
Proof.
  intros K. destruct (d_bnd k) as (_ & EV). specialize (EV K). split. 2: lra.
  destruct k as [|k]. lia. clear EV. replace (2 * S k)%nat with (S (S (2 * k))) by lia. rewrite dd_S. destruct (d_bnd k) as ((O & _) & _). assert (E := ev_pos (S k)). replace (2 * S k)%nat with (S (S (2 * k))) in E by lia.
  assert (P := d_pos (S (S (2 * k)))). rewrite dd_S in P. set (x := al (S (S (2 * k))) * d (S (2 * k))) in * . assert (X : x < 0) by (unfold x; nra).
  assert (0 < 1 + x). { destruct (Rlt_or_le 0 (1 + x)); auto. destruct H. apply Rinv_lt_0_compat in H. lra. rewrite H, Rinv_0 in P. lra. }
  enough (1 < / (1 + x)) by lra. rewrite <- Rinv_1 at 1. apply Rinv_lt_contravar; lra.
Qed.
Lemma even_six k : (1 <= k)%nat -> 0 < d (2 * k)%nat - 1 <= 55 / 10.
Proof. intros K. destruct (even_bnd k K) as (P & L). split. auto. assert (1 <= INR k) by (apply (le_INR 1); lia). apply (Rmult_le_reg_r (INR k + 1)). lra. lra. Qed.
Lemma even_gen k S M : (1 <= k)%nat -> 0 <= S < 1 -> 0 < M -> - al (2 * k)%nat * ((a + 2 * INR k) * (a + 2 * INR k + 1)) <= S * ((a + INR k) * (a + INR k)) ->
  S * (a + INR k) * (1 + M) <= M * (a + 2 * INR k + 1) -> d (2 * k)%nat - 1 <= M.
Proof.
  intros K HS HM E1 HL. destruct k as [|k]. lia. assert (PD := d_pos (2 * Datatypes.S k)%nat). destruct (d_bnd k) as ((O1 & O2) & _). assert (E0 := ev_pos (Datatypes.S k)). 
  replace (2 * Datatypes.S k)%nat with (Datatypes.S (Datatypes.S (2 * k))) in * by lia. set (e := - al (Datatypes.S (Datatypes.S (2 * k)))) in * . rewrite dd_S in PD |- * . replace (al (Datatypes.S (Datatypes.S (2 * k)))) with (- e) in PD |- * by (unfold e; ring).
  rewrite S_INR in * . assert (P := pos_INR k). set (x := INR k) in * . set (y := d (Datatypes.S (2 * k))) in * .
  assert (X : e * y * (a + 2 * x + 3) <= S * (a + x + 1)).
  { apply (Rmult_le_reg_r ((a + 2 * x + 2) * (a + x + 1))). apply Rmult_lt_0_compat; lra. replace (e * y * (a + 2 * x + 3) * ((a + 2 * x + 2) * (a + x + 1))) with (e * ((a + 2 * (x + 1)) * (a + 2 * (x + 1) + 1)) * (y * (a + x + 1))) by ring.
    replace (S * (a + x + 1) * ((a + 2 * x + 2) * (a + x + 1))) with (S * ((a + (x + 1)) * (a + (x + 1))) * (a + 2 * x + 2)) by ring. apply Rmult_le_compat; auto. apply Rmult_le_pos; [lra|]. apply Rmult_le_pos; lra. apply Rmult_le_pos; lra. }
  assert (Y1 : 0 < 1 + - e * y) by (apply (inv_pos_pos _ PD)).
  enough (/ (1 + - e * y) <= 1 + M) by lra. apply (Rmult_le_reg_l (1 + - e * y)). auto. rewrite Rinv_r by lra.
  assert (Z1 : e * y * (1 + M) <= M). { apply (Rmult_le_reg_r (a + 2 * x + 3)). lra. apply Rle_trans with (S * (a + x + 1) * (1 + M)). replace (e * y * (1 + M) * (a + 2 * x + 3)) with (e * y * (a + 2 * x + 3) * (1 + M)) by ring. apply Rmult_le_compat_r; lra. lra. }
  lra.
Qed.
Lemma even_m1 : d 2%nat - 1 <= 434 / 100.
Proof. apply (even_gen 1 (96 / 100)); try lra; try lia. apply (ev1 1). lia. cbn [INR]. lra. Qed.
Lemma even_m2 k : (2 <= k)%nat -> d (2 * k)%nat - 1 <= 28 / 10.
Proof. intros K. assert (K2 : 2 <= INR k) by (apply (le_INR 2); lia). apply (even_gen k (92 / 100)); try lra; try lia. apply ev2. lia. Qed.
Lemma pair_gen k S r : (1 <= k)%nat -> 0 <= S < 1 -> 0 <= r -> - al (2 * k)%nat * ((a + 2 * INR k) * (a + 2 * INR k + 1)) <= S * ((a + INR k) * (a + INR k)) ->
  (forall t, 0 <= t <= 1 -> 876 / 1000 * t * (S * (1 - t)) <= r * ((1 - 876 / 1000 * t) * (1 - S * (1 - t)))) ->
  S * ((a + INR k) * (a + INR k)) <= r * ((a + 2 * INR k) * (a + 2 * INR k + 1)) -> r < 1 ->
  Rabs (d (2 * k - 1)%nat - 1) * (d (2 * k)%nat - 1) <= r.
Proof.
  intros K Hs Hr He Ht Hc R1. destruct k as [|k]. lia. replace (2 * Datatypes.S k - 1)%nat with (Datatypes.S (2 * k)) by lia. assert (E0 := ev_pos (Datatypes.S k)). rewrite S_INR in * . assert (P := pos_INR k).
  destruct (d_bnd k) as ((O & L) & EV). assert (P2 := d_pos (2 * Datatypes.S k)).
  assert (X : d (2 * Datatypes.S k) = / (1 + al (2 * Datatypes.S k)%nat * d (Datatypes.S (2 * k)))). { replace (2 * Datatypes.S k)%nat with (Datatypes.S (Datatypes.S (2 * k))) by lia. reflexivity. }
  assert (Q : 0 <= al (Datatypes.S (2 * k)) * d (2 * k)%nat \/ (al (Datatypes.S (2 * k)) * d (2 * k)%nat <= 0 /\ - (al (Datatypes.S (2 * k)) * d (2 * k)%nat) * (a + 2 * INR k + 2) <= 876 / 1000 * (INR k + 1))).
  { apply (od_prod k). destruct k. auto. left. specialize (EV ltac:(lia)). repeat split; try apply EV. lia. }
  rewrite X in * . clear X EV. set (e := - al (2 * Datatypes.S k)%nat) in * . replace (al (2 * Datatypes.S k)%nat) with (- e) in * by (unfold e; ring). rewrite dd_S in * . set (y := al (Datatypes.S (2 * k)) * d (2 * k)%nat) in * . set (x := INR k) in * . clearbody e y x.
  assert (E1 : e <= r). { apply (Rmult_le_reg_r ((a + 2 * (x + 1)) * (a + 2 * (x + 1) + 1))). apply Rmult_lt_0_compat; lra. lra. }
  assert (Y1 : 0 < 1 + y). { destruct (Rlt_or_le 0 (1 + y)) as [|[H|H]]; auto. apply Rinv_lt_0_compat in H. lra. rewrite H, Rinv_0 in O. lra. }
  destruct Q as [Q|(Q & QL)].
  - rewrite Rabs_left1. 2:{ enough (/ (1 + y) <= 1) by lra. rewrite <- Rinv_1. apply Rinv_le_contravar; lra. }
    replace (- (/ (1 + y) - 1) * (/ (1 + - e * / (1 + y)) - 1)) with (y / (1 + y) * (e / (1 + y) / (1 - e / (1 + y)))) by (field; lra).
    eapply Rle_trans. apply pair_pos; lra. lra.
  - rewrite Rabs_pos_eq. 2:{ enough (1 <= / (1 + y)) by lra. rewrite <- Rinv_1 at 1. apply Rinv_le_contravar; lra. }
    assert (W : 0 < 1 + - e * / (1 + y)). { destruct (Rlt_or_le 0 (1 + - e * / (1 + y))) as [|[H|H]]; auto. apply Rinv_lt_0_compat in H. lra. rewrite H, Rinv_0 in P2. lra. }
    set (w := e * / (1 + y)) in * . replace (- e * / (1 + y)) with (- w) in * by (unfold w; ring). 
    assert (w0 : 0 < w) by (unfold w; apply Rmult_lt_0_compat; lra).
    assert (WL : w * (a + 2 * x + 3) <= S * (a + x + 1)).
    { apply (Rmult_le_reg_r ((a + 2 * x + 2) * (a + x + 1))). apply Rmult_lt_0_compat; lra. replace (w * (a + 2 * x + 3) * ((a + 2 * x + 2) * (a + x + 1))) with (e * ((a + 2 * (x + 1)) * (a + 2 * (x + 1) + 1)) * (/ (1 + y) * (a + x + 1))) by (unfold w; ring).
      replace (S * (a + x + 1) * ((a + 2 * x + 2) * (a + x + 1))) with (S * ((a + (x + 1)) * (a + (x + 1))) * (a + 2 * x + 2)) by ring. apply Rmult_le_compat; auto. apply Rmult_le_pos. lra. apply Rmult_le_pos; lra. apply Rmult_le_pos; lra. }
    replace ((/ (1 + y) - 1) * (/ (1 + - w) - 1)) with (- y / (1 - - y) * (w / (1 - w))) by (field; lra).
    apply (pair_neg ((x + 1) / (a + 2 * x + 2)) ((a + x + 1) / (a + 2 * x + 3)) _ _ S); auto; try (apply Rmult_le_pos; [lra|left; apply Rinv_0_lt_compat; lra]).
    + apply (Rmult_le_reg_r ((a + 2 * x + 2) * (a + 2 * x + 3))). apply Rmult_lt_0_compat; lra. replace (((x + 1) / (a + 2 * x + 2) + (a + x + 1) / (a + 2 * x + 3)) * ((a + 2 * x + 2) * (a + 2 * x + 3))) with ((x + 1) * (a + 2 * x + 3) + (a + x + 1) * (a + 2 * x + 2)) by (field; lra). lra.
    + split. lra. apply (Rmult_le_reg_r (a + 2 * x + 2)). lra. replace (876 / 1000 * ((x + 1) / (a + 2 * x + 2)) * (a + 2 * x + 2)) with (876 / 1000 * (x + 1)) by (field; lra). auto.
    + split. lra. apply (Rmult_le_reg_r (a + 2 * x + 3)). lra. replace (S * ((a + x + 1) / (a + 2 * x + 3)) * (a + 2 * x + 3)) with (S * (a + x + 1)) by (field; lra). auto.
Qed.
Lemma pair1 : Rabs (d 1%nat - 1) * (d 2%nat - 1) <= 3 / 4.
Proof.
  apply (pair_gen 1 (96 / 100)); try lra; try lia. apply (ev1 1). lia. intros t Ht. assert (H := Rle_0_sqr (t - 35 / 100)). unfold Rsqr in H. lra. cbn [INR]. assert (0 <= (10 - a) * (a - / 2)) by (apply Rmult_le_pos; lra). lra.
Qed.
Lemma pair2 k : (2 <= k)%nat -> Rabs (d (2 * k - 1)%nat - 1) * (d (2 * k)%nat - 1) <= 2 / 3.
Proof.
  intros K. assert (K2 : 2 <= INR k) by (apply (le_INR 2); lia). apply (pair_gen k (92 / 100)); try lra; try lia. apply ev2. lia. intros t Ht. assert (H := Rle_0_sqr (t - 4454 / 10000)). unfold Rsqr in H. lra. set (x := INR k) in * . assert (0 <= (10 - a) * (a - / 2)) by (apply Rmult_le_pos; lra). assert (0 <= (x - 2) * (a - / 2)) by (apply Rmult_le_pos; lra). assert (0 <= (x - 2) * (x - 2)) by apply Rle_0_sqr. lra.
Qed.
End B.

