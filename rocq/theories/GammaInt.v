(** * The gamma integral: existence, functional equation, growth *)
From Coq Require Import ZArith Reals Lra Psatz.
From Coquelicot Require Import Coquelicot.
From Verif Require Import SpecGamma.
Open Scope R_scope.

Ltac eqR := match goal with |- @eq _ ?a ?b => change (@eq R a b) end.
Definition gi (x t : R) : R := Rpower t (x - 1) * exp (- t).
Definition ga (n : nat) : R := / (INR n + 1).
Definition gb (n : nat) : R := INR n + 1.
Definition gseq (x : R) (n : nat) : R := RInt (gi x) (ga n) (gb n).

Lemma ga_pos n : 0 < ga n <= 1.
Proof. unfold ga. assert (P := pos_INR n). split. apply Rinv_0_lt_compat. lra. rewrite <- Rinv_1. apply Rinv_le_contravar; lra. Qed.
Lemma gb_ge n : 1 <= gb n. Proof. unfold gb. assert (P := pos_INR n). lra. Qed.
Lemma ga_S n : ga (S n) <= ga n.
Proof. unfold ga. assert (P := pos_INR n). rewrite S_INR. apply Rinv_le_contravar; lra. Qed.
Lemma gb_S n : gb n <= gb (S n). Proof. unfold gb. rewrite S_INR. lra. Qed.

Lemma rpow_derive y t : 0 < t -> is_derive (fun t => Rpower t y) t (y * Rpower t (y - 1)).
Proof. intros H. apply is_derive_Reals. apply derivable_pt_lim_power. auto. Qed.
Lemma rpow_pos t y : 0 < Rpower t y. Proof. apply exp_pos. Qed.
Lemma gi_pos x t : 0 < gi x t.
Proof. unfold gi. apply Rmult_lt_0_compat. apply rpow_pos. apply exp_pos. Qed.
Lemma gi_cont x t : 0 < t -> continuous (gi x) t.
Proof.
  intros H. apply (ex_derive_continuous (gi x)). unfold gi. apply (ex_derive_mult (fun t => Rpower t (x - 1)) (fun t => exp (- t))).
  eexists. apply rpow_derive. auto. auto_derive. auto.
Qed.
Lemma cont_ex (f : R -> R) a b : (forall t, 0 < t -> continuous f t) -> 0 < a -> 0 < b -> ex_RInt f a b.
Proof. intros C Ha Hb. apply (ex_RInt_continuous f). intros z Hz. apply C. unfold Rmin in Hz. destruct Rle_dec; lra. Qed.
Lemma gi_ex x a b : 0 < a -> 0 < b -> ex_RInt (gi x) a b.
Proof. apply cont_ex. apply gi_cont. Qed.
Lemma gi_int_pos x a b : 0 < a <= b -> 0 <= RInt (gi x) a b.
Proof. intros H. apply RInt_ge_0. lra. apply gi_ex; lra. intros. left. apply gi_pos. Qed.
Lemma gi_chasles x a b c : 0 < a -> 0 < b -> 0 < c -> RInt (gi x) a c = RInt (gi x) a b + RInt (gi x) b c.
Proof. intros. symmetry. apply (RInt_Chasles (gi x) a b c); apply gi_ex; auto. Qed.
Lemma gi_mono x a b a' b' : 0 < a' <= a -> a <= b -> b <= b' -> RInt (gi x) a b <= RInt (gi x) a' b'.
Proof.
  intros H1 H2 H3. rewrite (gi_chasles x a' a b') by lra. rewrite (gi_chasles x a b b') by lra.
  assert (A := gi_int_pos x a' a ltac:(lra)). assert (B := gi_int_pos x b b' ltac:(lra)). lra.
Qed.
Lemma gseq_incr x n : gseq x n <= gseq x (S n).
Proof. unfold gseq. destruct (ga_pos (S n)). destruct (ga_pos n). assert (G := gb_ge n). apply gi_mono. split. auto. apply ga_S. lra. apply gb_S. Qed.

(** ** Boundedness *)
(** for t ≥ 1, t^y ≤ C e^(t/2) *)
Definition gC (y : R) : R := exp (Rabs y * ln (2 * (Rabs y + 1))).
Lemma ln_tan t k : 0 < t -> 0 < k -> ln t <= t / k - 1 + ln k.
Proof.
  intros Ht Hk. assert (H := exp_ineq1_le (ln (t / k))). rewrite exp_ln in H by (apply Rdiv_lt_0_compat; auto). rewrite ln_div in H by auto. lra.
Qed.
Lemma rpow_le_exp t y : 1 <= t -> Rpower t y <= gC y * exp (t / 2).
Proof.
  intros Ht. unfold Rpower, gC. rewrite <- exp_plus. assert (A := Rabs_pos y). assert (B := Rle_abs y).
  assert (L0 : 0 <= ln t). { rewrite <- ln_1. apply ln_le; lra. }
  assert (L := ln_tan t (2 * (Rabs y + 1)) ltac:(lra) ltac:(lra)).
  assert (Q : y * ln t <= Rabs y * ln (2 * (Rabs y + 1)) + t / 2).
  { apply Rle_trans with (Rabs y * ln t). apply Rmult_le_compat_r; auto.
    apply Rle_trans with (Rabs y * (t / (2 * (Rabs y + 1)) + ln (2 * (Rabs y + 1)))). apply Rmult_le_compat_l; lra.
    assert (Rabs y * (t / (2 * (Rabs y + 1))) <= t / 2).
    { apply (Rmult_le_reg_r (2 * (Rabs y + 1))). lra. replace (Rabs y * (t / (2 * (Rabs y + 1))) * (2 * (Rabs y + 1))) with (Rabs y * t) by (field; lra). nra. }
    lra. }
  destruct Q as [Q|Q]. left. apply exp_increasing. auto. rewrite Q. lra.
Qed.
Lemma gi_tail x b : 1 <= b -> RInt (gi x) 1 b <= 2 * gC (x - 1).
Proof.
  intros Hb. set (C := gC (x - 1)). assert (C0 : 0 < C) by apply exp_pos.
  assert (I : is_RInt (fun t => C * exp (- t / 2)) 1 b (C * (-2 * exp (- b / 2)) - C * (-2 * exp (- 1 / 2)))).
  { apply (is_RInt_derive (fun t => C * (-2 * exp (- t / 2))) (fun t => C * exp (- t / 2))).
    - intros t _. auto_derive. auto. unfold Rdiv. field.
    - intros t _. apply (ex_derive_continuous (fun t => C * exp (- t / 2))). auto_derive. auto. }
  apply Rle_trans with (RInt (fun t => C * exp (- t / 2)) 1 b).
  - apply RInt_le; auto. apply gi_ex; lra. eexists; apply I.
    intros t Ht. unfold gi. assert (A := rpow_le_exp t (x - 1) ltac:(lra)). fold C in A.
    replace (C * exp (- t / 2)) with (C * exp (t / 2) * exp (- t)). apply Rmult_le_compat_r; auto. left. apply exp_pos.
    rewrite Rmult_assoc, <- exp_plus. f_equal. f_equal. field.
  - rewrite (is_RInt_unique _ _ _ _ I). assert (0 < exp (- b / 2)) by apply exp_pos. assert (exp (- 1 / 2) <= 1). { rewrite <- exp_0. left. apply exp_increasing. lra. }
    assert (0 <= C * exp (- b / 2)) by (apply Rmult_le_pos; lra). assert (C * exp (- 1 / 2) <= C * 1) by (apply Rmult_le_compat_l; lra). lra.
Qed.
Lemma gi_head x a : 0 < x -> 0 < a <= 1 -> RInt (gi x) a 1 <= 1 / x.
Proof.
  intros Hx Ha.
  assert (I : is_RInt (fun t => Rpower t (x - 1)) a 1 (/ x * Rpower 1 x - / x * Rpower a x)).
  { apply (is_RInt_derive (fun t => / x * Rpower t x) (fun t => Rpower t (x - 1))).
    - intros t Ht. rewrite Rmin_left, Rmax_right in Ht by lra. evar_last. apply (is_derive_scal (fun t => Rpower t x)). apply rpow_derive. lra. field. lra.
    - intros t Ht. rewrite Rmin_left, Rmax_right in Ht by lra. apply (ex_derive_continuous (fun t => Rpower t (x - 1))). eexists. apply rpow_derive. lra. }
  apply Rle_trans with (RInt (fun t => Rpower t (x - 1)) a 1).
  - apply RInt_le. lra. apply gi_ex; lra. eexists; apply I.
    intros t Ht. unfold gi. assert (exp (- t) <= 1). { rewrite <- exp_0. left. apply exp_increasing. lra. }
    assert (P := rpow_pos t (x - 1)). rewrite <- (Rmult_1_r (Rpower t (x - 1))) at 2. apply Rmult_le_compat_l; lra.
  - rewrite (is_RInt_unique _ _ _ _ I). assert (P := rpow_pos a x). replace (Rpower 1 x) with 1. 2:{ unfold Rpower. rewrite ln_1, Rmult_0_r, exp_0. reflexivity. }
    assert (0 < / x) by (apply Rinv_0_lt_compat; auto). assert (0 <= / x * Rpower a x) by (apply Rmult_le_pos; lra). unfold Rdiv. lra.
Qed.
Lemma gseq_bound x n : 0 < x -> gseq x n <= 1 / x + 2 * gC (x - 1).
Proof.
  intros Hx. unfold gseq. destruct (ga_pos n) as (A & B). assert (G := gb_ge n). rewrite (gi_chasles x _ 1) by lra.
  assert (H1 := gi_head x (ga n) Hx (conj A B)). assert (H2 := gi_tail x (gb n) G). lra.
Qed.
Lemma Gamma_lim x : 0 < x -> is_lim_seq (gseq x) (Gamma x).
Proof.
  intros Hx. destruct (ex_finite_lim_seq_incr (gseq x) (1 / x + 2 * gC (x - 1)) (gseq_incr x) (fun n => gseq_bound x n Hx)) as (l & H).
  assert (E := is_lim_seq_unique _ _ H). unfold Gamma. change (fun n => RInt (fun t => Rpower t (x - 1) * exp (- t)) (/ (INR n + 1)) (INR n + 1)) with (gseq x).
  rewrite E. exact H.
Qed.
Lemma Gamma_ge x n : 0 < x -> gseq x n <= Gamma x.
Proof. intros Hx. apply (is_lim_seq_incr_compare (gseq x)). apply Gamma_lim; auto. apply gseq_incr. Qed.
Lemma Gamma_pos x : 0 < x -> 0 < Gamma x.
Proof.
  intros Hx. apply Rlt_le_trans with (gseq x 1). 2: apply Gamma_ge; auto.
  unfold gseq. destruct (ga_pos 1) as (A & B). assert (G : ga 1 < gb 1) by (unfold ga, gb; cbn; lra).
  apply (RInt_gt_0 (gi x)). auto. intros; apply gi_pos. intros t Ht. apply gi_cont. lra.
Qed.
(** ** Values *)
Lemma exp_b_lim : is_lim_seq (fun n => exp (- (gb n) / 2)) 0.
Proof.
  apply (is_lim_seq_le_le (fun _ => 0) _ (fun n => / (INR n + 1) * 2)).
  - intros n. split. left. apply exp_pos. assert (P := pos_INR n). assert (H := exp_ineq1_le (gb n / 2)). unfold gb in *.
    replace (- (INR n + 1) / 2) with (- ((INR n + 1) / 2)) by field. rewrite exp_Ropp.
    replace (/ (INR n + 1) * 2) with (/ ((INR n + 1) / 2)) by (field; lra). apply Rinv_le_contravar; lra.
  - apply is_lim_seq_const.
  - replace (Finite 0) with (Rbar_mult 0 2) by (cbn; f_equal; ring). apply is_lim_seq_scal_r. 
    apply (is_lim_seq_ext (fun n => / (INR (S n)))). intros n. rewrite S_INR. reflexivity.
    apply (is_lim_seq_incr_1 (fun n => / INR n)). replace (Finite 0) with (Rbar_inv p_infty) by reflexivity. apply is_lim_seq_inv. apply is_lim_seq_INR. discriminate.
Qed.
Lemma ga_lim : is_lim_seq ga 0.
Proof.
  apply (is_lim_seq_ext (fun n => / (INR (S n)))). intros n. unfold ga. rewrite S_INR. reflexivity.
  apply (is_lim_seq_incr_1 (fun n => / INR n)). replace (Finite 0) with (Rbar_inv p_infty) by reflexivity. apply is_lim_seq_inv. apply is_lim_seq_INR. discriminate.
Qed.
Lemma Gamma_one : Gamma 1 = 1.
Proof.
  assert (E : forall n, gseq 1 n = exp (- ga n) - exp (- gb n)).
  { intros n. unfold gseq. apply is_RInt_unique. destruct (ga_pos n) as (A & B). assert (G := gb_ge n).
    replace (exp (- ga n) - exp (- gb n)) with (- exp (- gb n) - - exp (- ga n)) by ring.
    apply (is_RInt_ext (fun t => exp (- t))).
    - intros t Ht. rewrite Rmin_left, Rmax_right in Ht by lra. unfold gi, Rpower. replace (1 - 1) with 0 by ring. rewrite Rmult_0_l, exp_0. eqR. ring.
    - apply (is_RInt_derive (fun t => - exp (- t)) (fun t => exp (- t))).
      intros t _. auto_derive. auto. ring. intros t _. apply (ex_derive_continuous (fun t => exp (- t))). auto_derive. auto. }
  assert (L := Gamma_lim 1 ltac:(lra)). apply (is_lim_seq_ext _ (fun n => exp (- ga n) - exp (- gb n)) _ E) in L.
  assert (M : is_lim_seq (fun n => exp (- ga n) - exp (- gb n)) (Finite (1 - 0))).
  { apply is_lim_seq_minus'.
    - replace 1 with (exp (- 0)) by (rewrite Ropp_0, exp_0; reflexivity). apply (is_lim_seq_continuous (fun t => exp (- t)) ga 0).
      apply continuity_pt_filterlim. apply (ex_derive_continuous (fun t => exp (- t))). auto_derive. auto. apply ga_lim.
    - apply (is_lim_seq_le_le (fun _ => 0) _ (fun n => exp (- gb n / 2))). intros n. assert (G := gb_ge n). split. left; apply exp_pos. left. apply exp_increasing. lra. apply is_lim_seq_const. apply exp_b_lim. }
  assert (U := is_lim_seq_unique _ _ L). rewrite (is_lim_seq_unique _ _ M) in U. injection U. lra.
Qed.
(** ** Functional equation *)
Lemma rpow_a_lim x : 0 < x -> is_lim_seq (fun n => Rpower (ga n) x) 0.
Proof.
  intros Hx. unfold Rpower. apply (is_lim_seq_ext (fun n => / exp (x * ln (gb n)))).
  - intros n. unfold ga, gb. assert (P := pos_INR n). rewrite ln_Rinv by lra. rewrite <- exp_Ropp. f_equal. ring.
  - replace (Finite 0) with (Rbar_inv p_infty) by reflexivity. apply is_lim_seq_inv; [|discriminate].
    apply (filterlim_comp _ _ _ (fun n => x * ln (gb n)) exp eventually (Rbar_locally p_infty)).
    2: apply is_lim_exp_p.
    replace p_infty with (Rbar_mult x p_infty). 2:{ cbn. destruct Rle_dec as [r|n]. destruct Rle_lt_or_eq_dec; [reflexivity|lra]. exfalso. apply n. lra. }
    apply is_lim_seq_scal_l.
    apply (filterlim_comp _ _ _ gb ln eventually (Rbar_locally p_infty)). 2: apply is_lim_ln_p.
    unfold gb. apply (is_lim_seq_ext (fun n => INR (S n))). intros n. apply S_INR. apply -> (is_lim_seq_incr_1 (fun n => INR n)). apply is_lim_seq_INR.
Qed.
Lemma rpow_b_lim x : is_lim_seq (fun n => Rpower (gb n) x * exp (- gb n)) 0.
Proof.
  apply (is_lim_seq_le_le (fun _ => 0) _ (fun n => gC x * exp (- gb n / 2))).
  - intros n. assert (G := gb_ge n). assert (P := rpow_pos (gb n) x). assert (Q := exp_pos (- gb n)). split. apply Rmult_le_pos; lra.
    replace (gC x * exp (- gb n / 2)) with (gC x * exp (gb n / 2) * exp (- gb n)). 2:{ rewrite Rmult_assoc, <- exp_plus. f_equal. f_equal. field. }
    apply Rmult_le_compat_r. lra. apply rpow_le_exp; auto.
  - apply is_lim_seq_const.
  - replace (Finite 0) with (Rbar_mult (gC x) 0) by (cbn; f_equal; ring). apply is_lim_seq_scal_l. apply exp_b_lim.
Qed.
Lemma gseq_parts x n : 0 < x -> gseq (x + 1) n = x * gseq x n + (Rpower (ga n) x * exp (- ga n) - Rpower (gb n) x * exp (- gb n)).
Proof.
  intros Hx. destruct (ga_pos n) as (A & B). assert (G := gb_ge n). unfold gseq.
  assert (I : is_RInt (fun t => gi (x + 1) t - x * gi x t) (ga n) (gb n) (- (Rpower (gb n) x * exp (- gb n)) - - (Rpower (ga n) x * exp (- ga n)))).
  { apply (is_RInt_derive (fun t => - (Rpower t x * exp (- t))) (fun t => gi (x + 1) t - x * gi x t)).
    - intros t Ht. rewrite Rmin_left, Rmax_right in Ht by lra. evar_last. apply (is_derive_opp (fun t => Rpower t x * exp (- t))).
      apply (is_derive_mult (fun t => Rpower t x) (fun t => exp (- t))). apply rpow_derive. lra. auto_derive. auto. reflexivity. intros; apply Rmult_comm.
      unfold opp, plus, mult, gi; cbn. replace (x + 1 - 1) with x by ring. ring.
    - intros t Ht. rewrite Rmin_left, Rmax_right in Ht by lra. apply (continuous_minus (gi (x + 1)) (fun t => x * gi x t)). apply gi_cont. lra.
      apply (continuous_scal_r x (gi x)). apply gi_cont. lra. }
  assert (J1 := RInt_correct _ _ _ (gi_ex (x + 1) (ga n) (gb n) A ltac:(lra))). assert (J2 := RInt_correct _ _ _ (gi_ex x (ga n) (gb n) A ltac:(lra))).
  assert (J : is_RInt (fun t => gi (x + 1) t - x * gi x t) (ga n) (gb n) (RInt (gi (x + 1)) (ga n) (gb n) - x * RInt (gi x) (ga n) (gb n))).
  { exact (is_RInt_minus _ _ _ _ _ _ J1 (is_RInt_scal _ _ _ x _ J2)). }
  assert (U := is_RInt_unique _ _ _ _ I). rewrite (is_RInt_unique _ _ _ _ J) in U. lra.
Qed.
Lemma Gamma_S x : 0 < x -> Gamma (x + 1) = x * Gamma x.
Proof.
  intros Hx. assert (L := Gamma_lim (x + 1) ltac:(lra)). apply (is_lim_seq_ext _ _ _ (fun n => gseq_parts x n Hx)) in L.
  assert (M : is_lim_seq (fun n => x * gseq x n + (Rpower (ga n) x * exp (- ga n) - Rpower (gb n) x * exp (- gb n))) (Finite (x * Gamma x + (0 - 0)))).
  { apply is_lim_seq_plus'.
    - apply (is_lim_seq_scal_l _ x (Gamma x)). apply Gamma_lim; auto.
    - apply is_lim_seq_minus'. 2: apply rpow_b_lim.
      apply (is_lim_seq_le_le (fun _ => 0) _ (fun n => Rpower (ga n) x)). 2: apply is_lim_seq_const. 2: apply rpow_a_lim; auto.
      intros n. destruct (ga_pos n) as (A & B). assert (P := rpow_pos (ga n) x). assert (Q := exp_pos (- ga n)). split. apply Rmult_le_pos; lra.
      assert (exp (- ga n) <= 1). { rewrite <- exp_0. left. apply exp_increasing. lra. } rewrite <- (Rmult_1_r (Rpower (ga n) x)) at 2. apply Rmult_le_compat_l; lra. }
  assert (U := is_lim_seq_unique _ _ L). rewrite (is_lim_seq_unique _ _ M) in U. injection U. lra.
Qed.
(** ** Growth: Γ(x+s) ≤ x^s Γ(x) for 0 ≤ s ≤ 1 *)
Lemma rpow_tan t a s : 0 < t -> 0 < a -> 0 <= s <= 1 -> Rpower t s <= Rpower a s * (1 - s) + Rpower a s * s / a * t.
Proof.
  intros Ht Ha Hs. replace (Rpower t s) with (Rpower a s * Rpower (t / a) s). 2:{ rewrite Rpower_mult_distr by (auto; apply Rdiv_lt_0_compat; auto). f_equal. field. lra. }
  assert (P := rpow_pos a s). replace (Rpower a s * (1 - s) + Rpower a s * s / a * t) with (Rpower a s * (1 + s * (t / a - 1))) by (field; lra).
  apply Rmult_le_compat_l. lra. set (w := t / a). assert (W : 0 < w) by (apply Rdiv_lt_0_compat; auto). clearbody w. unfold Rpower.
  (* convexity of exp: e^(s y) ≤ 1 - s + s e^y *)
  set (y := ln w). replace w with (exp y) by (apply exp_ln; auto). clearbody y.
  assert (A := exp_ineq1_le (- (s * y))). assert (B := exp_ineq1_le ((1 - s) * y)).
  (* 1 = e^(sy)*e^(-sy), e^y = e^(sy) e^((1-s)y) *)
  assert (E0 : 0 < exp (s * y)) by apply exp_pos.
  assert (E1 : exp y = exp (s * y) * exp ((1 - s) * y)) by (rewrite <- exp_plus; f_equal; ring).
  assert (E2 : 1 = exp (s * y) * exp (- (s * y))) by (rewrite <- exp_plus; rewrite <- exp_0; f_equal; ring).
  replace (1 + s * (exp y - 1)) with ((1 - s) * 1 + s * exp y) by ring. rewrite E1. rewrite E2 at 2.
  assert (exp (s * y) * ((1 - s) * (1 + - (s * y)) + s * (1 + (1 - s) * y)) <= exp (s * y) * ((1 - s) * exp (- (s * y)) + s * exp ((1 - s) * y))).
  { apply Rmult_le_compat_l. lra. apply Rplus_le_compat; apply Rmult_le_compat_l; lra. }
  replace ((1 - s) * (1 + - (s * y)) + s * (1 + (1 - s) * y)) with 1 in H by ring. lra.
Qed.
Lemma Gamma_tan x a s : 0 < x -> 0 < a -> 0 <= s <= 1 -> Gamma (x + s) <= Rpower a s * (1 - s) * Gamma x + Rpower a s * s / a * Gamma (x + 1).
Proof.
  intros Hx Ha Hs. set (c1 := Rpower a s * (1 - s)). set (c2 := Rpower a s * s / a).
  assert (L : forall n, gseq (x + s) n <= c1 * gseq x n + c2 * gseq (x + 1) n).
  { intros n. destruct (ga_pos n) as (A & B). assert (G := gb_ge n). unfold gseq.
    assert (J1 := RInt_correct _ _ _ (gi_ex x (ga n) (gb n) A ltac:(lra))). assert (J2 := RInt_correct _ _ _ (gi_ex (x + 1) (ga n) (gb n) A ltac:(lra))).
    assert (J : is_RInt (fun t => c1 * gi x t + c2 * gi (x + 1) t) (ga n) (gb n) (c1 * RInt (gi x) (ga n) (gb n) + c2 * RInt (gi (x + 1)) (ga n) (gb n))).
    { exact (is_RInt_plus _ _ _ _ _ _ (is_RInt_scal _ _ _ c1 _ J1) (is_RInt_scal _ _ _ c2 _ J2)). }
    rewrite <- (is_RInt_unique _ _ _ _ J). apply RInt_le. lra. apply gi_ex; lra. eexists; apply J.
    intros t Ht. unfold gi. assert (T := rpow_tan t a s ltac:(lra) Ha Hs). fold c1 c2 in T.
    replace (x + s - 1) with ((x - 1) + s) by ring. rewrite Rpower_plus. replace (x + 1 - 1) with ((x - 1) + 1) by ring. rewrite Rpower_plus, Rpower_1 by lra.
    assert (P := rpow_pos t (x - 1)). assert (Q := exp_pos (- t)).
    replace (c1 * (Rpower t (x - 1) * exp (- t)) + c2 * (Rpower t (x - 1) * t * exp (- t))) with (Rpower t (x - 1) * (c1 + c2 * t) * exp (- t)) by ring.
    apply Rmult_le_compat_r. lra. apply Rmult_le_compat_l; lra. }
  assert (M : is_lim_seq (fun n => c1 * gseq x n + c2 * gseq (x + 1) n) (Finite (c1 * Gamma x + c2 * Gamma (x + 1)))).
  { apply is_lim_seq_plus'. apply (is_lim_seq_scal_l _ c1 (Gamma x)). apply Gamma_lim; auto. apply (is_lim_seq_scal_l _ c2 (Gamma (x + 1))). apply Gamma_lim; lra. }
  assert (N := Gamma_lim (x + s) ltac:(lra)). apply (is_lim_seq_le _ _ (Finite (Gamma (x + s))) _ L N M).
Qed.
Lemma Gamma_up x s : 0 < x -> 0 <= s <= 1 -> Gamma (x + s) <= Rpower x s * Gamma x.
Proof.
  intros Hx Hs. assert (H := Gamma_tan x x s Hx Hx Hs). rewrite Gamma_S in H by auto.
  replace (Rpower x s * (1 - s) * Gamma x + Rpower x s * s / x * (x * Gamma x)) with (Rpower x s * Gamma x) in H by (field; lra). auto.
Qed.
Lemma lnGamma_up x s : 0 < x -> 0 <= s <= 1 -> ln (Gamma (x + s)) <= s * ln x + ln (Gamma x).
Proof.
  intros Hx Hs. assert (G := Gamma_up x s Hx Hs). apply ln_le in G. 2: apply Gamma_pos; lra. rewrite ln_mult in G. 2: apply rpow_pos. 2: apply Gamma_pos; auto.
  unfold Rpower in G. rewrite ln_exp in G. auto.
Qed.
Lemma lnGamma_S x : 0 < x -> ln (Gamma (x + 1)) = ln x + ln (Gamma x).
Proof. intros Hx. rewrite Gamma_S, ln_mult; auto. apply Gamma_pos; auto. Qed.
Lemma lnGamma_low x s : 0 < x -> 0 <= s <= 1 -> s * ln x + ln (Gamma x) - s / x <= ln (Gamma (x + s)).
Proof.
  intros Hx Hs. assert (H := lnGamma_up (x + s) (1 - s) ltac:(lra) ltac:(lra)). replace (x + s + (1 - s)) with (x + 1) in H by ring. rewrite lnGamma_S in H by auto.
  assert (L := ln_tan (x + s) x ltac:(lra) Hx). replace ((x + s) / x - 1) with (s / x) in L by (field; lra).
  assert (0 <= s / x) by (apply Rmult_le_pos; [lra|left; apply Rinv_0_lt_compat; auto]).
  assert ((1 - s) * ln (x + s) <= (1 - s) * (s / x + ln x)) by (apply Rmult_le_compat_l; lra).
  assert ((1 - s) * (s / x) <= 1 * (s / x)) by (apply Rmult_le_compat_r; lra). lra.
Qed.
Lemma Gamma_fact n : Gamma (INR n + 1) = INR (fact n).
Proof.
  induction n as [|n IH]. cbn. rewrite Rplus_0_l. apply Gamma_one.
  rewrite S_INR, Gamma_S, IH by (assert (P := pos_INR n); lra). change (fact (S n)) with (S n * fact n)%nat. rewrite mult_INR, S_INR. reflexivity.
Qed.
