(** * Beta functions, binomial logarithm and multivariate gamma on the public interface *)
From Verif Require Import Base ModelBasic ModelInt ModelElem ModelSpecial ModelApi FltLemmas ConvLemmas BasicProofs IntProofs SymLemmas.
From Coq Require Import Lra Psatz.
From Coquelicot Require Import Coquelicot.
From Interval Require Import Tactic.
From Verif Require Import Spec SpecGamma Lanczos GammaInt GammaReal.
From Verif Require Import RangeProofs PF FPErr CFBound ExpAcc MiscProofs SinAcc TanhAcc SqrtAcc LogAcc LogApi Log1pAcc InvTrig PowReal ErfAcc GammaRnd GammaAcc TgammaAcc GammaApi BetaAcc LmgammaAcc.
Open Scope R_scope.

Ltac same_lbeta v a b := unfold gcem_lbeta, lbeta, gcem_lgamma, lift1; cbn [ret_fmt ret_val arg_add cr_fmt to_fmt fmt_max];
  destruct (lgamma_check v a); cbn [bind]; auto; destruct (lgamma_check v b); cbn [bind]; auto; cbn [ret_fmt ret_val cr_fmt to_fmt fmt_max]; rewrite !conv_id; match goal with |- context [lgamma_check v ?s] => destruct (lgamma_check v s) end; cbn [bind]; auto; rewrite !conv_id; reflexivity.
Lemma lbeta32 v (a b : flt F32) : gcem_lbeta v (AFlt F32 a) (AFlt F32 b) = lbeta v a b. Proof. same_lbeta v a b. Qed.
Lemma lbeta64 v (a b : flt F64) : gcem_lbeta v (AFlt F64 a) (AFlt F64 b) = lbeta v a b. Proof. same_lbeta v a b. Qed.
Lemma lbeta80 v (a b : flt F80) : gcem_lbeta v (AFlt F80 a) (AFlt F80 b) = lbeta v a b. Proof. same_lbeta v a b. Qed.
Lemma lbeta_same v f (a b : flt f) : rmap (AFlt _) (gcem_lbeta v (AFlt f a) (AFlt f b)) = rmap (AFlt f) (lbeta v a b).
Proof. destruct f. rewrite (lbeta32 v a b). reflexivity. rewrite (lbeta64 v a b). reflexivity. rewrite (lbeta80 v a b). reflexivity. Qed.
Lemma beta_same v f (a b : flt f) : rmap (AFlt _) (gcem_beta v (AFlt f a) (AFlt f b)) = rmap (AFlt f) (beta v a b).
Proof. unfold gcem_beta, beta. destruct f. rewrite (lbeta32 v a b). reflexivity. rewrite (lbeta64 v a b). reflexivity. rewrite (lbeta80 v a b). reflexivity. Qed.
Lemma api_lbeta : forall v f (a b : flt f), finite a = true -> finite b = true -> / 2 <= B2R a -> / 2 <= B2R b -> B2R a + B2R b <= bpow radix2 54 ->
  exists w : flt f, rmap (AFlt _) (gcem_lbeta v (AFlt f a) (AFlt f b)) = Ok (AFlt f w) /\ finite w = true /\
    abs_err (B2R w) (ln (Beta (B2R a) (B2R b))) ((34 * ((B2R a + B2R b) * ln (B2R a + B2R b + 5)) + 170) * bpow radix2 (- prec f) + (2 * (B2R a + B2R b) + 10) * bpow radix2 (-54)).
Proof.
  intros v f a b Fa Fb A B S. change (bpow radix2 54) with 18014398509481984 in S. destruct (lbeta_acc v a b Fa Fb A B S) as (w & E & F & R). exists w. split. rewrite lbeta_same, E. reflexivity. split; auto. rewrite ln_Beta by lra. exact R.
Qed.
Lemma api_beta : forall v f (a b : flt f), finite a = true -> finite b = true -> / 2 <= B2R a -> / 2 <= B2R b -> B2R a + B2R b <= match f with F32 => 32 | F64 => 170 | F80 => 1754 end ->
  exists w : flt f, rmap (AFlt _) (gcem_beta v (AFlt f a) (AFlt f b)) = Ok (AFlt f w) /\ finite w = true /\
    rel_err (B2R w) (Beta (B2R a) (B2R b)) ((35 * ((B2R a + B2R b) * ln (B2R a + B2R b + 5)) + 280) * bpow radix2 (- prec f) + (3 * (B2R a + B2R b) + 15) * bpow radix2 (-54)).
Proof.
  intros v f a b Fa Fb A B S. destruct (beta_acc v a b Fa Fb A B S) as (w & E & F & R). exists w. split. rewrite beta_same, E. reflexivity. split; auto.
Qed.

(** ** Integral arguments *)
Lemma ofZ_add x y : (1 <= x)%Z -> (1 <= y)%Z -> (x + y <= 2 ^ 53)%Z -> ofZ F64 x +. ofZ F64 y = ofZ F64 (x + y).
Proof.
  intros X Y S. destruct (ofZ_exact F64 x) as (Vx & Fx & _). cbn [prec]; lia. destruct (ofZ_exact F64 y) as (Vy & Fy & _). cbn [prec]; lia. destruct (ofZ_exact F64 (x + y)) as (Vs & Fs & _). cbn [prec]; lia.
  apply IZR_le in X. apply IZR_le in Y. assert (S' := S). apply IZR_le in S'. rewrite plus_IZR in * . change (IZR (2 ^ 53)) with 9007199254740992 in S'.
  destruct (op_add (ofZ F64 x) (ofZ F64 y) Fx Fy) as (Fa & Va). { rewrite Vx, Vy. apply Rabs_le. lra. }
  assert (V : B2R (ofZ F64 x +. ofZ F64 y) = IZR x + IZR y). { rewrite Va, Vx, Vy, <- plus_IZR. apply rnd_id. apply fmt_IZR. cbn [prec]. apply le_IZR in X. apply le_IZR in Y. lia. }
  apply flt_inj_nz; auto. rewrite V, Vs. reflexivity. rewrite V. lra.
Qed.
Lemma lbeta_int v s t x y : (1 <= x)%Z -> (1 <= y)%Z -> (x + y <= 2 ^ 53)%Z -> in_range s x -> in_range t y -> in_range (arith s t) (x + y) ->
  gcem_lbeta v (AInt s x) (AInt t y) = lbeta v (ofZ F64 x) (ofZ F64 y).
Proof.
  intros X Y S Ix Iy Is. assert (Jx : in_range (arith s t) x) by (clear - X Y Is; unfold in_range in *; assert (imin (arith s t) <= 0)%Z by (destruct (arith s t); discriminate); lia). assert (Jy : in_range (arith s t) y) by (clear - X Y Is; unfold in_range in *; assert (imin (arith s t) <= 0)%Z by (destruct (arith s t); discriminate); lia).
  unfold gcem_lbeta, lbeta, gcem_lgamma, lift1. cbn [ret_fmt ret_val]. destruct (lgamma_check v (ofZ F64 x)); cbn [bind]; auto. destruct (lgamma_check v (ofZ F64 y)); cbn [bind]; auto.
  unfold arg_add. rewrite !icast_id by auto. unfold iadd. rewrite iarith_ok by auto. cbn [bind ret_fmt ret_val]. rewrite ofZ_add by auto. destruct (lgamma_check v (ofZ F64 (x + y))); cbn [bind]; auto. cbn [ret_fmt cr_fmt fmt_max]. rewrite !conv_id. reflexivity.
Qed.
Lemma Beta_int x y : (1 <= x)%Z -> (1 <= y)%Z -> Beta (IZR x) (IZR y) = IZR (zfact (x - 1)) * IZR (zfact (y - 1)) / IZR (zfact (x + y - 1)).
Proof.
  intros X Y. unfold Beta. rewrite <- !Gamma_zfact by lia. rewrite !minus_IZR, plus_IZR. replace (IZR x - 1 + 1) with (IZR x) by ring. replace (IZR y - 1 + 1) with (IZR y) by ring. replace (IZR x + IZR y - 1 + 1) with (IZR x + IZR y) by ring. reflexivity.
Qed.
Lemma api_beta_int : forall v s t x y, (1 <= x)%Z -> (1 <= y)%Z -> (x + y <= 170)%Z -> in_range s x -> in_range t y -> in_range (arith s t) (x + y) ->
  exists w : flt F64, gcem_beta v (AInt s x) (AInt t y) = Ok w /\ finite w = true /\
    rel_err (B2R w) (IZR (zfact (x - 1)) * IZR (zfact (y - 1)) / IZR (zfact (x + y - 1))) (40 * (IZR (x + y) * ln (IZR (x + y) + 5) + 8) * bpow radix2 (-53)).
Proof.
  intros v s t x y X Y S Ix Iy Is. destruct (ofZ_exact F64 x) as (Vx & Fx & _). cbn [prec]; lia. destruct (ofZ_exact F64 y) as (Vy & Fy & _). cbn [prec]; lia.
  assert (X' := X). assert (Y' := Y). apply IZR_le in X'. apply IZR_le in Y'. assert (S' := S). apply IZR_le in S'. rewrite plus_IZR in * .
  destruct (beta_acc v (ofZ F64 x) (ofZ F64 y) Fx Fy) as (w & E & F & R); rewrite ?Vx, ?Vy; try lra. { unfold gmax. lra. } rewrite Vx, Vy in R.
  exists w. split. { unfold gcem_beta. rewrite lbeta_int by (auto; lia). exact E. } split; auto. rewrite <- Beta_int by auto. unfold rel_err in * . apply Rle_trans with (1 := R). apply Rmult_le_compat_r. apply Rabs_pos. change (uf F64) with (/ 9007199254740992). change (bpow radix2 (-53)) with (/ 9007199254740992).
  assert (P : (IZR x + IZR y) * (19 / 10) <= (IZR x + IZR y) * ln (IZR x + IZR y + 5)). { apply Rmult_le_compat_l. lra. apply Rle_trans with (ln 7). interval. apply ln_le; lra. } lra.
Qed.
Lemma api_lbeta_ub : forall v x y, in_range I32 x -> in_range I32 y -> (1 <= x)%Z -> (1 <= y)%Z -> (x + y > imax I32)%Z ->
  gcem_lbeta v (AInt I32 x) (AInt I32 y) = Ub UbOverflow /\ gcem_beta v (AInt I32 x) (AInt I32 y) = Ub UbOverflow.
Proof.
  intros v x y Ix Iy X Y S. assert (E : gcem_lbeta v (AInt I32 x) (AInt I32 y) = Ub UbOverflow).
  { assert (H : forall z, in_range I32 z -> (1 <= z)%Z -> exists w, lgamma_check v (ofZ F64 z) = Ok w).
    { intros z I Z. destruct (ofZ_exact F64 z) as (V & F & _). unfold in_range in I; cbn in *; lia. destruct (api_lgamma v F64 (ofZ F64 z) F) as (w & E & _). rewrite V. assert (J : (z <= 2147483647)%Z) by (unfold in_range in I; cbn in I; lia). apply IZR_le in Z, J. change (bpow radix2 55) with 36028797018963968. lra. exists w. exact E. }
    destruct (H x Ix X) as (w1 & E1). destruct (H y Iy Y) as (w2 & E2). unfold gcem_lbeta, gcem_lgamma, lift1. cbn [ret_fmt ret_val]. rewrite E1, E2. cbn [bind]. unfold arg_add. change (arith I32 I32) with I32. rewrite !icast_id by auto. unfold iadd, iarith. cbn [isigned]. replace (in_rangeb I32 (x + y)) with false. reflexivity. symmetry. apply not_true_is_false. rewrite in_rangeb_spec. unfold in_range. lia. }
  split; auto. unfold gcem_beta. rewrite E. reflexivity.
Qed.

(** ** log_binomial_coef *)
Lemma lbc_same v f (a b : flt f) : rmap (AFlt _) (gcem_log_binomial_coef v (AFlt f a) (AFlt f b)) = rmap (AFlt f) (log_binomial_coef_compute v a b).
Proof. assert (E : fmt_max f f = f) by (destruct f; reflexivity). unfold gcem_log_binomial_coef, lift2. cbn [cr_fmt to_fmt]. rewrite E, !conv_id. reflexivity. Qed.
Lemma api_lbc : forall v f (n k : flt f) N K c, has_val n (IZR N) -> has_val k (IZR K) -> (0 <= K <= N)%Z -> (N < 2 ^ Z.min (prec f) 54)%Z -> is_choose N K c ->
  exists w : flt f, rmap (AFlt _) (gcem_log_binomial_coef v (AFlt f n) (AFlt f k)) = Ok (AFlt f w) /\ finite w = true /\
    abs_err (B2R w) (ln (IZR c)) ((32 * ((IZR N + 2) * ln (IZR N + 6)) + 170) * bpow radix2 (- prec f) + (2 * IZR N + 12) * bpow radix2 (-54)).
Proof.
  intros v f n k N K c Vn Vk HK HN C. assert (H1 : (N < 2 ^ prec f)%Z) by (destruct f; cbn in *; lia). assert (H2 : (N <= 18014398509481984)%Z) by (destruct f; cbn in *; lia). apply IZR_le in H2.
  destruct (lbc_acc v n k N K Vn Vk HK H1 H2) as (w & E & F & R). exists w. split. rewrite lbc_same, E. reflexivity. split; auto. rewrite (ln_choose N K c HK C) in R. exact R.
Qed.
Lemma api_lbc_int : forall v s t N K c, in_range s N -> in_range t K -> (0 <= K <= N)%Z -> (N < 2 ^ 53)%Z -> is_choose N K c ->
  exists w : flt F64, gcem_log_binomial_coef v (AInt s N) (AInt t K) = Ok w /\ finite w = true /\
    abs_err (B2R w) (ln (IZR c)) (34 * ((IZR N + 2) * ln (IZR N + 6) + 6) * bpow radix2 (-53)).
Proof.
  intros v s t N K c _ _ HK HN C. destruct (lbc_acc v (ofZ F64 N) (ofZ F64 K) N K) as (w & E & F & R); auto. apply ofZ_has_val. apply Z.leb_le. cbn [prec]. lia. apply ofZ_has_val. apply Z.leb_le. cbn [prec]. lia. { apply IZR_le. lia. }
  exists w. split. exact E. split; auto. rewrite (ln_choose N K c HK C) in R. apply Rle_trans with (1 := R). change (uf F64) with (/ 9007199254740992). change (bpow radix2 (-53)) with (/ 9007199254740992).
  assert (0 <= IZR N) by (apply IZR_le; lia). assert (P : (IZR N + 2) * (17 / 10) <= (IZR N + 2) * ln (IZR N + 6)). { apply Rmult_le_compat_l. lra. apply Rle_trans with (ln 6). interval. apply ln_le; lra. } lra.
Qed.

(** ** lmgamma *)
Lemma api_lmgamma : forall v f (a : flt f) p n, finite a = true -> (1 <= p <= 4096)%nat -> (p <= n)%nat -> INR p / 2 <= B2R a <= bpow radix2 22 ->
  exists w, gcem_lmgamma v n (AFlt f a) (Z.of_nat p) = Ok w /\ finite w = true /\
    abs_err (B2R w) (ln_mvgamma p (B2R a)) (INR p * ((17 + 4 * INR p) * (B2R a * ln (B2R a + 5) + 4) * bpow radix2 (- prec f) + (B2R a + 3) * bpow radix2 (-54))).
Proof.
  intros v f a p n F HP Hn HA. change (bpow radix2 22) with 4194304 in HA. assert (P1 : 1 <= INR p). { change 1 with (INR 1). apply le_INR. lia. }
  destruct (lmgamma_acc v (f := f) (B2R a) p ltac:(lra) HP p (Nat.le_refl p) a n F ltac:(lra) ltac:(lia)) as (w & E & Fw & R). exists w. split. exact E. split; auto. apply Rle_trans with (1 := R). apply Rmult_le_compat_l. lra. apply Rplus_le_compat. 2: apply Rle_refl. apply Rmult_le_compat_r. apply bpow_ge_0.
  assert (L : 0 <= ln (B2R a + 5)) by (rewrite <- ln_1; apply ln_le; lra). assert (M : 0 <= B2R a * ln (B2R a + 5)) by (apply Rmult_le_pos; lra). assert (0 <= INR p * (B2R a * ln (B2R a + 5))) by (apply Rmult_le_pos; lra). lra.
Qed.
Lemma lbc_sym v {f} (n k d : flt f) N K : has_val n (IZR N) -> has_val k (IZR K) -> has_val d (IZR (N - K)) -> (0 <= K <= N)%Z -> (N < 2 ^ Z.min (prec f) 54)%Z ->
  log_binomial_coef_compute v n d = log_binomial_coef_compute v n k.
Proof.
  intros Vn Vk Vd HK HN. assert (H1 : (N < 2 ^ prec f)%Z) by (destruct f; cbn in *; lia). assert (H2 : (N <= 18014398509481984)%Z) by (destruct f; cbn in *; lia). apply IZR_le in H2.
  assert (Z1 : forall (x y : flt f) r, has_val x r -> has_val y r -> r <> 0 -> x = y). { intros x y r (F & V) (F' & V') NZ. apply flt_inj_nz; auto. congruence. rewrite V. auto. }
  assert (K0 : 0 <= IZR K) by (apply IZR_le; lia). assert (D0 : 0 <= IZR (N - K)) by (apply IZR_le; lia).
  assert (S1 := subk n k N K Vn Vk HK H1 H2). assert (S2 := subk n d N (N - K) Vn Vd ltac:(lia) H1 H2). replace (N - (N - K))%Z with K in S2 by lia.
  assert (E1 : d +. ofZ f 1 = n -. k +. ofZ f 1). { apply Z1 with (IZR (N - K) + 1). apply (add1 N H1 H2); auto; lia. apply (add1 N H1 H2); auto; lia. lra. }
  assert (E2 : n -. d +. ofZ f 1 = k +. ofZ f 1). { apply Z1 with (IZR K + 1). apply (add1 N H1 H2); auto. apply (add1 N H1 H2); auto. lra. }
  unfold log_binomial_coef_compute. rewrite E1, E2.
  assert (G : forall (x : flt f) z, has_val x (IZR z) -> (0 <= z <= N)%Z -> exists w, lgamma_check v (x +. ofZ f 1) = Ok w).
  { intros x z Vx Hz. destruct (add1 N H1 H2 x z Vx Hz) as (F & V). assert (0 <= IZR z <= IZR N) by (split; apply IZR_le; lia). destruct (api_lgamma v f (x +. ofZ f 1) F) as (w & E & _). change (bpow radix2 55) with 36028797018963968. lra. exists w. exact E. }
  destruct (G n N Vn ltac:(lia)) as (a & Ea). destruct (G k K Vk HK) as (b & Eb). destruct (G (n -. k) (N - K)%Z S1 ltac:(lia)) as (c & Ec). rewrite Ea, Eb, Ec. cbn [bind]. rewrite (fadd_comm b c). reflexivity.
Qed.
Lemma api_lbc_sym : forall v s t N K, (0 <= K <= N)%Z -> (N < 2 ^ 53)%Z ->
  gcem_log_binomial_coef v (AInt s N) (AInt t (N - K)) = gcem_log_binomial_coef v (AInt s N) (AInt t K).
Proof. intros v s t N K HK HN. apply (lbc_sym v (ofZ F64 N) (ofZ F64 K) (ofZ F64 (N - K)) N K); auto; apply ofZ_has_val; apply Z.leb_le; cbn [prec]; lia. Qed.
Lemma api_lbc_sym_flt : forall v f (n k d : flt f) N K, has_val n (IZR N) -> has_val k (IZR K) -> has_val d (IZR (N - K)) -> (0 <= K <= N)%Z -> (N < 2 ^ Z.min (prec f) 54)%Z ->
  rmap (AFlt _) (gcem_log_binomial_coef v (AFlt f n) (AFlt f d)) = rmap (AFlt _) (gcem_log_binomial_coef v (AFlt f n) (AFlt f k)).
Proof. intros v f n k d N K A B C D E. rewrite !lbc_same. rewrite (lbc_sym v n k d N K); auto. Qed.
