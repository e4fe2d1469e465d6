(** * Accuracy of tgamma at negative arguments *)
From Verif Require Import Base ModelBasic ModelInt ModelElem ModelSpecial ModelApi FltLemmas ConvLemmas IntProofs BasicProofs ScaleProofs TotalProofs ExpTotal.
From Coq Require Import Lra Psatz.
From Flocq Require Import Sterbenz.
From Coquelicot Require Import Coquelicot.
From Interval Require Import Tactic.
From Verif Require Import Spec SpecGamma SpecInc GammaInt GammaReal.
From Verif Require Import RangeProofs PF FPErr CFBound ExpAcc MiscProofs SinAcc TanhAcc SqrtSimp LogAcc LogApi Log1pAcc InvTrig PowReal ErfAcc GammaRnd GammaAcc TgammaAcc GammaApi.
From Verif Require Import Base ModelBasic ModelInt ModelElem ModelSpecial ModelApi FltLemmas.
Open Scope R_scope.

(** ** Arguments: x + 1 is exact up to -1/2, the integer test *)
Section A.
Context (v : cxx) {f : fmt}.
Notation u := (uf f).
Notation fm := (bpow radix2 (2 - emax f)).
Let u0 : 0 < u := uf_pos f.
Let u1 : u <= / 16777216 := uf_le f.
Lemma add_one (x : flt f) : finite x = true -> -2000 <= B2R x <= 0 -> finite (x +. ofZ f 1) = true /\ B2R (x +. ofZ f 1) = rnd f (B2R x + 1).
Proof.
  intros F X. destruct (one_val (f := f)) as (V1 & F1). destruct (op_add x (ofZ f 1) F F1) as (A & B). rewrite V1. apply Rabs_le. lra. rewrite V1 in B. auto.
Qed.
Lemma add_exact (x : flt f) : finite x = true -> -2000 <= B2R x <= - / 2 -> B2R (x +. ofZ f 1) = B2R x + 1.
Proof.
  intros F X. destruct (add_one x F ltac:(lra)) as (_ & V). rewrite V. apply rnd_id.
  destruct (Rle_or_lt (-1) (B2R x)) as [L|L].
  - destruct (one_val (f := f)) as (V1 & F1). replace (B2R x + 1) with (B2R (ofZ f 1) - B2R (Bopp x)) by (rewrite V1, B2R_Bopp; ring). apply sterbenz; try apply fmt_format; auto with typeclass_instances. rewrite V1, B2R_Bopp. lra.
  - assert (G := fmt_format x). set (e := cexp radix2 (fexpf f) (B2R x)). assert (E : B2R x = F2R (Float radix2 (Ztrunc (scaled_mantissa radix2 (fexpf f) (B2R x))) e)) by exact G.
    assert (HE : (e <= 0)%Z). { unfold e, cexp. assert (M : (mag radix2 (B2R x) <= 11)%Z). { apply mag_le_bpow. lra. rewrite Rabs_left by lra. change (bpow radix2 11) with 2048. lra. } rewrite fexpf_FLT. unfold FLT_exp, emin. set (z := mag_val radix2 (B2R x) (mag radix2 (B2R x))) in * . clearbody z. destruct f; cbn [prec emax]; lia. }
    set (m := Ztrunc (scaled_mantissa radix2 (fexpf f) (B2R x))) in * .
    assert (E2 : B2R x + 1 = F2R (Float radix2 (m + 2 ^ (- e)) e)). { rewrite E. unfold F2R. cbn [Fnum Fexp]. rewrite plus_IZR, Rmult_plus_distr_r. f_equal. change 2%Z with (radix_val radix2). rewrite IZR_Zpower by lia. rewrite <- bpow_plus. replace (- e + e)%Z with 0%Z by ring. reflexivity. }
    rewrite E2. apply generic_format_F2R. intros NZ. rewrite <- E2. unfold e, cexp. apply fexpf_mono. apply mag_le_abs. rewrite E2. apply F2R_neq_0. exact NZ. rewrite !Rabs_left1; lra.
Qed.
Lemma whole_neg (x : flt f) N : finite x = true -> fm <= Rabs (B2R x) -> (1 <= N <= 2000)%Z -> - IZR N < B2R x < - IZR N + 1 -> 4096 * u <= B2R x + IZR N ->
  exists w, find_whole x = Ok w /\ (ModelBasic.abs (x -. ofZ f w) <. fmin f) = false.
Proof.
  intros Fx X0 HN X H. destruct (fmin_spec f) as (Vm & Fm). assert (m1 := fm_one f).
  assert (NR : 1 <= IZR N <= 2000) by (split; apply IZR_le; lia).
  assert (ZN : zero_or_normal x) by (split; auto).
  destruct (BasicProofs.floor_ok x ZN) as (w & n & E & (Fw & Vw) & Fl). unfold is_floor in Fl.
  assert (EN : n = (- N)%Z). { assert (n < - N + 1)%Z by (apply lt_IZR; rewrite plus_IZR, opp_IZR; lra). assert (- N < n + 1)%Z by (apply lt_IZR; rewrite plus_IZR, opp_IZR; lra). lia. } subst n. rewrite opp_IZR in Vw.
  unfold find_whole. rewrite E. cbn [bind].
  assert (Tr : forall (y : flt f) k, has_val y (IZR k) -> in_range I64 k -> fcast I64 y = Ok k).
  { intros y k (Fy & Vy) Rk. rewrite fcast_ok, Vy, Ztrunc_IZR; auto. rewrite Vy, Ztrunc_IZR. auto. }
  assert (FG : fm <= 4096 * u). { apply Rle_trans with u. 2: lra. apply bpow_le. destruct f; discriminate. }
  assert (K : forall k, (-2001 <= k <= 0)%Z -> 4096 * u <= B2R x - IZR k <= 2 -> (ModelBasic.abs (x -. ofZ f k) <. fmin f) = false).
  { intros k Hk HH. destruct (ofZ_small f k ltac:(destruct f; cbn; lia)) as (Vk & Fk & _). destruct (op_sub x (ofZ f k) Fx Fk) as (Fs & Vs). { rewrite Vk. apply Rabs_le. lra. }
    apply flt_false; auto. rewrite abs_finite; auto. rewrite abs_B2R, Vs, Vk, rnd_abs, Vm. apply rnd_ge_fmt. rewrite <- Vm. apply fmt_format. rewrite Rabs_pos_eq; lra. }
  destruct (half f <=. ModelBasic.abs (x -. w)) eqn:HC.
  - destruct (sgn_spec x Fx) as [(Hs & ->)|[(Hs & ->)|(Hs & ->)]]; try lra.
    rewrite (Tr (w +. ofZ f (-1)) (- N + -1)%Z).
    + exists (- N + -1)%Z. split; auto. apply K. lia. rewrite plus_IZR, opp_IZR. lra.
    + apply fadd_int. split; auto. rewrite opp_IZR. auto. apply BasicProofs.ofZ_has_val; destruct f; reflexivity. pose proof (pow_prec f) as (PP & PL & _). assert (2 ^ 12 <= 2 ^ prec f)%Z by (apply Z.pow_le_mono_r; destruct f; cbn; lia). lia.
    + split; cbn; lia.
  - rewrite (Tr w (- N)%Z). exists (- N)%Z. split; auto. apply K. lia. rewrite opp_IZR. lra. split; auto. rewrite opp_IZR. auto. split; cbn; lia.
Qed.
Lemma tg_neg m (x : flt f) N : finite x = true -> fm <= Rabs (B2R x) -> (1 <= N <= 2000)%Z -> - IZR N < B2R x < - IZR N + 1 -> 4096 * u <= B2R x + IZR N ->
  tgamma_check v (S m) x = let* t := tgamma_check v m (x +. ofZ f 1) in Ok (t /. x).
Proof.
  intros Fx X0 HN X H. destruct (whole_neg x N Fx X0 HN X H) as (w & Ew & Hw). destruct (fmin_spec f) as (Vm & Fm). assert (m1 := fm_one f). destruct (one_val (f := f)) as (V1 & F1). destruct (ofZ_small f 0 ltac:(lia)) as (V0 & F0 & _).
  assert (NR : 1 <= IZR N <= 2000) by (split; apply IZR_le; lia).
  cbn [tgamma_check]. rewrite finite_not_nan by auto.
  destruct (op_sub x (ofZ f 1) Fx F1) as (Fs & Vs). { rewrite V1. apply Rabs_le. lra. }
  rewrite (flt_false (ModelBasic.abs (x -. ofZ f 1)) (fmin f)); auto.
  2:{ rewrite abs_finite; auto. }
  2:{ rewrite abs_B2R, Vs, V1, rnd_abs, Vm. apply rnd_ge_fmt. rewrite <- Vm. apply fmt_format. rewrite Rabs_left; lra. }
  rewrite (flt_false (ModelBasic.abs x) (fmin f)); auto. 2: rewrite abs_finite; auto. 2: rewrite abs_B2R, Vm; auto.
  rewrite (flt_true x (ofZ f 0)); auto. 2: rewrite V0; lra. rewrite Ew. cbn [bind]. rewrite Hw. reflexivity.
Qed.
End A.

(** ** Γ below zero on the reals *)
Lemma Gamma_unit y : 0 < y <= 1 -> / 3 <= Gamma y <= 3 / y.
Proof.
  intros Y. assert (G := lnGamma_unit y ltac:(lra)). rewrite (Rplus_comm 1) in G. assert (P := Gamma_pos y ltac:(lra)). assert (P1 := Gamma_pos (y + 1) ltac:(lra)). assert (S := Gamma_S y ltac:(lra)).
  assert (E1 : exp (-1) <= Gamma (y + 1)) by (rewrite <- (exp_ln (Gamma (y + 1))) by auto; apply Raux.exp_le; lra). assert (E2 : Gamma (y + 1) <= exp 1) by (rewrite <- (exp_ln (Gamma (y + 1))) by auto; apply Raux.exp_le; lra).
  assert (/ 3 <= exp (-1)) by interval. assert (exp 1 <= 3) by interval. rewrite S in * .
  split. { assert (y * Gamma y <= 1 * Gamma y) by (apply Rmult_le_compat_r; lra). lra. }
  apply (Rmult_le_reg_r y). lra. replace (3 / y * y) with 3 by (field; lra). lra.
Qed.
Lemma Gamma_half y : / 2 <= y <= 1 -> Gamma y <= 3.
Proof.
  intros Y. assert (P := Gamma_pos y ltac:(lra)). assert (S := Gamma_S y ltac:(lra)). assert (P1 := Gamma_pos (y + 1) ltac:(lra)). 
  destruct (lnGamma_incr 1 y ltac:(lra) ltac:(lra)) as (_ & G). rewrite Gamma_one, ln_1 in G. assert (B : y * ln (1 + y) - ln y <= ln 3) by interval with (i_bisect y, i_taylor y).
  assert (E : ln (Gamma (1 + y)) = ln y + ln (Gamma y)) by (rewrite (Rplus_comm 1), S; apply ln_mult; lra).
  rewrite <- (exp_ln (Gamma y)), <- (exp_ln 3) by lra. apply Raux.exp_le. lra.
Qed.
Lemma below_low n X : (1 <= n)%nat -> - INR n < X < - INR n + 1 -> / 3 / INR (fact n) <= Rabs (Gamma_below n X).
Proof.
  revert X. induction n as [|n IH]; intros X N H. lia. rewrite S_INR in H. cbn [Gamma_below]. assert (P := pos_INR n). rewrite Rabs_div by lra. rewrite (Rabs_left X) by lra.
  assert (F := INR_fact_lt_0 n). assert (F1 := INR_fact_lt_0 (S n)). assert (EF : INR (fact (S n)) = (INR n + 1) * INR (fact n)) by (cbn [fact]; rewrite <- S_INR, <- mult_INR; reflexivity).
  assert (L : / 3 / INR (fact n) <= Rabs (Gamma_below n (X + 1))).
  { destruct n as [|n]. { cbn [Gamma_below fact]. change (INR 1) with 1. cbn in H. destruct (Gamma_unit (X + 1) ltac:(lra)) as (L & _). rewrite Rabs_pos_eq; lra. }
    apply IH. lia. lra. }
  rewrite EF. replace (/ 3 / ((INR n + 1) * INR (fact n))) with (/ 3 / INR (fact n) * / (INR n + 1)) by (field; lra). unfold Rdiv at 2.
  apply Rmult_le_compat; auto. apply Rmult_le_pos. lra. left. apply Rinv_0_lt_compat; auto. left. apply Rinv_0_lt_compat; lra. apply Rinv_le_contravar; lra.
Qed.

(** ** The recursion *)
Section B.
Context (v : cxx) {f : fmt}.
Notation u := (uf f).
Notation fm := (bpow radix2 (2 - emax f)).
Let u0 : 0 < u := uf_pos f.
Let u1 : u <= / 16777216 := uf_le f.
Definition tb (y : R) : R := (206 + 9 * ln (/ y) + 3 / y) * u + / 140737488355328.
Lemma tb_le y : 4096 * u <= y <= 1 -> 0 <= tb y <= / 1000.
Proof.
  intros Y. assert (UG := uf_ge f). unfold tb. assert (IX : 0 < / y) by (apply Rinv_0_lt_compat; lra). assert (IX2 : u * / y <= / 4096). { replace (/ 4096) with (/ 4096 * (y * / y)) by (field; lra). rewrite <- Rmult_assoc. apply Rmult_le_compat_r; lra. }
  assert (LX : 0 <= ln (/ y) <= 38). { split. rewrite <- ln_1. apply ln_le. lra. rewrite <- Rinv_1. apply Rinv_le_contravar; lra.
    apply Rle_trans with (ln 18014398509481984). apply ln_le. lra. replace 18014398509481984 with (/ / 18014398509481984) by lra. apply Rinv_le_contravar; lra. interval. }
  assert (UL : u * ln (/ y) <= / 16777216 * 38) by (apply Rmult_le_compat; lra). assert (UL0 : 0 <= u * ln (/ y)) by (apply Rmult_le_pos; lra). assert (0 <= u * / y) by (apply Rmult_le_pos; lra). unfold Rdiv. split; lra.
Qed.
(** Γ of the last sum *)
Lemma tg_top k (x : flt f) : finite x = true -> -1 < B2R x <= 0 -> 4096 * u <= B2R x + 1 ->
  exists w, tgamma_check v (S k) (x +. ofZ f 1) = Ok w /\ finite w = true /\ rel_err (B2R w) (Gamma (B2R x + 1)) (tb (B2R x + 1)).
Proof.
  intros Fx X H. assert (UG := uf_ge f). destruct (add_one x Fx ltac:(lra)) as (Fy & Vy). set (y := x +. ofZ f 1) in * . set (Y := B2R x + 1) in * . assert (YE : Y = B2R x + 1) by reflexivity.
  assert (GR := gmax_rng f).
  destruct (Rle_or_lt (B2R x) (- / 2)) as [L|L].
  - assert (E : B2R y = Y) by (apply add_exact; auto; lra). destruct (Rlt_or_le Y (/ 2)) as [L2|L2].
    + destruct (tgamma_small v y Fy ltac:(rewrite E; lra) k ltac:(rewrite E; lra)) as (w & Ew & Fw & R1). exists w. split; auto. split; auto. rewrite E in R1. eapply rel_mono; [|exact R1]. unfold tb. lra.
    + destruct (tgamma_large v y Fy ltac:(rewrite E; lra) k ltac:(rewrite E; lra)) as (w & Ew & Fw & R1). exists w. split; auto. split; auto. rewrite E in R1. eapply rel_mono; [|exact R1].
      assert (EY : Y = / 2) by lra. rewrite EY. unfold tb. assert (0 <= ln (/ / 2)) by (rewrite <- ln_1; apply ln_le; lra). assert (ln (/ 2 + 5) <= 2) by interval. assert (0 <= u * ln (/ / 2)) by (apply Rmult_le_pos; lra). assert (u * ln (/ 2 + 5) <= u * 2) by (apply Rmult_le_compat_l; lra). lra.
  - assert (m1 := fm_one f). assert (Y1 : / 2 < Y <= 1) by lra. assert (E : Rabs (B2R y - Y) <= u). { rewrite Vy. destruct (rnd_u f Y) as (e & He & ->). rewrite Rabs_pos_eq by lra. apply Rle_trans with (bpow radix2 (-1)). apply bpow_le; destruct f; discriminate. change (bpow radix2 (-1)) with (/ 2). lra.
      replace (Y * (1 + e) - Y) with (Y * e) by ring. rewrite Rabs_mult, (Rabs_pos_eq Y) by lra. assert (0 <= Rabs e) by apply Rabs_pos. assert (Y * Rabs e <= 1 * u) by (apply Rmult_le_compat; lra). lra. }
    assert (YR : / 2 <= B2R y <= 1). { rewrite Vy. split. apply rnd_ge_fmt. rewrite <- (proj1 (half_spec f)). apply fmt_format. lra. apply rnd_le_fmt. apply (fmt_IZR f 1). destruct f; cbn; lia. lra. }
    destruct (tgamma_large v y Fy ltac:(lra) k ltac:(lra)) as (w & Ew & Fw & R1). exists w. split; auto. split; auto.
    assert (LG := lnGamma_near_small (B2R y) Y u (/ 2) ltac:(lra) ltac:(lra) ltac:(lra) E). replace (2 / / 2) with 4 in LG by field.
    assert (ln (B2R y + 5) <= 2). { apply Rle_trans with (ln 6). apply ln_le; lra. interval. } assert (0 <= ln (B2R y + 5)) by (rewrite <- ln_1; apply ln_le; lra). assert (B2R y * ln (B2R y + 5) <= 1 * 2) by (apply Rmult_le_compat; lra). assert (u * (B2R y * ln (B2R y + 5)) <= u * 2) by (apply Rmult_le_compat_l; lra). assert (0 <= u * (B2R y * ln (B2R y + 5))) by (apply Rmult_le_pos; [lra|apply Rmult_le_pos; lra]).
    rewrite <- (exp_ln (Gamma (B2R y))) in R1 by (apply Gamma_pos; lra). rewrite <- (exp_ln (Gamma Y)) by (apply Gamma_pos; lra).
    eapply rel_mono; [|apply (exp_pert _ _ _ _ _ R1 LG)]; try lra.
    unfold tb. assert (0 <= ln (/ Y)). { rewrite <- ln_1. apply ln_le. lra. rewrite <- Rinv_1. apply Rinv_le_contravar; lra. } assert (0 <= u * ln (/ Y)) by (apply Rmult_le_pos; lra). assert (1 <= / Y). { rewrite <- Rinv_1. apply Rinv_le_contravar; lra. } assert (0 <= u * / Y) by (apply Rmult_le_pos; lra). unfold Rdiv. lra.
Qed.
(** One division *)
Lemma div_step (t x : flt f) G c : finite t = true -> rel_err (B2R t) G c -> 0 <= c <= / 20 -> B2R x <> 0 -> fm * 2 <= Rabs (G / B2R x) -> Rabs (G / B2R x) <= bpow radix2 (emax f - 2) * 3 ->
  finite (t /. x) = true /\ rel_err (B2R (t /. x)) (G / B2R x) (c + 11 / 10 * u).
Proof.
  intros Ft Rt C X0 Hl Hu. assert (fm0 := bpow_gt_0 radix2 (2 - emax f)). unfold rel_err in * .
  assert (Q : Rabs (B2R t / B2R x - G / B2R x) <= c * Rabs (G / B2R x)). { replace (B2R t / B2R x - G / B2R x) with ((B2R t - G) / B2R x) by (field; auto). rewrite !Rabs_div by auto. unfold Rdiv. rewrite <- Rmult_assoc. apply Rmult_le_compat_r. left. apply Rinv_0_lt_compat. apply Rabs_pos_lt; auto. exact Rt. }
  set (q := B2R t / B2R x) in * . set (g := G / B2R x) in * . assert (g0 : 0 < Rabs g) by lra.
  assert (cg : c * Rabs g <= / 20 * Rabs g) by (apply Rmult_le_compat_r; lra).
  assert (QU : Rabs q <= 21 / 20 * Rabs g). { replace q with (g + (q - g)) by ring. eapply Rle_trans. apply Rabs_triang. lra. }
  assert (QL : 19 / 20 * Rabs g <= Rabs q). { assert (T := Rabs_triang q (g - q)). replace (q + (g - q)) with g in T by ring. rewrite (Rabs_minus_sym g q) in T. lra. }
  destruct (rnd_u f q) as (e & He & Ee). lra.
  assert (R1 : Rabs (rnd f q) < bpow radix2 (emax f)).
  { rewrite Ee, Rabs_mult. assert (Rabs (1 + e) <= 1001 / 1000) by (apply Rabs_le_inv in He; apply Rabs_le; lra). apply Rle_lt_trans with (Rabs q * (1001 / 1000)). apply Rmult_le_compat_l; auto. apply Rabs_pos.
    replace (bpow radix2 (emax f)) with (4 * bpow radix2 (emax f - 2)). 2:{ change 4 with (bpow radix2 2). rewrite <- bpow_plus. f_equal. ring. } assert (0 < bpow radix2 (emax f - 2)) by apply bpow_gt_0. lra. }
  destruct (fdiv_spec t x Ft X0 R1) as (V & F). split; auto. rewrite V. fold q. rewrite Ee.
  replace (q * (1 + e) - g) with ((q - g) + q * e) by ring. eapply Rle_trans. apply Rabs_triang. rewrite Rabs_mult.
  assert (Rabs q * Rabs e <= (21 / 20 * Rabs g) * u) by (apply Rmult_le_compat; auto; apply Rabs_pos). assert (0 <= Rabs g * u) by (apply Rmult_le_pos; lra). lra.
Qed.
Lemma fact_top n : IZR (Z.of_nat n) <= gmax f - 1 -> fm * 2 <= / 3 / INR (fact n).
Proof.
  intros H. assert (GR := gmax_rng f). assert (F := INR_fact_lt_0 n). assert (FG := Gamma_fact n). rewrite <- INR_IZR_INZ in H. assert (P := pos_INR n).
  assert (L : ln (INR (fact n)) <= IZR (emax f - 9) * ln 2 - 21 / 10).
  { rewrite <- FG. destruct n as [|n]. { cbn. rewrite Rplus_0_l, Gamma_one, ln_1. assert (20 <= IZR (emax f - 9) * ln 2 - 21 / 10). { clear. destruct f; cbn [emax Z.sub Z.add Z.opp Z.pos_sub Pos.pred_double Pos.add Pos.succ]; interval. } lra. }
    eapply Rle_trans; [|apply lnGamma_top]. apply lnGamma_mono; rewrite S_INR in *; assert (P' := pos_INR n); lra. }
  assert (B : INR (fact n) <= bpow radix2 (emax f - 9)). { rewrite <- (exp_ln (INR (fact n))) by auto. rewrite bpow_exp. apply Raux.exp_le. change (IZR radix2) with 2. lra. }
  apply (Rmult_le_reg_r (INR (fact n))); auto. replace (/ 3 / INR (fact n) * INR (fact n)) with (/ 3) by (field; lra). apply Rle_trans with (fm * 2 * bpow radix2 (emax f - 9)). apply Rmult_le_compat_l; auto. assert (0 < fm) by apply bpow_gt_0. lra.
  replace (fm * 2 * bpow radix2 (emax f - 9)) with (2 * (fm * bpow radix2 (emax f - 9))) by ring. rewrite <- bpow_plus. replace (2 - emax f + (emax f - 9))%Z with (-7)%Z by ring. change (bpow radix2 (-7)) with (/ 128). lra.
Qed.
Lemma below_up n X : (1 <= n)%nat -> - INR n < X < - INR n + 1 -> fm <= Rabs X -> fm <= Rabs (X + INR n - 1) -> 4096 * u <= X + INR n -> Rabs (Gamma_below n X) <= bpow radix2 (emax f - 2) * 3.
Proof.
  revert X. induction n as [|n IH]; intros X N H A B C. lia. rewrite S_INR in * . cbn [Gamma_below]. assert (P := pos_INR n). assert (fm0 := bpow_gt_0 radix2 (2 - emax f)). rewrite Rabs_div by lra.
  assert (BM : bpow radix2 (emax f - 2) * fm = 1) by (rewrite <- bpow_plus; replace (emax f - 2 + (2 - emax f))%Z with 0%Z by ring; reflexivity). assert (b0 := bpow_gt_0 radix2 (emax f - 2)).
  destruct n as [|n].
  - cbn [Gamma_below]. cbn in H, B, C. replace (X + (0 + 1) - 1) with X in B by ring. replace (X + (0 + 1)) with (X + 1) in C by ring. assert (Q := Gamma_pos (X + 1) ltac:(lra)). rewrite (Rabs_pos_eq (Gamma _)) by lra. rewrite (Rabs_left X) in * by lra.
    apply (Rmult_le_reg_r (- X)). lra. replace (Gamma (X + 1) / - X * - X) with (Gamma (X + 1)) by (field; lra).
    destruct (Rle_or_lt X (- / 2)) as [L|L].
    + destruct (Gamma_unit (X + 1) ltac:(lra)) as (_ & GU). apply Rle_trans with (1 := GU). apply Rle_trans with (3 / (4096 * u)). unfold Rdiv. apply Rmult_le_compat_l. lra. apply Rinv_le_contravar; lra.
      apply Rle_trans with (bpow radix2 (emax f - 2) * 3 * / 2). 2: apply Rmult_le_compat_l; lra. assert (UB : 1 <= u * bpow radix2 (emax f - 2)) by (unfold uf; rewrite <- bpow_plus; apply (bpow_le radix2 0); destruct f; discriminate).
      apply (Rmult_le_reg_r (4096 * u)). lra. replace (3 / (4096 * u) * (4096 * u)) with 3 by (field; lra). lra.
    + assert (G3 := Gamma_half (X + 1) ltac:(lra)). apply Rle_trans with (1 := G3). apply Rle_trans with (bpow radix2 (emax f - 2) * 3 * fm). lra. apply Rmult_le_compat_l; lra.
  - rewrite S_INR in * . assert (P' := pos_INR n). rewrite (Rabs_left X) in * by lra.
    assert (L : Rabs (Gamma_below (S n) (X + 1)) <= bpow radix2 (emax f - 2) * 3).
    { apply IH. lia. rewrite ?S_INR; lra. 2: replace (X + 1 + (INR n + 1) - 1) with (X + (INR n + 1 + 1) - 1) by ring; exact B. 2: lra.
      destruct (Rle_or_lt 1 (INR n)) as [Q|Q]. assert (m1 := fm_one f). rewrite Rabs_left; lra.
      assert (n = 0)%nat by (destruct n; auto; rewrite S_INR in Q; assert (Q2 := pos_INR n); lra). subst n. cbn in B |- * . replace (X + (0 + 1 + 1) - 1) with (X + 1) in B by ring. exact B. }
    apply (Rmult_le_reg_r (- X)). lra. replace (Rabs (Gamma_below (S n) (X + 1)) / - X * - X) with (Rabs (Gamma_below (S n) (X + 1))) by (field; lra). apply Rle_trans with (1 := L). rewrite <- (Rmult_1_r (_ * 3)) at 1. apply Rmult_le_compat_l; lra.
Qed.
Lemma tgamma_neg n k (x : flt f) : finite x = true -> (1 <= n)%nat -> INR n <= gmax f - 1 -> - INR n < B2R x < - INR n + 1 -> fm <= Rabs (B2R x) -> fm <= Rabs (B2R x + INR n - 1) -> 4096 * u <= B2R x + INR n ->
  exists w, tgamma_check v (n + S k) x = Ok w /\ finite w = true /\ rel_err (B2R w) (Gamma_below n (B2R x)) (tb (B2R x + INR n) + 11 / 10 * INR n * u).
Proof.
  revert x. induction n as [|n IH]; intros x Fx N1 NG X A B C. lia. assert (GR := gmax_rng f). assert (P := pos_INR n). assert (fm0 := bpow_gt_0 radix2 (2 - emax f)).
  assert (UB := below_up (S n) (B2R x) N1 X A B C). assert (LB := below_low (S n) (B2R x) N1 X). assert (FT := fact_top (S n) ltac:(rewrite <- INR_IZR_INZ; lra)).
  assert (TB := tb_le (B2R x + INR (S n)) ltac:(lra)).
  assert (NU : (INR n + 1) * u <= / 400000). { rewrite S_INR in NG. apply Rle_trans with (gmax f * u). apply Rmult_le_compat_r; lra. clear. destruct f; unfold uf; cbn [gmax]; [change (bpow radix2 (- prec F32)) with (/ 16777216)|change (bpow radix2 (- prec F64)) with (/ 9007199254740992)|change (bpow radix2 (- prec F80)) with GammaCoef.U80]; try unfold GammaCoef.U80; lra. }
  change (S n + S k)%nat with (S (n + S k)). rewrite (tg_neg v (n + S k) x (Z.of_nat (S n)) Fx A). 2:{ split. lia. apply le_IZR. rewrite <- INR_IZR_INZ. lra. } 2,3: rewrite <- INR_IZR_INZ; auto.
  cbn [Gamma_below] in * . rewrite S_INR in * .
  assert (ST : exists t, tgamma_check v (n + S k) (x +. ofZ f 1) = Ok t /\ finite t = true /\ rel_err (B2R t) (Gamma_below n (B2R x + 1)) (tb (B2R x + (INR n + 1)) + 11 / 10 * INR n * u)).
  { destruct n as [|n].
    - cbn [plus Gamma_below]. cbn in X, C, B |- * . destruct (tg_top k x Fx ltac:(lra) ltac:(lra)) as (t & Et & Ft & Rt). exists t. split. exact Et. split. exact Ft. eapply rel_mono; [|exact Rt]. replace (B2R x + (0 + 1)) with (B2R x + 1) by ring. lra.
    - rewrite S_INR in * . assert (P' := pos_INR n). assert (E : B2R (x +. ofZ f 1) = B2R x + 1) by (apply add_exact; auto; lra). destruct (add_one x Fx ltac:(lra)) as (Fy & _).
      destruct (IH (x +. ofZ f 1) Fy) as (t & Et & Ft & Rt); rewrite ?S_INR, ?E; try lia; try lra.
      + destruct (Rle_or_lt 1 (INR n)) as [Q|Q]. assert (m1 := fm_one f). rewrite Rabs_left; lra.
        assert (n = 0)%nat by (destruct n; auto; rewrite S_INR in Q; assert (Q2 := pos_INR n); lra). subst n. cbn in B |- * . replace (B2R x + (0 + 1 + 1) - 1) with (B2R x + 1) in B by ring. exact B.
      + replace (B2R x + 1 + (INR n + 1) - 1) with (B2R x + (INR n + 1 + 1) - 1) by ring. exact B.
      + exists t. split. exact Et. split. exact Ft. rewrite E in Rt. rewrite ?S_INR in Rt. replace (B2R x + 1 + (INR n + 1)) with (B2R x + (INR n + 1 + 1)) in Rt by ring. exact Rt. }
  destruct ST as (t & Et & Ft & Rt). rewrite Et. cbn [bind]. exists (t /. x). split; auto.
  assert (0 <= INR n * u) by (apply Rmult_le_pos; lra).
  destruct (div_step t x _ _ Ft Rt) as (F & RR). split; lra. lra. lra. exact UB. split; auto. eapply rel_mono; [|exact RR]. lra.
Qed.
End B.

(** ** The API *)
Lemma grid f (x : flt f) : 1 <= Rabs (B2R x) -> exists m : Z, B2R x = IZR m * bpow radix2 (1 - prec f).
Proof.
  intros H. assert (G : generic_format radix2 (fexpf f) (B2R x)) by apply fmt_format. unfold generic_format, F2R in G. cbn [Fnum Fexp] in G.
  set (e := cexp radix2 (fexpf f) (B2R x)) in * . set (m := Ztrunc (scaled_mantissa radix2 (fexpf f) (B2R x))) in * .
  assert (E : (1 - prec f <= e)%Z).
  { unfold e, cexp, fexpf, FLT_exp. assert (1 <= mag radix2 (B2R x))%Z. { apply mag_ge_bpow. exact H. } lia. }
  exists (m * 2 ^ (e - (1 - prec f)))%Z. rewrite G at 1. rewrite mult_IZR. rewrite (IZR_Zpower radix2) by lia. rewrite Rmult_assoc, <- bpow_plus. f_equal. f_equal. ring.
Qed.
Lemma api_tgamma_neg : forall v k n f (x : flt f), finite x = true -> (1 <= n)%nat -> INR n <= match f with F32 => 31 | F64 => 169 | F80 => 1753 end ->
  bpow radix2 (2 - emax f) <= Rabs (B2R x) -> 4096 * bpow radix2 (- prec f) <= B2R x + INR n < 1 ->
  exists w, gcem_tgamma v (n + S k) (AFlt f x) = Ok w /\ finite w = true /\
    rel_err (B2R w) (Gamma_below n (B2R x)) ((206 + 9 * ln (/ (B2R x + INR n)) + 3 / (B2R x + INR n) + 11 / 10 * INR n) * bpow radix2 (- prec f) + bpow radix2 (-47)).
Proof.
  intros v k n f x Fx N1 NG A X. fold (uf f) in * . assert (u0 := uf_pos f). assert (N1' : 1 <= INR n) by (apply (le_INR 1); lia).
  assert (B : bpow radix2 (2 - emax f) <= Rabs (B2R x + INR n - 1)).
  { destruct (Nat.eq_dec n 1) as [->|NE]. cbn. replace (B2R x + 1 - 1) with (B2R x) by ring. exact A.
    assert (N2 : 2 <= INR n) by (apply (le_INR 2); lia). destruct (grid f x) as (m & E). rewrite Rabs_left; lra.
    assert (E2 : B2R x + INR n - 1 = IZR (m + (Z.of_nat n - 1) * 2 ^ (prec f - 1)) * bpow radix2 (1 - prec f)).
    { rewrite plus_IZR, mult_IZR, minus_IZR, <- INR_IZR_INZ, E, (IZR_Zpower radix2) by (destruct f; discriminate). rewrite Rmult_plus_distr_r, Rmult_assoc, <- bpow_plus. replace (prec f - 1 + (1 - prec f))%Z with 0%Z by ring. cbn [bpow]. ring. }
    set (q := (m + (Z.of_nat n - 1) * 2 ^ (prec f - 1))%Z) in * . assert (q <> 0)%Z. { intros Q. rewrite Q in E2. lra. }
    rewrite E2, Rabs_mult, (Rabs_pos_eq (bpow _ _)) by apply bpow_ge_0. apply Rle_trans with (1 * bpow radix2 (1 - prec f)). rewrite Rmult_1_l. apply bpow_le. destruct f; discriminate.
    apply Rmult_le_compat_r. apply bpow_ge_0. rewrite <- abs_IZR. apply IZR_le. lia. }
  destruct (tgamma_neg v n k x Fx N1) as (w & Ew & Fw & Rw); try lra; try exact B; try exact A.
  { destruct f; cbn [gmax]; lra. }
  exists w. split. exact Ew. split. exact Fw. eapply rel_mono; [|exact Rw]. unfold tb. change (bpow radix2 (-47)) with (/ 140737488355328). lra.
Qed.
