(** * Accuracy of log, log2, log10 and log1p on the public functions *)
From Verif Require Import Base ModelBasic ModelInt ModelElem ModelApi FltLemmas Spec IntProofs BasicProofs ConvLemmas SymLemmas ScaleProofs TotalProofs ExpAcc MiscProofs.
From Coq Require Import Lra Psatz.
From Coquelicot Require Import Coquelicot.
From Verif Require Import FPErr CFBound CFTrunc CFAcc TanAcc SinAcc TanhAcc SqrtAcc SqrtSimp AtanAcc LogAcc LogApi.
From Interval Require Import Tactic.
Open Scope R_scope.

(** ** log *)
Lemma api_log v f (x : flt f) : finite x = true -> / 2 <= B2R x ->
  exists w, gcem_log v (AFlt f x) = Ok w /\ finite w = true /\ rel_err (B2R w) (ln (B2R x)) (56 / 10 * bpow radix2 (- prec f)).
Proof. intros Fx X. exact (log_check_ge v x Fx X). Qed.
Lemma api_log_small v f (x : flt f) k : finite x = true -> bpow radix2 (2 - emax f) <= B2R x -> B2R x < / 2 -> (1 <= k)%nat -> 1 + / 100000 <= B2R x * 10 ^ k <= 10 - / 10000 ->
  exists w, gcem_log v (AFlt f x) = Ok w /\ finite w = true /\ rel_err (B2R w) (ln (B2R x)) (22 * bpow radix2 (- prec f)) /\ ((2 <= k)%nat -> rel_err (B2R w) (ln (B2R x)) (12 * bpow radix2 (- prec f))).
Proof.
  intros Fx X0 X1 K H. destruct (log_small_gen v x k Fx (conj X0 X1) K H) as (w & E & F & R). exists w. split; auto. split; auto. assert (u0 := uf_pos f). unfold uf in * . destruct (Nat.eq_dec k 1) as [E1|E1].
  - split; auto. intros. lia.
  - split; auto. eapply rel_mono; [|exact R]. lra.
Qed.
Lemma ofZ_rel z : (1 <= z < 2 ^ 64)%Z -> finite (ofZ F64 z) = true /\ 1 <= B2R (ofZ F64 z) /\ Rabs (ln (B2R (ofZ F64 z)) - ln (IZR z)) <= / 10 * uf F64 * ln (IZR z).
Proof.
  intros H. assert (u0 := uf_pos F64). assert (Z1 : 1 <= IZR z) by (apply (IZR_le 1); lia). assert (L0 := ln_ge0 _ Z1).
  destruct (Z.le_gt_cases z (2 ^ 53)) as [L|L].
  - destruct (ofZ_exact F64 z) as (V & F & _). { cbn. lia. } rewrite V. split; auto. split; auto. rewrite Rminus_eq_0, Rabs_R0. apply Rmult_le_pos; lra.
  - assert (ZU : IZR z <= 18446744073709551616) by (apply IZR_le; lia). destruct (ofZ_gen F64 z) as (V & F & _). { apply big_fin. apply Rabs_le. lra. }
    rewrite V. split; auto. destruct (rnd_u F64 (IZR z)) as (e & He & E). { rewrite Rabs_pos_eq by lra. apply Rle_trans with 1. apply fm_one. lra. }
    split. { apply rnd_ge_fmt; auto. apply (fmt_IZR F64 1). cbn; lia. } rewrite E. assert (u1 := uf_le F64). change (bpow radix2 (-24)) with (/ 16777216) in u1. assert (LE := ln1p e ltac:(lra)). apply Rabs_le_inv in He. rewrite ln_mult by lra.
    replace (ln (IZR z) + ln (1 + e) - ln (IZR z)) with (ln (1 + e)) by ring. assert (Z2 : 9007199254740992 <= IZR z) by (apply IZR_le; lia). assert (L2 := ln_le_le 9007199254740992 (IZR z) ltac:(lra) Z2).
    assert (36 <= ln 9007199254740992) by interval. assert (uf F64 * 36 <= uf F64 * ln (IZR z)) by (apply Rmult_le_compat_l; lra). assert (Rabs e <= uf F64) by (apply Rabs_le; lra). lra.
Qed.
Lemma api_log_int v t z : in_range t z -> (1 <= z)%Z ->
  exists w, gcem_log v (AInt t z) = Ok w /\ finite w = true /\ rel_err (B2R w) (ln (IZR z)) (58 / 10 * bpow radix2 (-53)).
Proof.
  intros Hz Z1. assert (Z64 : (z < 2 ^ 64)%Z). { destruct t; destruct Hz as (_ & Hz); cbv [imax isigned ibits] in Hz; lia. }
  destruct (ofZ_rel z ltac:(lia)) as (F & X1 & L). assert (E0 : gcem_log v (AInt t z) = log_check v (ofZ F64 z)). { cbn [gcem_log]. replace (z =? 0)%Z with false by (symmetry; apply Z.eqb_neq; lia). destruct (Z.ltb_spec 1 z); auto. replace z with 1%Z by lia. symmetry. destruct v; apply (@ok_sf F64); vm_compute; reflexivity. }
  destruct (log_check_ge v (ofZ F64 z) F ltac:(lra)) as (w & E & Fw & HR). exists w. rewrite E0. split; auto. split; auto. cbn [ret_fmt]. unfold rel_err in * . change (bpow radix2 (-53)) with (uf F64).
  assert (u0 := uf_pos F64). assert (u1 := uf_le F64). change (bpow radix2 (-24)) with (/ 16777216) in u1. assert (L0 := ln_ge0 _ X1). assert (L1 := ln_ge0 (IZR z) ltac:(apply (IZR_le 1); lia)). rewrite (Rabs_pos_eq (ln (B2R _))) in HR by auto. rewrite (Rabs_pos_eq (ln (IZR z))) by auto.
  set (a := ln (B2R (ofZ F64 z))) in * . set (b := ln (IZR z)) in * . apply Rabs_le_inv in L. assert (T := Rabs_triang (B2R w - a) (a - b)). replace ((B2R w - a) + (a - b)) with (B2R w - b) in T by ring. assert (Rabs (a - b) <= / 10 * uf F64 * b) by (apply Rabs_le; lra).
  assert (ub : 0 <= uf F64 * b <= / 16777216 * b) by (split; [apply Rmult_le_pos; lra|apply Rmult_le_compat_r; lra]). assert (uf F64 * a <= uf F64 * (b * (1 + / 100000000))) by (apply Rmult_le_compat_l; lra). lra.
Qed.
(** ** log2 and log10 *)
Lemma div_const f (l : flt f) (c : flt F80) L : finite l = true -> Rabs (B2R l) <= 1000000 -> (B2R l = 0 \/ bpow radix2 (-90) <= Rabs (B2R l)) ->
  finite c = true -> Rabs (B2R c - L) <= / 18446744073709551616 * L -> / 2 <= L <= 5 ->
  finite (conv f (conv F80 l /. c)) = true /\ Rabs (B2R (conv f (conv F80 l /. c)) - B2R l / L) <= 201 / 100 * uf f * Rabs (B2R l / L).
Proof.
  intros Fl LU LL Fc Hc HL. assert (Hc' := Hc). apply Rabs_le_inv in Hc'. assert (u0 := uf_pos f). assert (u1 := uf_le f). change (bpow radix2 (-24)) with (/ 16777216) in u1.
  assert (W : wider f F80) by (destruct f; split; cbn; lia). destruct (conv_exact F80 l W Fl) as (V1 & F1 & _). set (r := B2R l) in * . set (q := r / L).
  assert (c0 : 0 < B2R c) by lra. set (d := L / B2R c - 1). assert (D : Rabs d <= 1001 / 1000 * / 18446744073709551616).
  { unfold d. replace (L / B2R c - 1) with (- (B2R c - L) / B2R c) by (field; lra). unfold Rdiv. rewrite Rabs_mult, Rabs_Ropp, (Rabs_pos_eq (/ _)) by (left; apply Rinv_0_lt_compat; lra). apply Rmult_le_reg_r with (B2R c); auto. rewrite Rmult_assoc, Rinv_l by lra. lra. }
  assert (E1 : r / B2R c = q * (1 + d)) by (unfold q, d; field; lra).
  assert (D' := D). apply Rabs_le_inv in D'.
  assert (QB : Rabs q <= 2000000 /\ Rabs r / 5 <= Rabs q). { unfold q, Rdiv. rewrite Rabs_mult, (Rabs_pos_eq (/ L)) by (left; apply Rinv_0_lt_compat; lra). assert (r0 := Rabs_pos r). assert (/ 5 <= / L <= 2). { split. apply Rinv_le; lra. replace 2 with (/ / 2) by field. apply Rinv_le; lra. } split. replace 2000000 with (1000000 * 2) by ring. apply Rmult_le_compat; lra. apply Rmult_le_compat_l; lra. }
  assert (QC : Rabs (r / B2R c) <= 3000000). { rewrite E1, Rabs_mult. apply Rle_trans with (2000000 * (15 / 10)). apply Rmult_le_compat; try apply Rabs_pos; try lra. apply Rabs_le; lra. lra. }
  destruct (op_div (conv F80 l) c F1) as (Fd & Vd). lra. { rewrite V1. lra. } rewrite V1 in Vd. set (dv := conv F80 l /. c) in * .
  assert (DV : exists e1, Rabs e1 <= / 18446744073709551616 /\ B2R dv = q * (1 + d) * (1 + e1)).
  { rewrite Vd, E1. destruct LL as [Z|Z]. exists 0. rewrite Rabs_R0. split. lra. unfold q. rewrite Z. unfold Rdiv. rewrite !Rmult_0_l, rnd_0. ring.
    destruct (rnd_u F80 (q * (1 + d))) as (e & He & E). { rewrite Rabs_mult, (Rabs_pos_eq (1 + d)) by lra. apply Rle_trans with (bpow radix2 (-94)). apply bpow_le; discriminate. change (bpow radix2 (-94)) with (bpow radix2 (-4 + -90)). rewrite bpow_plus. change (bpow radix2 (-4)) with (/ 16). assert (b := bpow_gt_0 radix2 (-90)).
      apply Rle_trans with ((bpow radix2 (-90) / 5) * (9 / 10)). lra. apply Rmult_le_compat; lra. }
    exists e. split; auto. }
  destruct DV as (e1 & He1 & DV). assert (He1' := He1). apply Rabs_le_inv in He1'.
  assert (T1 : Rabs ((1 + d) * (1 + e1) - 1) <= 2002 / 1000 * / 18446744073709551616). { replace ((1 + d) * (1 + e1) - 1) with (d + e1 + d * e1) by ring. eapply Rle_trans. apply Rabs_triang. rewrite Rabs_mult. assert (T := Rabs_triang d e1). assert (Rabs d * Rabs e1 <= Rabs d * / 1000000) by (apply Rmult_le_compat_l; [apply Rabs_pos|lra]). lra. }
  set (g := (1 + d) * (1 + e1) - 1) in * . assert (DV2 : B2R dv = q * (1 + g)) by (rewrite DV; unfold g; ring). assert (T1' := T1). apply Rabs_le_inv in T1'.
  assert (DB : Rabs (B2R dv) <= 4000000). { rewrite DV2, Rabs_mult. apply Rle_trans with (2000000 * 2). apply Rmult_le_compat; try apply Rabs_pos; try lra. apply Rabs_le; lra. lra. }
  destruct (conv_spec f dv Fd) as (Vw & Fw & _). { apply big_fin. lra. } split; auto. rewrite Vw.
  destruct f.
  3: { rewrite rnd_id by apply fmt_format. rewrite DV2. replace (q * (1 + g) - q) with (q * g) by ring. rewrite Rabs_mult, Rmult_comm. apply Rmult_le_compat_r. apply Rabs_pos. unfold uf. cbn. lra. }
  all: match goal with |- context[rnd ?f _] => assert (exists e2, Rabs e2 <= uf f /\ rnd f (B2R dv) = B2R dv * (1 + e2)) as (e2 & He2 & E2);
   [destruct LL as [Z|Z]; [exists 0; rewrite Rabs_R0; split; [lra|]; rewrite DV2; unfold q; rewrite Z; unfold Rdiv; rewrite !Rmult_0_l, rnd_0; ring|
     apply rnd_u; rewrite DV2, Rabs_mult, (Rabs_pos_eq (1 + g)) by lra; apply Rle_trans with (bpow radix2 (-94)); [apply bpow_le; discriminate|]; change (bpow radix2 (-94)) with (bpow radix2 (-4 + -90)); rewrite bpow_plus; change (bpow radix2 (-4)) with (/ 16); assert (b := bpow_gt_0 radix2 (-90));
      apply Rle_trans with ((bpow radix2 (-90) / 5) * (9 / 10)); [lra|apply Rmult_le_compat; lra]]|];
   rewrite E2, DV2; replace (q * (1 + g) * (1 + e2) - q) with (q * (g + e2 + g * e2)) by ring; rewrite Rabs_mult, Rmult_comm; apply Rmult_le_compat_r; [apply Rabs_pos|];
   eapply Rle_trans; [apply Rabs_triang|]; rewrite Rabs_mult; assert (T := Rabs_triang g e2); assert (Rabs g * Rabs e2 <= Rabs g * 1) by (apply Rmult_le_compat_l; [apply Rabs_pos|lra]); assert (/ 18446744073709551616 <= / 1000 * uf f) by (unfold uf; cbn; lra); lra end.
Qed.
(** A logarithm with relative error [c u] divided by a constant. *)
Lemma log_div_acc f (x l : flt f) (k : flt F80) L c : finite x = true -> bpow radix2 (2 - emax f) <= B2R x -> finite l = true -> 0 <= c <= 30 -> rel_err (B2R l) (ln (B2R x)) (c * uf f) ->
  finite k = true -> Rabs (B2R k - L) <= / 18446744073709551616 * L -> / 2 <= L <= 5 ->
  finite (conv f (conv F80 l /. k)) = true /\ rel_err (B2R (conv f (conv F80 l /. k))) (ln (B2R x) / L) ((c + 202 / 100) * uf f).
Proof.
  intros Fx X0 Fl Hc R Fk Hk HL. assert (u0 := uf_pos f). assert (u1 := uf_le f). change (bpow radix2 (-24)) with (/ 16777216) in u1. unfold rel_err in * . set (a := ln (B2R x)) in * .
  assert (x0 := bpow_gt_0 radix2 (2 - emax f)).
  assert (AU : Rabs a <= 20000). { unfold a. assert (H := B2R_lt_emax x). rewrite Rabs_pos_eq in H by lra. assert (A1 := ln_le_le (bpow radix2 (2 - emax f)) (B2R x) ltac:(lra) X0). assert (A2 := ln_le_le (B2R x) (bpow radix2 (emax f)) ltac:(lra) (Rlt_le _ _ H)). rewrite bpow_exp, ln_exp in A1, A2. change (IZR radix2) with 2 in A1, A2. assert (l2 := ln2_rng).
    assert (E : (emax f <= 16384)%Z) by (destruct f; cbn; lia). apply IZR_le in E. assert (0 <= IZR (emax f)) by (apply (IZR_le 0); destruct f; cbn; lia). rewrite minus_IZR in A1. assert (IZR (emax f) * ln 2 <= 16384 * 1) by (apply Rmult_le_compat; lra). apply Rabs_le. lra. }
  assert (cu : 0 <= c * uf f <= 30 * / 16777216) by (split; [apply Rmult_le_pos; lra|apply Rmult_le_compat; lra]).
  assert (LA : Rabs (B2R l) <= (1 + c * uf f) * Rabs a). { replace (B2R l) with ((B2R l - a) + a) by ring. eapply Rle_trans. apply Rabs_triang. lra. }
  assert (LB : (1 - c * uf f) * Rabs a <= Rabs (B2R l)). { assert (T := Rabs_triang_inv a (a - B2R l)). rewrite (Rabs_minus_sym a) in T. replace (a - (a - B2R l)) with (B2R l) in T by ring. lra. }
  destruct (div_const f l k L) as (F & D); auto.
  - apply Rle_trans with (1 := LA). apply Rle_trans with (2 * 20000). apply Rmult_le_compat; try apply Rabs_pos; lra. lra.
  - destruct (Req_dec (B2R x) 1) as [E|N]. left. assert (a = 0) by (unfold a; rewrite E; apply ln_1). rewrite H, Rabs_R0, Rmult_0_r in LA. destruct (Req_dec (B2R l) 0) as [?|N]; auto. apply Rabs_pos_lt in N. lra.
    right. apply Rle_trans with (2 := LB). assert (G : bpow radix2 (- prec f) / 2 <= Rabs a). 
    { assert (G : bpow radix2 (- prec f) <= Rabs (B2R x - 1) \/ B2R x < / 2). { destruct (Rle_or_lt (/ 2) (B2R x)) as [?|?]; auto. left. apply gap_one; auto. }
      fold (uf f) in * . destruct G as [G|G].
      - destruct (Rle_or_lt 1 (B2R x)) as [H|H].
        + rewrite Rabs_pos_eq in G by lra. rewrite Rabs_pos_eq by (apply ln_ge0; auto). unfold a. apply Rle_trans with (ln (1 + uf f)). { assert (Q := exp_ineq1_le (- (ln (1 + uf f)))). rewrite exp_Ropp, exp_ln in Q by lra. assert (uf f / 2 <= 1 - / (1 + uf f)). { apply Rmult_le_reg_r with (1 + uf f). lra. rewrite Rmult_minus_distr_r, Rinv_l by lra. assert (uf f * uf f <= / 16777216 * uf f) by (apply Rmult_le_compat_r; lra). lra. } lra. } apply ln_le_le; lra.
        + rewrite Rabs_left in G by lra. assert (Q := exp_ineq1_le a). unfold a in Q at 2. rewrite exp_ln in Q by lra. rewrite Rabs_left1; lra.
      - unfold a. assert (A2 := ln_le_le (B2R x) (/ 2) ltac:(lra) ltac:(lra)). rewrite ln_Rinv in A2 by lra. assert (l2 := ln2_rng). rewrite Rabs_left1; lra. }
    apply Rle_trans with (/ 2 * (bpow radix2 (- prec f) / 2)). replace (/ 2 * (bpow radix2 (- prec f) / 2)) with (bpow radix2 (-2) * bpow radix2 (- prec f)) by (change (bpow radix2 (-2)) with (/ 4); field). rewrite <- bpow_plus. apply bpow_le. destruct f; cbn; lia.
    apply Rmult_le_compat; try lra. assert (0 < bpow radix2 (- prec f)) by apply bpow_gt_0. lra.
  - split; auto. set (w := B2R (conv f (conv F80 l /. k))) in * . replace (w - a / L) with ((w - B2R l / L) + (B2R l - a) / L) by (field; lra). eapply Rle_trans. apply Rabs_triang.
    unfold Rdiv in * . rewrite (Rabs_mult (B2R l)) in D. rewrite (Rabs_mult (B2R l - a)), (Rabs_mult a). assert (iL : 0 < / L) by (apply Rinv_0_lt_compat; lra). rewrite (Rabs_pos_eq (/ L)) in * by lra. set (iv := / L) in * .
    assert (A0 := Rabs_pos a). assert (Aiv : 0 <= Rabs a * iv) by (apply Rmult_le_pos; lra).
    assert (Rabs (B2R l - a) * iv <= c * uf f * Rabs a * iv) by (apply Rmult_le_compat_r; lra). assert (Rabs (B2R l) * iv <= (1 + c * uf f) * Rabs a * iv) by (apply Rmult_le_compat_r; lra).
    assert (201 / 100 * uf f * (Rabs (B2R l) * iv) <= 201 / 100 * uf f * ((1 + / 500000) * (Rabs a * iv))). { apply Rmult_le_compat_l. lra. eapply Rle_trans. eassumption. rewrite Rmult_assoc. apply Rmult_le_compat_r; lra. }
    assert (0 <= uf f * (Rabs a * iv)) by (apply Rmult_le_pos; lra). lra.
Qed.
Lemma api_log2 v f (x : flt f) : finite x = true -> / 2 <= B2R x ->
  exists w, gcem_log2 v (AFlt f x) = Ok w /\ finite w = true /\ rel_err (B2R w) (ln (B2R x) / ln 2) (77 / 10 * bpow radix2 (- prec f)).
Proof.
  intros Fx X. destruct (log_check_ge v x Fx X) as (l & E & F & R). unfold gcem_log2, gcem_log. rewrite E. cbn [bind ret_fmt]. eexists. split; [reflexivity|]. assert (u0 := uf_pos f).
  destruct (log_div_acc f x l GCEM_LOG_2 (ln 2) (56 / 10)) as (Fw & Rw); auto; try apply l2v; try lra. { apply Rle_trans with (bpow radix2 (-1)). apply bpow_le. destruct f; discriminate. change (bpow radix2 (-1)) with (/ 2). lra. } { assert (l2 := ln2_rng). lra. }
  split; auto. eapply rel_mono; [|exact Rw]. change (bpow radix2 (- prec f)) with (uf f). lra.
Qed.
Lemma api_log10 v f (x : flt f) : finite x = true -> / 2 <= B2R x ->
  exists w, gcem_log10 v (AFlt f x) = Ok w /\ finite w = true /\ rel_err (B2R w) (ln (B2R x) / ln 10) (77 / 10 * bpow radix2 (- prec f)).
Proof.
  intros Fx X. destruct (log_check_ge v x Fx X) as (l & E & F & R). unfold gcem_log10, gcem_log. rewrite E. cbn [bind ret_fmt]. eexists. split; [reflexivity|]. assert (u0 := uf_pos f).
  destruct (log_div_acc f x l GCEM_LOG_10 (ln 10) (56 / 10)) as (Fw & Rw); auto; try apply l10v; try lra. { apply Rle_trans with (bpow radix2 (-1)). apply bpow_le. destruct f; discriminate. change (bpow radix2 (-1)) with (/ 2). lra. } { assert (l2 := ln10_rng). lra. }
  split; auto. eapply rel_mono; [|exact Rw]. change (bpow radix2 (- prec f)) with (uf f). lra.
Qed.
