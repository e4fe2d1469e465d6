(** * Rounding errors in the continued fraction of incomplete_beta.hpp *)
From Verif Require Import Base FltLemmas ConvLemmas ModelBasic ModelInt ModelElem ModelSpecial ModelApi Spec SpecGamma SpecInc.
From Coq Require Import Lra Psatz.
From Coquelicot Require Import Coquelicot.
From Interval Require Import Tactic.
From Verif Require Import BasicProofs RangeProofs PF FPErr CFBound ExpAcc LogApi PowReal TanhAcc CFAcc MiscProofs SinAcc ErfAcc IntProofs GammaAcc BetaAcc GammaInt IncGamReal IncGamAcc IncBetaCF IncBetaReal.
From Verif Require Import Base ModelBasic ModelInt ModelElem ModelSpecial ModelApi.
Open Scope R_scope.

Ltac spec H := match type of H with ?P -> _ => let N := fresh in assert (N : P); [clear H|specialize (H N); clear N] end.
Lemma tol_lt {f} (x : flt f) : finite x = true -> lt_incml_beta_tol x = true -> B2R x <= 10001 / 10000000000000000000.
Proof.
  intros Fx H. destruct (sf_val (dec F64 1 15) false 5070602400912918 (-102)) as (FT & VT). vm_compute; reflexivity.
  assert (T : B2R (dec F64 1 15) <= 10001 / 10000000000000000000) by (rewrite VT; unfold F2R; cbn; lra). clear VT. unfold lt_incml_beta_tol in H. destruct f.
  - destruct (conv_exact F64 x) as (V & F & _). split; cbn; lia. auto. apply flt_true_inv in H; auto. lra.
  - destruct (conv_exact F64 x) as (V & F & _). split; cbn; lia. auto. apply flt_true_inv in H; auto. lra.
  - destruct (conv_exact F80 x) as (V & F & _). split; cbn; lia. auto. destruct (conv_exact F80 (dec F64 1 15)) as (V2 & F2 & _). split; cbn; lia. auto. apply flt_true_inv in H; auto. lra.
Qed.

Section A.
Context {f : fmt}.
Notation u := (uf f).
Let u0 := uf_pos f.
Let u1 : uf f <= / 16777216 := uf_le f.

(** ** Relative errors in units of u *)
Definition rel (x : flt f) (X r : R) : Prop := finite x = true /\ Rabs (B2R x - X) <= r * u * Rabs X.
Lemma rel_self x : finite x = true -> rel x (B2R x) 0.
Proof. intros F. split. exact F. rewrite Rminus_diag_eq, Rabs_R0 by reflexivity. lra. Qed.
Lemma rel_Z k : (Z.abs k <= 16777216)%Z -> rel (ofZ f k) (IZR k) 0.
Proof. intros H. destruct (ofZ_small f k H) as (V & F & _). rewrite <- V. apply rel_self. exact F. Qed.
Lemma rnd_rel t X r : 0 <= r <= 31 -> / 10000 <= Rabs X -> Rabs (t - X) <= r * u * Rabs X -> Rabs (rnd f t - X) <= (r + 1 + / 10000) * u * Rabs X.
Proof.
  intros Hr HX E. assert (G := @grnd f t). assert (ru : 0 <= r * u <= 31 * / 16777216) by (split; [apply Rmult_le_pos; lra|apply Rmult_le_compat; lra]).
  assert (T : Rabs t <= Rabs X + r * u * Rabs X). { replace t with (X + (t - X)) by ring. eapply Rle_trans. apply Rabs_triang. lra. }
  assert (r * u * Rabs X <= 31 * / 16777216 * Rabs X) by (apply Rmult_le_compat_r; lra).
  assert (u * Rabs t <= u * (100001 / 100000 * Rabs X)) by (apply Rmult_le_compat_l; lra). assert (u * / 10000 <= u * Rabs X) by (apply Rmult_le_compat_l; lra).
  replace (rnd f t - X) with ((rnd f t - t) + (t - X)) by ring. eapply Rle_trans. apply Rabs_triang. lra.
Qed.
Lemma rel_bnd (x : flt f) X r : 0 <= r <= 30 -> rel x X r -> Rabs (B2R x) <= 10001 / 10000 * Rabs X /\ 9999 / 10000 * Rabs X <= Rabs (B2R x).
Proof.
  intros Hr (_ & E). assert (ru : 0 <= r * u <= 30 * / 16777216) by (split; [apply Rmult_le_pos; lra|apply Rmult_le_compat; lra]). assert (0 <= Rabs X) by apply Rabs_pos.
  assert (r * u * Rabs X <= 30 * / 16777216 * Rabs X) by (apply Rmult_le_compat_r; lra). split.
  - replace (B2R x) with (X + (B2R x - X)) by ring. eapply Rle_trans. apply Rabs_triang. lra.
  - assert (Rabs X <= Rabs (B2R x) + Rabs (B2R x - X)). { replace X with (B2R x - (B2R x - X)) at 1 by ring. eapply Rle_trans. apply Rabs_triang. rewrite Rabs_Ropp. lra. } lra.
Qed.
Lemma rel_mul x y X Y r s : 0 <= r <= 15 -> 0 <= s <= 15 -> rel x X r -> rel y Y s -> / 10000 <= Rabs (X * Y) <= 1000000000 -> rel (x *. y) (X * Y) (r + s + 1 + / 1000).
Proof.
  intros Hr Hs Rx Ry HXY. destruct (rel_bnd x X r ltac:(lra) Rx) as (bx & _). destruct (rel_bnd y Y s ltac:(lra) Ry) as (by1 & _). destruct Rx as (Fx & Ex). destruct Ry as (Fy & Ey).
  assert (px := Rabs_pos X). assert (py := Rabs_pos Y). assert (pxx := Rabs_pos (B2R x)). assert (pyy := Rabs_pos (B2R y)). assert (pxy : 0 <= Rabs X * Rabs Y) by (apply Rmult_le_pos; auto).
  assert (M : Rabs (B2R x * B2R y) <= 2 * Rabs (X * Y)). { rewrite !Rabs_mult. apply Rle_trans with (10001 / 10000 * Rabs X * (10001 / 10000 * Rabs Y)). apply Rmult_le_compat; auto. lra. }
  destruct (op_mul x y Fx Fy) as (F & V). lra. split. exact F. rewrite V.
  assert (D : Rabs (B2R x * B2R y - X * Y) <= (r + s + / 2000) * u * Rabs (X * Y)).
  { replace (B2R x * B2R y - X * Y) with ((B2R x - X) * Y + B2R x * (B2R y - Y)) by ring. eapply Rle_trans. apply Rabs_triang. rewrite !Rabs_mult.
    assert (Rabs (B2R x - X) * Rabs Y <= r * u * Rabs X * Rabs Y) by (apply Rmult_le_compat_r; auto).
    assert (Rabs (B2R x) * Rabs (B2R y - Y) <= (Rabs X + r * u * Rabs X) * (s * u * Rabs Y)). { apply Rmult_le_compat; auto. apply Rabs_pos. replace (B2R x) with (X + (B2R x - X)) by ring. eapply Rle_trans. apply Rabs_triang. lra. }
    assert (rsu : r * s * u <= 225 * / 16777216). { apply Rmult_le_compat; try lra. apply Rmult_le_pos; lra. apply Rle_trans with (15 * 15); [|lra]. apply Rmult_le_compat; lra. }
    assert (r * s * u * (u * (Rabs X * Rabs Y)) <= 225 * / 16777216 * (u * (Rabs X * Rabs Y))). { apply Rmult_le_compat_r. apply Rmult_le_pos; lra. exact rsu. } assert (0 <= u * (Rabs X * Rabs Y)) by (apply Rmult_le_pos; lra). lra. }
  eapply Rle_trans. apply (rnd_rel _ _ (r + s + / 2000)); [lra|lra|exact D]. apply Rmult_le_compat_r. apply Rabs_pos. apply Rmult_le_compat_r; lra.
Qed.
Lemma rel_div x y X Y r s : 0 <= r <= 15 -> 0 <= s <= 15 -> rel x X r -> rel y Y s -> 0 < Y -> / 10000 <= Rabs (X / Y) <= 1000000000 -> rel (x /. y) (X / Y) (r + s + 1 + / 1000).
Proof.
  intros Hr Hs Rx Ry HY HXY. destruct (rel_bnd x X r ltac:(lra) Rx) as (bx & _). destruct Rx as (Fx & Ex). destruct Ry as (Fy & Ey). rewrite (Rabs_pos_eq Y) in Ey by lra.
  assert (su : 0 <= s * u <= 15 * / 16777216) by (split; [apply Rmult_le_pos; lra|apply Rmult_le_compat; lra]). assert (s * u * Y <= 15 * / 16777216 * Y) by (apply Rmult_le_compat_r; lra).
  apply Rabs_le_inv in Ey. assert (yp : 999999 / 1000000 * Y <= B2R y) by lra. assert (qX : Rabs X = Rabs (X / Y) * Y). { unfold Rdiv. rewrite Rabs_mult, (Rabs_pos_eq (/ Y)) by (left; apply Rinv_0_lt_compat; lra). field. lra. }
  set (q := Rabs (X / Y)) in * . assert (q0 : 0 <= q) by lra.
  assert (D : Rabs (B2R x / B2R y - X / Y) <= (r + s + / 2000) * u * q).
  { replace (B2R x / B2R y - X / Y) with (((B2R x - X) - X / Y * (B2R y - Y)) * / B2R y) by (field; lra). rewrite Rabs_mult, (Rabs_pos_eq (/ B2R y)) by (left; apply Rinv_0_lt_compat; lra).
    apply (Rmult_le_reg_r (B2R y)). lra. rewrite Rmult_assoc, Rinv_l, Rmult_1_r by lra. unfold Rminus at 1. eapply Rle_trans. apply Rabs_triang. rewrite Rabs_Ropp, Rabs_mult. fold q.
    assert (q * Rabs (B2R y - Y) <= q * (s * u * Y)) by (apply Rmult_le_compat_l; [auto|apply Rabs_le; lra]). rewrite qX in Ex.
    assert (uq0 : 0 <= u * q) by (apply Rmult_le_pos; lra). apply Rle_trans with ((r + s) * (u * q) * Y). lra.
    apply Rle_trans with ((r + s + / 2000) * (u * q) * (999999 / 1000000 * Y)). 2:{ replace ((r + s + / 2000) * u * q) with ((r + s + / 2000) * (u * q)) by ring. apply Rmult_le_compat_l. apply Rmult_le_pos; lra. exact yp. }
    replace ((r + s + / 2000) * (u * q) * (999999 / 1000000 * Y)) with ((r + s + / 2000) * (999999 / 1000000) * ((u * q) * Y)) by ring. rewrite Rmult_assoc. apply Rmult_le_compat_r. apply Rmult_le_pos; lra. lra. }
  assert (M : Rabs (B2R x / B2R y) <= 2 * q). { replace (B2R x / B2R y) with (X / Y + (B2R x / B2R y - X / Y)) by ring. eapply Rle_trans. apply Rabs_triang. fold q. assert (0 <= (r + s + / 2000) * u <= 31 * / 16777216) by (split; [apply Rmult_le_pos; lra|apply Rmult_le_compat; lra]). assert ((r + s + / 2000) * u * q <= 31 * / 16777216 * q) by (apply Rmult_le_compat_r; lra). lra. }
  destruct (op_div x y Fx) as (F & V). lra. lra. split. exact F. rewrite V.
  eapply Rle_trans. apply (rnd_rel _ _ (r + s + / 2000)); [lra|unfold q in HXY; lra|exact D]. fold q. apply Rmult_le_compat_r. auto. apply Rmult_le_compat_r; lra.
Qed.
Lemma rel_add x y X Y r : 0 <= r <= 15 -> rel x X r -> rel y Y r -> 0 <= X -> 0 <= Y -> / 1000 <= X + Y <= 1000000000 -> rel (x +. y) (X + Y) (r + 1 + / 1000).
Proof.
  intros Hr (Fx & Ex) (Fy & Ey) HX HY H. rewrite (Rabs_pos_eq X) in Ex by lra. rewrite (Rabs_pos_eq Y) in Ey by lra.
  assert (D : Rabs (B2R x + B2R y - (X + Y)) <= r * u * Rabs (X + Y)). { rewrite (Rabs_pos_eq (X + Y)) by lra. replace (B2R x + B2R y - (X + Y)) with ((B2R x - X) + (B2R y - Y)) by ring. eapply Rle_trans. apply Rabs_triang. lra. }
  assert (ru : 0 <= r * u <= 15 * / 16777216) by (split; [apply Rmult_le_pos; lra|apply Rmult_le_compat; lra]). assert (r * u * (X + Y) <= 15 * / 16777216 * (X + Y)) by (apply Rmult_le_compat_r; lra).
  destruct (op_add x y Fx Fy) as (F & V). { rewrite (Rabs_pos_eq (X + Y)) in D by lra. replace (B2R x + B2R y) with ((X + Y) + (B2R x + B2R y - (X + Y))) by ring. eapply Rle_trans. apply Rabs_triang. rewrite (Rabs_pos_eq (X + Y)) by lra. lra. }
  split. exact F. rewrite V. eapply Rle_trans. apply (rnd_rel _ _ r); [lra|rewrite Rabs_pos_eq; lra|exact D]. apply Rmult_le_compat_r. apply Rabs_pos. apply Rmult_le_compat_r; lra.
Qed.
Lemma rel_neg x X r : rel x X r -> rel (-. x) (- X) r.
Proof. intros (F & E). split. destruct x; auto. rewrite fneg_B2R, Rabs_Ropp. replace (- B2R x - - X) with (- (B2R x - X)) by ring. rewrite Rabs_Ropp. exact E. Qed.
Lemma rel_le x X r s : r <= s -> rel x X r -> rel x X s.
Proof. intros H (F & E). split. exact F. eapply Rle_trans. exact E. apply Rmult_le_compat_r. apply Rabs_pos. apply Rmult_le_compat_r; lra. Qed.
Lemma add_zero x : finite x = true -> rel (x +. ofZ f 0) (B2R x) 0.
Proof.
  intros F. destruct (ofZ_small f 0 ltac:(lia)) as (V & FZ & _). assert (B := abs_B2R_lt_emax _ _ x).
  destruct (fadd_spec x (ofZ f 0) F FZ) as (V' & F'). { rewrite V, Rplus_0_r, rnd_id by apply fmt_format. exact B. }
  split. exact F'. rewrite V', V, Rplus_0_r, rnd_id by apply fmt_format. rewrite Rminus_diag_eq, Rabs_R0 by reflexivity. lra.
Qed.

Lemma rmul x y X Y r s : rel x X r -> rel y Y s -> 0 <= r <= 15 -> 0 <= s <= 15 -> / 10000 <= Rabs (X * Y) <= 1000000000 -> rel (x *. y) (X * Y) (r + s + 1 + / 1000).
Proof. intros. apply rel_mul; auto. Qed.
Lemma rdiv x y X Y r s : rel x X r -> rel y Y s -> 0 <= r <= 15 -> 0 <= s <= 15 -> 0 < Y -> / 10000 <= Rabs (X / Y) <= 1000000000 -> rel (x /. y) (X / Y) (r + s + 1 + / 1000).
Proof. intros. apply rel_div; auto. Qed.
Lemma radd x y X Y r s t : rel x X r -> rel y Y s -> r <= t -> s <= t -> 0 <= t <= 15 -> 0 <= X -> 0 <= Y -> / 1000 <= X + Y <= 1000000000 -> rel (x +. y) (X + Y) (t + 1 + / 1000).
Proof. intros H1 H2 H3 H4. intros. apply rel_add; auto. apply (rel_le _ _ r); auto. apply (rel_le _ _ s); auto. Qed.

(** ** One step of the recursions for c and d *)
Lemma qmul (c d : flt f) C D e rho : finite c = true -> finite d = true -> Rabs C <= 10 -> Rabs (B2R c - C) <= e * u * Rabs C + u * / 10000000 -> 0 <= e <= 11 -> 0 < D <= 12 -> Rabs (B2R d - D) <= rho * D -> 0 <= rho <= / 10000 ->
  finite (c *. d) = true /\ Rabs (B2R (c *. d) - C * D) <= 10003 / 10000 * ((e + 1) * u + rho) * Rabs (C * D) + u * / 100000.
Proof.
  intros Fc Fd HC Ec He HD Ed Hr. assert (C0 := Rabs_pos C). assert (eu : 0 <= e * u <= 11 * / 16777216) by (split; [apply Rmult_le_pos; lra|apply Rmult_le_compat; lra]).
  assert (rD : 0 <= rho * D <= / 10000 * D) by (split; [apply Rmult_le_pos; lra|apply Rmult_le_compat_r; lra]). apply Rabs_le_inv in Ed. assert (dp : 0 < B2R d <= 10001 / 10000 * D) by lra.
  assert (CD : Rabs (C * D) = Rabs C * D) by (rewrite Rabs_mult, (Rabs_pos_eq D) by lra; reflexivity). set (q := Rabs (C * D)) in * . assert (q0 : 0 <= q) by (apply Rabs_pos). assert (q1 : q <= 10 * 12) by (rewrite CD; apply Rmult_le_compat; lra).
  assert (E1 : Rabs (B2R c * B2R d - C * D) <= 10001 / 10000 * q * (e * u + rho) + u * (13 / 10000000)).
  { replace (B2R c * B2R d - C * D) with ((B2R c - C) * B2R d + C * (B2R d - D)) by ring. eapply Rle_trans. apply Rabs_triang. rewrite !Rabs_mult, (Rabs_pos_eq (B2R d)) by lra.
    assert (Rabs (B2R c - C) * B2R d <= (e * u * Rabs C + u * / 10000000) * (10001 / 10000 * D)) by (apply Rmult_le_compat; try lra; apply Rabs_pos).
    assert (Rabs C * Rabs (B2R d - D) <= Rabs C * (rho * D)) by (apply Rmult_le_compat_l; [auto|apply Rabs_le; lra]).
    assert (u * D <= u * 12) by (apply Rmult_le_compat_l; lra). assert (0 <= rho * q) by (apply Rmult_le_pos; lra).
    apply Rle_trans with (10001 / 10000 * (e * u * (Rabs C * D)) + 10001 / 10000 * / 10000000 * (u * D) + rho * (Rabs C * D)). lra. rewrite <- CD. lra. }
  assert (qq : q * (e * u + rho) <= q * (/ 5000)) by (apply Rmult_le_compat_l; lra).
  assert (M : Rabs (B2R c * B2R d) <= 10003 / 10000 * q + / 1000000). { replace (B2R c * B2R d) with (C * D + (B2R c * B2R d - C * D)) by ring. eapply Rle_trans. apply Rabs_triang. fold q. lra. }
  destruct (op_mul c d Fc Fd) as (F & V). lra. split. exact F. rewrite V. assert (G := @grnd f (B2R c * B2R d)). assert (u * Rabs (B2R c * B2R d) <= u * (10003 / 10000 * q + / 1000000)) by (apply Rmult_le_compat_l; lra).
  replace (rnd f (B2R c * B2R d) - C * D) with ((rnd f (B2R c * B2R d) - B2R c * B2R d) + (B2R c * B2R d - C * D)) by ring. eapply Rle_trans. apply Rabs_triang. assert (0 <= q * (e * u)) by (apply Rmult_le_pos; lra). assert (0 <= q * rho) by (apply Rmult_le_pos; lra). lra.
Qed.
Lemma qdiv (c d : flt f) C D e rho : finite c = true -> finite d = true -> Rabs C <= 10 -> Rabs (B2R c - C) <= e * u * Rabs C + u * / 10000000 -> 0 <= e <= 11 -> / 6 <= D -> Rabs (B2R d - D) <= rho * D -> 0 <= rho <= / 10000 ->
  finite (c /. d) = true /\ Rabs (B2R (c /. d) - C / D) <= 10003 / 10000 * ((e + 1) * u + rho) * Rabs (C / D) + u * / 100000.
Proof.
  intros Fc Fd HC Ec He HD Ed Hr. assert (C0 := Rabs_pos C). assert (eu : 0 <= e * u <= 11 * / 16777216) by (split; [apply Rmult_le_pos; lra|apply Rmult_le_compat; lra]).
  assert (rD : 0 <= rho * D <= / 10000 * D) by (split; [apply Rmult_le_pos; lra|apply Rmult_le_compat_r; lra]). apply Rabs_le_inv in Ed. assert (dp : 9999 / 10000 * D <= B2R d) by lra.
  assert (CD : Rabs C = Rabs (C / D) * D). { unfold Rdiv. rewrite Rabs_mult, (Rabs_pos_eq (/ D)) by (left; apply Rinv_0_lt_compat; lra). field; lra. } set (q := Rabs (C / D)) in * . assert (q0 : 0 <= q) by (apply Rabs_pos).
  assert (q1 : q <= 60). { apply (Rmult_le_reg_r D). lra. rewrite <- CD. lra. }
  assert (E1 : Rabs (B2R c / B2R d - C / D) <= 10002 / 10000 * q * (e * u + rho) + u * (13 / 10000000)).
  { replace (B2R c / B2R d - C / D) with (((B2R c - C) - C / D * (B2R d - D)) * / B2R d) by (field; lra). rewrite Rabs_mult, (Rabs_pos_eq (/ B2R d)) by (left; apply Rinv_0_lt_compat; lra).
    apply (Rmult_le_reg_r (B2R d)). lra. rewrite Rmult_assoc, Rinv_l, Rmult_1_r by lra. unfold Rminus at 1. eapply Rle_trans. apply Rabs_triang. rewrite Rabs_Ropp, (Rabs_mult (C / D)). fold q.
    assert (q * Rabs (B2R d - D) <= q * (rho * D)) by (apply Rmult_le_compat_l; [auto|apply Rabs_le; lra]). rewrite CD in Ec.
    assert (q2 : 0 <= q * (e * u + rho)) by (apply Rmult_le_pos; lra). assert (0 <= q * (e * u + rho) * D) by (apply Rmult_le_pos; lra).
    apply Rle_trans with ((10002 / 10000 * q * (e * u + rho) + u * (13 / 10000000)) * (9999 / 10000 * D)). 2:{ apply Rmult_le_compat_l. lra. exact dp. }
    assert (u * / 6 <= u * D) by (apply Rmult_le_compat_l; lra). lra. }
  assert (qq : q * (e * u + rho) <= q * (/ 5000)) by (apply Rmult_le_compat_l; lra).
  assert (M : Rabs (B2R c / B2R d) <= 10003 / 10000 * q + / 1000000). { replace (B2R c / B2R d) with (C / D + (B2R c / B2R d - C / D)) by ring. eapply Rle_trans. apply Rabs_triang. fold q. lra. }
  destruct (op_div c d Fc) as (F & V). lra. lra. split. exact F. rewrite V. assert (G := @grnd f (B2R c / B2R d)). assert (u * Rabs (B2R c / B2R d) <= u * (10003 / 10000 * q + / 1000000)) by (apply Rmult_le_compat_l; lra).
  replace (rnd f (B2R c / B2R d) - C / D) with ((rnd f (B2R c / B2R d) - B2R c / B2R d) + (B2R c / B2R d - C / D)) by ring. eapply Rle_trans. apply Rabs_triang. assert (0 <= q * (e * u)) by (apply Rmult_le_pos; lra). assert (0 <= q * rho) by (apply Rmult_le_pos; lra). lra.
Qed.
Lemma qsum (q : flt f) Q rho kap : finite q = true -> Rabs (B2R q - Q) <= rho * Rabs Q + u * / 100000 -> 0 <= rho <= / 5000 -> / 12 <= 1 + Q -> Rabs Q <= kap * (1 + Q) -> 0 <= kap -> Rabs Q <= 1000 ->
  finite (ofZ f 1 +. q) = true /\ Rabs (B2R (ofZ f 1 +. q) - (1 + Q)) <= (10001 / 10000 * (kap * rho) + 1002 / 1000 * u) * (1 + Q).
Proof.
  intros Fq Eq Hr HQ HK K0 Q1. set (E := 1 + Q) in * . assert (q0 := Rabs_pos Q). assert (rQ : 0 <= rho * Rabs Q <= / 5000 * Rabs Q) by (split; [apply Rmult_le_pos; lra|apply Rmult_le_compat_r; lra]).
  assert (kE : rho * Rabs Q <= kap * rho * E). { replace (kap * rho * E) with (rho * (kap * E)) by ring. apply Rmult_le_compat_l; lra. }
  destruct (ofZ_small f 1 ltac:(lia)) as (V1 & F1 & _). assert (ES : Rabs (B2R (ofZ f 1) + B2R q - E) <= rho * Rabs Q + u * / 100000). { rewrite V1. unfold E. replace (1 + B2R q - (1 + Q)) with (B2R q - Q) by ring. exact Eq. }
  assert (S2 : Rabs (B2R (ofZ f 1) + B2R q) <= E + (rho * Rabs Q + u * / 100000)). { replace (B2R (ofZ f 1) + B2R q) with (E + (B2R (ofZ f 1) + B2R q - E)) by ring. eapply Rle_trans. apply Rabs_triang. rewrite (Rabs_pos_eq E) by lra. lra. }
  assert (E1 : E <= 1001) by (apply Rabs_le_inv in Q1; unfold E; lra). destruct (op_add (ofZ f 1) q F1 Fq) as (F & V). lra. split. exact F. rewrite V. assert (G := @grnd f (B2R (ofZ f 1) + B2R q)).
  assert (U1 : u * Rabs (B2R (ofZ f 1) + B2R q) <= u * (E + (rho * Rabs Q + u * / 100000))) by (apply Rmult_le_compat_l; lra).
  assert (U2 : u * (rho * Rabs Q + u * / 100000) <= / 16777216 * (rho * Rabs Q + u * / 100000)) by (apply Rmult_le_compat_r; lra).
  assert (U3 : u * / 12 <= u * E) by (apply Rmult_le_compat_l; lra).
  replace (rnd f (B2R (ofZ f 1) + B2R q) - E) with ((rnd f (B2R (ofZ f 1) + B2R q) - (B2R (ofZ f 1) + B2R q)) + (B2R (ofZ f 1) + B2R q - E)) by ring. eapply Rle_trans. apply Rabs_triang. lra.
Qed.
Lemma dinv (e : flt f) E rho : finite e = true -> Rabs (B2R e - E) <= rho * E -> 0 <= rho <= / 10000 -> / 12 <= E <= 2000 ->
  finite (ofZ f 1 /. e) = true /\ Rabs (B2R (ofZ f 1 /. e) - / E) <= (10003 / 10000 * rho + 1002 / 1000 * u) * / E.
Proof.
  intros Fe Ee Hr HE. destruct (ofZ_small f 1 ltac:(lia)) as (V1 & F1 & _). assert (rE : 0 <= rho * E <= / 10000 * E) by (split; [apply Rmult_le_pos; lra|apply Rmult_le_compat_r; lra]). apply Rabs_le_inv in Ee. assert (ep1 : 9999 / 10000 * E <= B2R e) by lra.
  assert (I : / 2000 <= / E <= 12). { split. apply Rinv_le_contravar; lra. replace 12 with (/ / 12) by lra. apply Rinv_le_contravar; lra. }
  assert (D : Rabs (1 / B2R e - / E) <= 10002 / 10000 * rho * / E).
  { replace (1 / B2R e - / E) with (- (B2R e - E) * / B2R e * / E) by (field; lra). rewrite !Rabs_mult, Rabs_Ropp, (Rabs_pos_eq (/ E)), (Rabs_pos_eq (/ B2R e)) by (left; apply Rinv_0_lt_compat; lra). apply Rmult_le_compat_r. lra.
    apply (Rmult_le_reg_r (B2R e)). lra. rewrite Rmult_assoc, Rinv_l, Rmult_1_r by lra. apply Rle_trans with (rho * E). apply Rabs_le; lra. apply Rle_trans with (10002 / 10000 * rho * (9999 / 10000 * E)). lra. apply Rmult_le_compat_l; lra. }
  assert (rI : 0 <= rho * / E <= / 10000 * / E) by (split; [apply Rmult_le_pos; lra|apply Rmult_le_compat_r; lra]).
  assert (M : Rabs (1 / B2R e) <= / E + 10002 / 10000 * rho * / E). { replace (1 / B2R e) with (/ E + (1 / B2R e - / E)) by ring. eapply Rle_trans. apply Rabs_triang. rewrite (Rabs_pos_eq (/ E)) by lra. lra. }
  destruct (op_div (ofZ f 1) e F1) as (F & V). lra. rewrite V1; lra. rewrite V1 in V. split. exact F. rewrite V. assert (G := @grnd f (1 / B2R e)).
  assert (U1 : u * Rabs (1 / B2R e) <= u * (/ E + 10002 / 10000 * rho * / E)) by (apply Rmult_le_compat_l; lra). assert (U2 : u * (rho * / E) <= u * (/ 10000 * / E)) by (apply Rmult_le_compat_l; lra). assert (u * / 2000 <= u * / E) by (apply Rmult_le_compat_l; lra).
  replace (rnd f (1 / B2R e) - / E) with ((rnd f (1 / B2R e) - 1 / B2R e) + (1 / B2R e - / E)) by ring. eapply Rle_trans. apply Rabs_triang. lra.
Qed.

(** Product of two positive quantities *)
Lemma pmul (x y : flt f) X Y r s : finite x = true -> finite y = true -> Rabs (B2R x - X) <= r * X -> Rabs (B2R y - Y) <= s * Y -> 0 <= r <= / 100 -> 0 <= s <= / 10000 -> 0 < X -> 0 < Y -> / 10000 <= X * Y <= 1000000 ->
  finite (x *. y) = true /\ Rabs (B2R (x *. y) - X * Y) <= (r + 101 / 100 * s + 102 / 100 * u) * (X * Y).
Proof.
  intros Fx Fy Ex Ey Hr Hs HX HY H. assert (rX : 0 <= r * X <= / 100 * X) by (split; [apply Rmult_le_pos; lra|apply Rmult_le_compat_r; lra]). assert (sY : 0 <= s * Y <= / 10000 * Y) by (split; [apply Rmult_le_pos; lra|apply Rmult_le_compat_r; lra]).
  assert (xp : 0 < B2R x <= 101 / 100 * X) by (apply Rabs_le_inv in Ex; lra). set (q := X * Y) in * .
  assert (D : Rabs (B2R x * B2R y - q) <= (r + 101 / 100 * s) * q).
  { unfold q. replace (B2R x * B2R y - X * Y) with ((B2R x - X) * Y + B2R x * (B2R y - Y)) by ring. eapply Rle_trans. apply Rabs_triang. rewrite !Rabs_mult, (Rabs_pos_eq Y), (Rabs_pos_eq (B2R x)) by lra.
    assert (Rabs (B2R x - X) * Y <= r * X * Y) by (apply Rmult_le_compat_r; lra). assert (B2R x * Rabs (B2R y - Y) <= 101 / 100 * X * (s * Y)) by (apply Rmult_le_compat; try lra; apply Rabs_pos). lra. }
  assert (D2 : (r + 101 / 100 * s) * q <= (102 / 10000) * q) by (apply Rmult_le_compat_r; lra).
  assert (M : Rabs (B2R x * B2R y) <= 1011 / 1000 * q). { replace (B2R x * B2R y) with (q + (B2R x * B2R y - q)) by ring. eapply Rle_trans. apply Rabs_triang. rewrite (Rabs_pos_eq q) by lra. lra. }
  destruct (op_mul x y Fx Fy) as (F & V). lra. split. exact F. rewrite V. assert (G := @grnd f (B2R x * B2R y)). assert (u * Rabs (B2R x * B2R y) <= u * (1011 / 1000 * q)) by (apply Rmult_le_compat_l; lra). assert (u * / 10000 <= u * q) by (apply Rmult_le_compat_l; lra).
  replace (rnd f (B2R x * B2R y) - q) with ((rnd f (B2R x * B2R y) - B2R x * B2R y) + (B2R x * B2R y - q)) by ring. eapply Rle_trans. apply Rabs_triang. lra.
Qed.
Lemma mul_one x : finite x = true -> finite (x *. ofZ f 1) = true /\ B2R (x *. ofZ f 1) = B2R x.
Proof.
  intros F. destruct (ofZ_small f 1 ltac:(lia)) as (V & FZ & _). assert (B := B2R_lt_emax x).
  destruct (fmul_spec x (ofZ f 1) F FZ) as (V' & F'). { rewrite V, Rmult_1_r, rnd_id by apply fmt_format. exact B. }
  split. exact F'. rewrite V', V, Rmult_1_r, rnd_id by apply fmt_format. reflexivity.
Qed.

(** ** The coefficients *)
Section C.
Context (a b z : flt f) (Fa : finite a = true) (Fb : finite b = true) (Fz : finite z = true).
Notation A := (B2R a).
Notation B := (B2R b).
Notation Z1 := (B2R z).
Context (Ha : / 2 <= A <= 10) (Hb : / 2 <= B <= 10) (Hz : / 8 <= Z1 <= 7 / 8).
Lemma even_ok k : (0 <= k <= 110)%Z -> rel (incomplete_beta_coef_even a b z k) (ce A B Z1 (IZR k)) (if (k =? 0)%Z then 61 / 10 else 101 / 10).
Proof.
  intros Hk. unfold incomplete_beta_coef_even, ce. assert (K : 0 <= IZR k <= 110) by (split; apply IZR_le; lia).
  assert (Ra := rel_self a Fa). assert (Rb := rel_self b Fb). assert (Rz := rel_neg _ _ _ (rel_self z Fz)). assert (R1 := rel_Z 1 ltac:(lia)).
  assert (Rab : rel _ _ _) by (eapply (radd _ _ _ _ _ _ 0 Ra Rb); lra).
  destruct (Z.eqb_spec k 0) as [->|N].
  - change (2 * 0)%Z with 0%Z. assert (Ra0 := add_zero a Fa).
    assert (Rab0 : rel (a +. b +. ofZ f 0) (A + B) (0 + 1 + / 1000)). { destruct Rab as (F & E). destruct (add_zero _ F) as (F2 & E2). split. exact F2. replace (B2R (a +. b +. ofZ f 0) - (A + B)) with ((B2R (a +. b +. ofZ f 0) - B2R (a +. b)) + (B2R (a +. b) - (A + B))) by ring. eapply Rle_trans. apply Rabs_triang. lra. }
    assert (zA : / 16 <= Z1 * A <= 10) by (split; nra). assert (zAB : / 16 <= Z1 * A * (A + B) <= 200) by (split; nra). assert (aa : 3 / 4 <= A * (A + 1) <= 110) by (split; nra).
    assert (P1 := rmul _ _ _ _ _ _ Rz Ra0 ltac:(lra) ltac:(lra)). spec P1. { rewrite Rabs_left1; lra. }
    assert (P2 := rmul _ _ _ _ _ _ P1 Rab0 ltac:(lra) ltac:(lra)). spec P2. { rewrite Rabs_left1; lra. }
    assert (Q1 : rel _ _ _) by (eapply (radd _ _ _ _ _ _ 0 Ra0 R1); lra).
    assert (Q2 := rmul _ _ _ _ _ _ Ra0 Q1 ltac:(lra) ltac:(lra)). spec Q2. { rewrite Rabs_pos_eq; lra. }
    assert (I : 0 < / (A * (A + 1)) <= 4 / 3) by (split; [apply Rinv_0_lt_compat; lra|replace (4 / 3) with (/ (3 / 4)) by lra; apply Rinv_le_contravar; lra]).
    assert (I2 : / 110 <= / (A * (A + 1))) by (apply Rinv_le_contravar; lra).
    assert (P3 := rdiv _ _ _ _ _ _ P2 Q2 ltac:(lra) ltac:(lra) ltac:(lra)). spec P3. { unfold Rdiv. rewrite Rabs_mult, (Rabs_pos_eq (/ _)), Rabs_left1 by lra. replace (- (- Z1 * A * (A + B))) with (Z1 * A * (A + B)) by ring. split. apply Rle_trans with (/ 16 * / 110); [lra|]. apply Rmult_le_compat; lra. apply Rle_trans with (200 * (4 / 3)); [|lra]. apply Rmult_le_compat; lra. }
    eapply rel_le; [|replace (- (Z1 * (A + 0) * (A + B + 0) / ((A + 2 * 0) * (A + 2 * 0 + 1)))) with (- Z1 * A * (A + B) / (A * (A + 1))) by (field; lra); exact P3]. lra.
  - assert (K1 : 1 <= IZR k) by (apply IZR_le; lia). assert (Rk := rel_Z k ltac:(lia)). assert (R2 := rel_Z (2 * k) ltac:(lia)). rewrite mult_IZR in R2.
    assert (Ra1 : rel _ _ _) by (eapply (radd _ _ _ _ _ _ 0 Ra Rk); lra).
    assert (Rab1 : rel _ _ _) by (eapply (radd _ _ _ _ _ _ (0 + 1 + / 1000) Rab Rk); lra).
    assert (Ra2 : rel _ _ _) by (eapply (radd _ _ _ _ _ _ 0 Ra R2); lra).
    assert (Ra3 : rel _ _ _) by (eapply (radd _ _ _ _ _ _ (0 + 1 + / 1000) Ra2 R1); lra).
    assert (zA : / 8 <= Z1 * (A + IZR k) <= 120) by (split; nra). assert (zAB : / 8 <= Z1 * (A + IZR k) * (A + B + IZR k) <= 20000) by (split; nra). assert (aa : 8 <= (A + 2 * IZR k) * (A + 2 * IZR k + 1) <= 60000) by (split; nra).
    assert (P1 := rmul _ _ _ _ _ _ Rz Ra1 ltac:(lra) ltac:(lra)). spec P1. { rewrite Rabs_left1; lra. }
    assert (P2 := rmul _ _ _ _ _ _ P1 Rab1 ltac:(lra) ltac:(lra)). spec P2. { rewrite Rabs_left1; lra. }
    assert (Q2 := rmul _ _ _ _ _ _ Ra2 Ra3 ltac:(lra) ltac:(lra)). spec Q2. { rewrite Rabs_pos_eq; lra. }
    assert (L : (A + 2 * IZR k) * (A + 2 * IZR k + 1) <= 60 * ((A + IZR k) * (A + B + IZR k))). { apply Rle_trans with ((2 * (A + IZR k)) * (30 * (A + B + IZR k))); [|lra]. apply Rmult_le_compat; lra. }
    assert (U : (A + IZR k) * (A + B + IZR k) <= 60 * ((A + 2 * IZR k) * (A + 2 * IZR k + 1))). { apply Rle_trans with ((2 * (A + 2 * IZR k)) * (30 * (A + 2 * IZR k + 1))); [|lra]. apply Rmult_le_compat; lra. }
    set (dn := (A + 2 * IZR k) * (A + 2 * IZR k + 1)) in * . set (nm := (A + IZR k) * (A + B + IZR k)) in * .
    assert (P3 := rdiv _ _ _ _ _ _ P2 Q2 ltac:(lra) ltac:(lra) ltac:(lra)). spec P3. { replace (- Z1 * (A + IZR k) * (A + B + IZR k) / dn) with (- (Z1 * (nm / dn))) by (unfold nm; field; lra). rewrite Rabs_Ropp.
      assert (/ 60 <= nm / dn <= 60). { split; [apply (Rmult_le_reg_r dn); [lra|]|apply (Rmult_le_reg_r dn); [lra|]]; unfold Rdiv; rewrite Rmult_assoc, Rinv_l; lra. } assert (/ 8 * / 60 <= Z1 * (nm / dn) <= 1 * 60) by (split; apply Rmult_le_compat; lra). rewrite Rabs_pos_eq; lra. }
    eapply rel_le; [|replace (- (Z1 * (A + IZR k) * (A + B + IZR k) / dn)) with (- Z1 * (A + IZR k) * (A + B + IZR k) / dn) by (field; lra); exact P3]. lra.
Qed.
Lemma odd_ok k : (1 <= k <= 110)%Z -> finite (incomplete_beta_coef_odd a b z k) = true /\
  Rabs (B2R (incomplete_beta_coef_odd a b z k) - co A B Z1 (IZR k - 1)) <= 88 / 10 * u * Rabs (co A B Z1 (IZR k - 1)) + u * / 10000000.
Proof.
  intros Hk. unfold incomplete_beta_coef_odd, co. assert (K : 1 <= IZR k <= 110) by (split; apply IZR_le; lia).
  assert (Ra := rel_self a Fa). assert (Rz := rel_self z Fz). assert (R1 := rel_Z 1 ltac:(lia)). assert (Rk := rel_Z k ltac:(lia)). assert (R2 := rel_Z (2 * k) ltac:(lia)). rewrite mult_IZR in R2.
  replace (IZR k - 1 + 1) with (IZR k) by ring. replace (A + 2 * (IZR k - 1) + 1) with (A + 2 * IZR k - 1) by ring. replace (A + 2 * (IZR k - 1) + 2) with (A + 2 * IZR k) by ring.
  (* denominator *)
  assert (Ra2 : rel _ _ _) by (eapply (radd _ _ _ _ _ _ 0 Ra R2); lra).
  assert (Ra3 : rel (a +. ofZ f (2 * k) -. ofZ f 1) (A + 2 * IZR k - 1) (27 / 10)).
  { destruct Ra2 as (F2 & E2). destruct R1 as (F1 & _). destruct (ofZ_small f 1 ltac:(lia)) as (V1 & _ & _). rewrite (Rabs_pos_eq (A + 2 * IZR k)) in E2 by lra. set (x := A + 2 * IZR k) in * . assert (X : 5 / 2 <= x <= 240) by (unfold x; lra).
    assert (ux : u * x <= / 16777216 * 240) by (apply Rmult_le_compat; lra). assert (ux2 : u * x <= u * (5 / 3 * (x - 1))) by (apply Rmult_le_compat_l; lra). assert (u0x : 0 <= u * (x - 1)) by (apply Rmult_le_pos; lra). assert (u * 1 <= u * (x - 1)) by (apply Rmult_le_compat_l; lra).
    apply Rabs_le_inv in E2. set (y := a +. ofZ f (2 * k)) in * . destruct (op_sub y (ofZ f 1) F2 F1) as (F3 & V3). { rewrite V1. apply Rabs_le; lra. } split. exact F3. rewrite V3, V1. assert (G := @grnd f (B2R y - 1)).
    rewrite (Rabs_pos_eq (B2R y - 1)) in G by lra. rewrite (Rabs_pos_eq (x - 1)) by lra. apply Rabs_le_inv in G.
    assert (u * (B2R y - 1) <= u * (x - 1) + / 10000 * u). { apply Rle_trans with (u * ((x - 1) + / 10000)); [apply Rmult_le_compat_l; lra|lra]. }
    apply Rabs_le; split; lra. }
  assert (dB : 15 / 4 <= (A + 2 * IZR k - 1) * (A + 2 * IZR k) <= 100000). { split. apply Rle_trans with (3 / 2 * (5 / 2)); [lra|]. apply Rmult_le_compat; lra. apply Rle_trans with (240 * 240); [|lra]. apply Rmult_le_compat; lra. }
  assert (Q2 := rmul _ _ _ _ _ _ Ra3 Ra2 ltac:(lra) ltac:(lra)). spec Q2. { rewrite Rabs_pos_eq; lra. }
  set (dn := (A + 2 * IZR k - 1) * (A + 2 * IZR k)) in * . set (df := (a +. ofZ f (2 * k) -. ofZ f 1) *. (a +. ofZ f (2 * k))) in * .
  (* numerator *)
  assert (zB : / 8 <= Z1 * IZR k <= 100). { split. apply Rle_trans with (/ 8 * 1); [lra|]. apply Rmult_le_compat; lra. apply Rle_trans with (7 / 8 * 110); [|lra]. apply Rmult_le_compat; lra. }
  assert (P1 := rmul _ _ _ _ _ _ Rz Rk ltac:(lra) ltac:(lra)). spec P1. { rewrite Rabs_pos_eq; lra. }
  set (P := Z1 * IZR k) in * . set (p := z *. ofZ f k) in * . destruct P1 as (Fp & Ep). rewrite (Rabs_pos_eq P) in Ep by lra.
  destruct Rk as (Fk & _). destruct (ofZ_small f k ltac:(lia)) as (Vk & _ & _). destruct (op_sub b (ofZ f k) Fb Fk) as (Fq & Vq). { rewrite Vk. apply Rabs_le; lra. } rewrite Vk in Vq. assert (Eq := @grnd f (B - IZR k)). rewrite <- Vq in Eq.
  set (q := b -. ofZ f k) in * . set (Q := B - IZR k) in * . assert (HQ : Rabs Q <= 110) by (unfold Q; apply Rabs_le; lra). assert (Q0 := Rabs_pos Q).
  assert (uP : u * P <= / 16777216 * 100) by (apply Rmult_le_compat; lra). assert (pP : 0 < B2R p <= 1001 / 1000 * P /\ B2R p <= 101). { assert (u * P <= / 16777216 * P) by (apply Rmult_le_compat_r; lra). apply Rabs_le_inv in Ep. lra. }
  assert (PQ0 : 0 <= P * Rabs Q) by (apply Rmult_le_pos; lra). assert (uPQ : 0 <= u * (P * Rabs Q)) by (apply Rmult_le_pos; lra).
  assert (E1 : Rabs (B2R p * B2R q - P * Q) <= 2003 / 1000 * (u * (P * Rabs Q)) + u * (102 / 1000000000)).
  { replace (B2R p * B2R q - P * Q) with ((B2R p - P) * Q + B2R p * (B2R q - Q)) by ring. eapply Rle_trans. apply Rabs_triang. rewrite !Rabs_mult, (Rabs_pos_eq (B2R p)) by lra.
    assert (Rabs (B2R p - P) * Rabs Q <= (0 + 0 + 1 + / 1000) * u * P * Rabs Q) by (apply Rmult_le_compat_r; lra).
    assert (B2R p * Rabs (B2R q - Q) <= B2R p * (u * Rabs Q + u * / 1000000000)) by (apply Rmult_le_compat_l; lra).
    assert (B2R p * (u * Rabs Q) <= 1001 / 1000 * P * (u * Rabs Q)). { apply Rmult_le_compat_r. apply Rmult_le_pos; lra. lra. }
    assert (B2R p * (u * / 1000000000) <= 101 * (u * / 1000000000)) by (apply Rmult_le_compat_r; lra). lra. }
  assert (PQM : P * Rabs Q <= 100 * 110) by (apply Rmult_le_compat; lra). assert (uPQM : u * (P * Rabs Q) <= / 16777216 * (P * Rabs Q)) by (apply Rmult_le_compat_r; lra).
  assert (PQA : Rabs (P * Q) = P * Rabs Q) by (rewrite Rabs_mult, (Rabs_pos_eq P) by lra; reflexivity).
  assert (M1 : Rabs (B2R p * B2R q) <= 1001 / 1000 * (P * Rabs Q) + / 1000000000). { replace (B2R p * B2R q) with (P * Q + (B2R p * B2R q - P * Q)) by ring. eapply Rle_trans. apply Rabs_triang. rewrite PQA. lra. }
  destruct (op_mul p q Fp Fq) as (Fn & Vn). lra. assert (En := @grnd f (B2R p * B2R q)). rewrite <- Vn in En. set (n := p *. q) in * .
  assert (uM1 : u * Rabs (B2R p * B2R q) <= u * (1001 / 1000 * (P * Rabs Q) + / 1000000000)) by (apply Rmult_le_compat_l; lra).
  assert (E2 : Rabs (B2R n - P * Q) <= 3005 / 1000 * (u * (P * Rabs Q)) + u * (12 / 100000000)). { replace (B2R n - P * Q) with ((B2R n - B2R p * B2R q) + (B2R p * B2R q - P * Q)) by ring. eapply Rle_trans. apply Rabs_triang. lra. }
  (* quotient *)
  destruct Q2 as (Fd & Ed). rewrite (Rabs_pos_eq dn) in Ed by lra. set (C := P * Q / dn). assert (CA : P * Rabs Q = Rabs C * dn). { unfold C, Rdiv. rewrite Rabs_mult, (Rabs_pos_eq (/ dn)), PQA by (left; apply Rinv_0_lt_compat; lra). field; lra. }
  assert (C0 := Rabs_pos C). assert (C1 : Rabs C <= 11000). { apply (Rmult_le_reg_r dn). lra. rewrite <- CA. apply Rle_trans with (11000 * 1); [lra|]. apply Rmult_le_compat_l; lra. }
  assert (ud : u * dn <= / 16777216 * dn) by (apply Rmult_le_compat_r; lra). apply Rabs_le_inv in Ed. assert (dl : 999999 / 1000000 * dn <= B2R df) by lra. assert (uC0 : 0 <= u * Rabs C) by (apply Rmult_le_pos; lra).
  assert (uC1 : u * Rabs C <= / 16777216 * Rabs C) by (apply Rmult_le_compat_r; lra).
  assert (E3 : Rabs (B2R n / B2R df - C) <= 772 / 100 * (u * Rabs C) + u * (4 / 100000000)).
  { replace (B2R n / B2R df - C) with (((B2R n - P * Q) - C * (B2R df - dn)) * / B2R df) by (unfold C; field; lra). rewrite Rabs_mult, (Rabs_pos_eq (/ B2R df)) by (left; apply Rinv_0_lt_compat; lra).
    apply (Rmult_le_reg_r (B2R df)). lra. rewrite Rmult_assoc, Rinv_l, Rmult_1_r by lra. unfold Rminus at 1. eapply Rle_trans. apply Rabs_triang. rewrite Rabs_Ropp, (Rabs_mult C).
    assert (Rabs C * Rabs (B2R df - dn) <= Rabs C * (4703 / 1000 * (u * dn))). { apply Rmult_le_compat_l. auto. apply Rabs_le; split; lra. }
    rewrite CA in E2. assert (uCd : 0 <= u * Rabs C * dn) by (apply Rmult_le_pos; lra).
    apply Rle_trans with ((772 / 100 * (u * Rabs C) + u * (4 / 100000000)) * (999999 / 1000000 * dn)). 2:{ apply Rmult_le_compat_l. lra. exact dl. }
    assert (u * (15 / 4) <= u * dn) by (apply Rmult_le_compat_l; lra). lra. }
  assert (M2 : Rabs (B2R n / B2R df) <= 1001 / 1000 * Rabs C + / 1000000000). { replace (B2R n / B2R df) with (C + (B2R n / B2R df - C)) by ring. eapply Rle_trans. apply Rabs_triang. lra. }
  destruct (op_div n df Fn) as (Fw & Vw). lra. lra. split. exact Fw. assert (Ew := @grnd f (B2R n / B2R df)). rewrite <- Vw in Ew. assert (uM2 : u * Rabs (B2R n / B2R df) <= u * (1001 / 1000 * Rabs C + / 1000000000)) by (apply Rmult_le_compat_l; lra).
  replace (B2R (n /. df) - C) with ((B2R (n /. df) - B2R n / B2R df) + (B2R n / B2R df - C)) by ring. eapply Rle_trans. apply Rabs_triang. lra.
Qed.
Definition ep (n : nat) : R := match n with O => 61 / 10 | _ => 101 / 10 end.
Lemma coef_ok n : (n <= 205)%nat -> finite (incomplete_beta_coef a b z (Z.of_nat n)) = true /\
  Rabs (B2R (incomplete_beta_coef a b z (Z.of_nat n)) - cf A B Z1 n) <= ep n * u * Rabs (cf A B Z1 n) + u * / 10000000.
Proof.
  intros Hn. unfold incomplete_beta_coef. rewrite is_odd_Zodd, Z.negb_odd. destruct (Nat.Even_or_Odd n) as [(k & ->)|(k & ->)].
  - rewrite cf_even. rewrite Nat2Z.inj_mul. change (Z.of_nat 2) with 2%Z. rewrite Z.even_mul. change (Z.even 2) with true. cbn [orb]. replace (2 * Z.of_nat k / 2)%Z with (Z.of_nat k) by (rewrite Z.mul_comm, Z.div_mul; lia).
    destruct (even_ok (Z.of_nat k) ltac:(lia)) as (F & E). rewrite <- INR_IZR_INZ in E. split. exact F. assert (P : (if (Z.of_nat k =? 0)%Z then 61 / 10 else 101 / 10) = ep (2 * k)) by (destruct k; reflexivity). rewrite P in E. lra.
  - replace (2 * k + 1)%nat with (S (2 * k)) by lia. rewrite cf_odd. replace (Z.of_nat (S (2 * k))) with (2 * Z.of_nat k + 1)%Z by lia. replace (Z.even (2 * Z.of_nat k + 1)) with false by (rewrite Z.even_add, Z.even_mul; reflexivity).
    replace ((2 * Z.of_nat k + 1 + 1) / 2)%Z with (Z.of_nat k + 1)%Z by (replace (2 * Z.of_nat k + 1 + 1)%Z with ((Z.of_nat k + 1) * 2)%Z by ring; rewrite Z.div_mul; lia).
    destruct (odd_ok (Z.of_nat k + 1) ltac:(lia)) as (F & E). rewrite plus_IZR, <- INR_IZR_INZ in E. replace (INR k + 1 - 1) with (INR k) in E by ring. split. exact F. eapply Rle_trans. exact E. apply Rplus_le_compat_r. apply Rmult_le_compat_r. apply Rabs_pos. apply Rmult_le_compat_r. lra. unfold ep. lra.
Qed.
Lemma cf_bnd n : Rabs (cf A B Z1 n) <= 9.
Proof.
  destruct (Nat.Even_or_Odd n) as [(k & ->)|(k & ->)].
  - rewrite cf_even. unfold ce. rewrite Rabs_Ropp. assert (P := pos_INR k). set (x := INR k) in * . assert (d0 : 0 < (A + 2 * x) * (A + 2 * x + 1)) by (apply Rmult_lt_0_compat; lra). assert (n0 : 0 < Z1 * (A + x) * (A + B + x)) by (repeat apply Rmult_lt_0_compat; lra).
    rewrite Rabs_pos_eq by (left; apply Rdiv_lt_0_compat; auto). apply (Rmult_le_reg_r ((A + 2 * x) * (A + 2 * x + 1))). auto. unfold Rdiv. rewrite Rmult_assoc, Rinv_l, Rmult_1_r by lra.
    apply Rle_trans with (7 / 8 * (A + 2 * x) * (10 * (A + 2 * x + 1))). apply Rmult_le_compat; try lra. apply Rmult_le_pos; lra. apply Rmult_le_compat; lra. lra.
  - replace (2 * k + 1)%nat with (S (2 * k)) by lia. rewrite cf_odd. unfold co. assert (P := pos_INR k). set (x := INR k) in * . assert (d0 : 0 < (A + 2 * x + 1) * (A + 2 * x + 2)) by (apply Rmult_lt_0_compat; lra).
    unfold Rdiv. rewrite Rabs_mult, (Rabs_pos_eq (/ _)) by (left; apply Rinv_0_lt_compat; auto). apply (Rmult_le_reg_r ((A + 2 * x + 1) * (A + 2 * x + 2))). auto. rewrite Rmult_assoc, Rinv_l, Rmult_1_r by lra.
    rewrite !Rabs_mult, (Rabs_pos_eq Z1), (Rabs_pos_eq (x + 1)) by lra. assert (M : Rabs (B - (x + 1)) <= 7 * (A + 2 * x + 1)) by (apply Rabs_le; lra).
    apply Rle_trans with (7 / 8 * (A + 2 * x + 2) * (7 * (A + 2 * x + 1))). apply Rmult_le_compat; try lra. apply Rmult_le_pos; lra. apply Rabs_pos. apply Rmult_le_compat; lra. lra.
Qed.
(** ** The recursions *)
Context (Hzt : Z1 * (A + B + 2) <= (A + 1) * (1 + ee)).
Notation al := (cf A B Z1).
Notation D := (dd al (/ (1 + al 0%nat))).
Notation G := (dd al 1).
Let Hz0 : 0 < Z1 <= 7 / 8. Proof. lra. Qed.
Let hal := cf_hal A B Z1.
Let Ds := D_start A B Z1 Ha Hb Hz0 Hzt.
Let Gs := G_start A B Ha Hb.
Definition eb (g : nat -> R) (n : nat) : R :=
  match n with O => 75 | S m => if Nat.even n then 142 else 1001 / 1000 * (Rabs (g n - 1) * (111 / 10 + (match m with O => 75 | _ => 142 end))) + 201 / 100 end.
Lemma eb_odd g k : eb g (S (2 * S k)) = 1001 / 1000 * (Rabs (g (S (2 * S k)) - 1) * (111 / 10 + 142)) + 201 / 100.
Proof. unfold eb. replace (Nat.even (S (2 * S k))) with false. 2:{ rewrite Nat.even_succ, Nat.odd_mul. reflexivity. } replace (2 * S k)%nat with (S (S (2 * k))) by lia. reflexivity. Qed.
Lemma eb_even g k : eb g (2 * S k) = 142.
Proof. replace (2 * S k)%nat with (S (S (2 * k))) by lia. unfold eb. replace (Nat.even (S (S (2 * k)))) with true. reflexivity. rewrite Nat.even_succ_succ, Nat.even_mul. reflexivity. Qed.
Section Gen.
Context (d0 : R) (Hd0 : 1 <= d0 <= 51 / 100 * (A + B + 2)).
Notation d := (dd al d0).
Lemma eb_bnd n : 0 <= eb d n <= 156.
Proof.
  destruct (Nat.Even_or_Odd n) as [([|k] & ->)|([|k] & ->)].
  - cbn. lra.
  - rewrite eb_even. lra.
  - change (eb d (2 * 0 + 1)) with (1001 / 1000 * (Rabs (d 1%nat - 1) * (111 / 10 + 75)) + 201 / 100). assert (Q := odd_one A B Z1 Ha Hb Hz0 Hzt al hal d0 Hd0 0). change (S (2 * 0)) with 1%nat in Q. assert (P := Rabs_pos (d 1%nat - 1)). lra.
  - replace (2 * S k + 1)%nat with (S (2 * S k)) by lia. rewrite eb_odd. assert (Q := odd_one A B Z1 Ha Hb Hz0 Hzt al hal d0 Hd0 (S k)). assert (P := Rabs_pos (d (S (2 * S k)) - 1)). lra.
Qed.
Lemma eb_step n : 1001 / 1000 * (Rabs (d (S n) - 1) * (111 / 10 + eb d n)) + 201 / 100 <= eb d (S n).
Proof.
  destruct (Nat.Even_or_Odd n) as [([|k] & ->)|([|k] & ->)].
  - change (2 * 0)%nat with 0%nat. unfold eb. cbn [Nat.even]. lra.
  - rewrite eb_odd, eb_even. lra.
  - change (2 * 0 + 1)%nat with 1%nat. change (eb d 1) with (1001 / 1000 * (Rabs (d 1%nat - 1) * (111 / 10 + 75)) + 201 / 100). change (eb d 2) with 142.
    assert (P1 := pair1 A B Z1 Ha Hb Hz0 Hzt al hal d0 Hd0). assert (M := even_m1 A B Z1 Ha Hb Hz0 Hzt al hal d0 Hd0). destruct (even_six A B Z1 Ha Hb Hz0 Hzt al hal d0 Hd0 1 ltac:(lia)) as (L & _). change (2 * 1)%nat with 2%nat in L. rewrite (Rabs_pos_eq (d 2%nat - 1)) by lra.
    set (x := Rabs (d 1%nat - 1)) in * . set (y := d 2%nat - 1) in * . replace (1001 / 1000 * (y * (111 / 10 + (1001 / 1000 * (x * (111 / 10 + 75)) + 201 / 100))) + 201 / 100) with (1001 / 1000 * (1001 / 1000 * (111 / 10 + 75)) * (x * y) + 1001 / 1000 * (111 / 10 + 201 / 100) * y + 201 / 100) by ring. lra.
  - replace (2 * S k + 1)%nat with (S (2 * S k)) by lia. rewrite eb_odd. replace (S (S (2 * S k))) with (2 * S (S k))%nat by lia. rewrite eb_even.
    assert (P1 := pair2 A B Z1 Ha Hb Hz0 Hzt al hal d0 Hd0 (S (S k)) ltac:(lia)). assert (M := even_m2 A B Z1 Ha Hb Hz0 Hzt al hal d0 Hd0 (S (S k)) ltac:(lia)). destruct (even_six A B Z1 Ha Hb Hz0 Hzt al hal d0 Hd0 (S (S k)) ltac:(lia)) as (L & _).
    replace (2 * S (S k) - 1)%nat with (S (2 * S k)) in P1 by lia. rewrite (Rabs_pos_eq (d (2 * S (S k))%nat - 1)) by lra.
    set (x := Rabs (d (S (2 * S k)) - 1)) in * . set (y := d (2 * S (S k))%nat - 1) in * . replace (1001 / 1000 * (y * (111 / 10 + (1001 / 1000 * (x * (111 / 10 + 142)) + 201 / 100))) + 201 / 100) with (1001 / 1000 * (1001 / 1000 * (111 / 10 + 142)) * (x * y) + 1001 / 1000 * (111 / 10 + 201 / 100) * y + 201 / 100) by ring. lra.
Qed.
Lemma d_up n : 0 < d (S n) <= 6.
Proof.
  split. apply (d_pos A B Z1 Ha Hb Hz0 Hzt al hal d0 Hd0). destruct (Nat.Even_or_Odd n) as [(k & ->)|(k & ->)].
  - assert (Q := odd_one A B Z1 Ha Hb Hz0 Hzt al hal d0 Hd0 k). apply Rabs_le_inv in Q. lra.
  - replace (S (2 * k + 1)) with (2 * S k)%nat by lia. destruct k. assert (M := even_m1 A B Z1 Ha Hb Hz0 Hzt al hal d0 Hd0). change (2 * 1)%nat with 2%nat. lra. assert (M := even_m2 A B Z1 Ha Hb Hz0 Hzt al hal d0 Hd0 (S (S k)) ltac:(lia)). lra.
Qed.
Lemma q_step n : 0 < d n <= 12 -> let Q := al (S n) * d n in 1 + Q = / d (S n) /\ / 12 <= 1 + Q /\ Rabs Q <= Rabs (d (S n) - 1) * (1 + Q) /\ Rabs Q <= 1000.
Proof.
  intros Hn. cbv zeta. set (Q := al (S n) * d n). destruct (d_up n) as (P & U). assert (E : 1 + Q = / d (S n)) by (rewrite dd_S, Rinv_inv; reflexivity).
  assert (I : / 6 <= / d (S n)) by (apply Rinv_le_contravar; lra). split. exact E. split. lra. split.
  - rewrite E. rewrite <- (Rabs_pos_eq (/ d (S n))) by lra. rewrite <- Rabs_mult. replace ((d (S n) - 1) * / d (S n)) with (- Q) by (replace Q with (/ d (S n) - 1) by lra; field; lra). rewrite Rabs_Ropp. lra.
  - unfold Q. rewrite Rabs_mult, (Rabs_pos_eq (d n)) by lra. apply Rle_trans with (9 * 12); [|lra]. apply Rmult_le_compat; try lra. apply Rabs_pos. apply cf_bnd.
Qed.
End Gen.
Lemma D_le n : 0 < D n <= 12.
Proof. destruct n. cbn [dd]. lra. assert (H := d_up _ Ds n). lra. Qed.
Lemma G_le n : 0 < G n <= 6.
Proof. destruct n. cbn [dd]. lra. assert (H := d_up _ Gs n). lra. Qed.
Lemma ep_bnd n : 0 <= ep n <= 101 / 10.
Proof. unfold ep. destruct n; lra. Qed.
Lemma c_step n c : (n <= 204)%nat -> finite c = true -> Rabs (B2R c - / G n) <= eb G n * u * / G n ->
  let c2 := incomplete_beta_c_update a b z c (Z.of_nat (S n)) in finite c2 = true /\ Rabs (B2R c2 - / G (S n)) <= eb G (S n) * u * / G (S n).
Proof.
  intros Hn Fc Ec. cbv zeta. unfold incomplete_beta_c_update. destruct (coef_ok (S n) ltac:(lia)) as (Fk & Ek). set (k := incomplete_beta_coef a b z (Z.of_nat (S n))) in * .
  assert (gn := G_le n). destruct (q_step _ Gs n) as (Q1 & Q2 & Q3 & Q4). lra. assert (I : / 6 <= / G n) by (apply Rinv_le_contravar; lra). assert (eB := eb_bnd _ Gs n). assert (C9 := cf_bnd (S n)). assert (eP := ep_bnd (S n)).
  assert (eu : 0 <= eb G n * u <= 156 * / 16777216) by (split; [apply Rmult_le_pos; lra|apply Rmult_le_compat; lra]).
  destruct (qdiv k c (al (S n)) (/ G n) (ep (S n)) (eb G n * u) Fk Fc ltac:(lra) Ek ltac:(lra) I Ec ltac:(lra)) as (F1 & E1). replace (al (S n) / / G n) with (al (S n) * G n) in E1 by (field; lra).
  set (Q := al (S n) * G n) in * . set (rho := 10003 / 10000 * ((ep (S n) + 1) * u + eb G n * u)) in * .
  assert (r1 : rho <= 10003 / 10000 * (111 / 10 + eb G n) * u). { unfold rho. rewrite !Rmult_assoc. apply Rmult_le_compat_l. lra. rewrite <- Rmult_plus_distr_r. apply Rmult_le_compat_r; lra. }
  assert (r0 : 0 <= rho). { unfold rho. apply Rmult_le_pos. lra. assert (0 <= (ep (S n) + 1) * u) by (apply Rmult_le_pos; lra). lra. }
  assert (r2 : rho <= / 5000). { eapply Rle_trans. exact r1. apply Rle_trans with (10003 / 10000 * (111 / 10 + 156) * / 16777216); [|lra]. apply Rmult_le_compat; lra. }
  destruct (qsum (k /. c) Q rho (Rabs (G (S n) - 1)) F1 E1 ltac:(lra) Q2 Q3 (Rabs_pos _) Q4) as (F2 & E2). split. exact F2. rewrite <- Q1. eapply Rle_trans. exact E2. apply Rmult_le_compat_r. lra.
  assert (ST := eb_step _ Gs n). assert (A0 := Rabs_pos (G (S n) - 1)). set (m := Rabs (G (S n) - 1)) in * . assert (m * rho <= m * (10003 / 10000 * (111 / 10 + eb G n) * u)) by (apply Rmult_le_compat_l; lra).
  apply Rle_trans with ((1001 / 1000 * (m * (111 / 10 + eb G n)) + 201 / 100) * u). 2: apply Rmult_le_compat_r; lra. assert (0 <= m * (111 / 10 + eb G n) * u) by (repeat apply Rmult_le_pos; lra). lra.
Qed.
Lemma d_step n d : (n <= 204)%nat -> finite d = true -> Rabs (B2R d - D n) <= eb D n * u * D n ->
  let d2 := incomplete_beta_d_update a b z d (Z.of_nat (S n)) in finite d2 = true /\ Rabs (B2R d2 - D (S n)) <= eb D (S n) * u * D (S n).
Proof.
  intros Hn Fc Ec. cbv zeta. unfold incomplete_beta_d_update. destruct (coef_ok (S n) ltac:(lia)) as (Fk & Ek). set (k := incomplete_beta_coef a b z (Z.of_nat (S n))) in * .
  assert (gn := D_le n). destruct (q_step _ Ds n) as (Q1 & Q2 & Q3 & Q4). lra. assert (eB := eb_bnd _ Ds n). assert (C9 := cf_bnd (S n)). assert (eP := ep_bnd (S n)).
  assert (eu : 0 <= eb D n * u <= 156 * / 16777216) by (split; [apply Rmult_le_pos; lra|apply Rmult_le_compat; lra]).
  destruct (qmul k d (al (S n)) (D n) (ep (S n)) (eb D n * u) Fk Fc ltac:(lra) Ek ltac:(lra) gn Ec ltac:(lra)) as (F1 & E1).
  set (Q := al (S n) * D n) in * . set (rho := 10003 / 10000 * ((ep (S n) + 1) * u + eb D n * u)) in * .
  assert (r1 : rho <= 10003 / 10000 * (111 / 10 + eb D n) * u). { unfold rho. rewrite !Rmult_assoc. apply Rmult_le_compat_l. lra. rewrite <- Rmult_plus_distr_r. apply Rmult_le_compat_r; lra. }
  assert (r0 : 0 <= rho). { unfold rho. apply Rmult_le_pos. lra. assert (0 <= (ep (S n) + 1) * u) by (apply Rmult_le_pos; lra). lra. }
  assert (r2 : rho <= 10003 / 10000 * (111 / 10 + 156) * / 16777216). { eapply Rle_trans. exact r1. apply Rmult_le_compat; lra. }
  assert (dn := d_up _ Ds n). assert (A0 := Rabs_pos (D (S n) - 1)). set (m := Rabs (D (S n) - 1)) in * . assert (m1 : m <= 5) by (apply Rabs_le; lra).
  destruct (qsum (k *. d) Q rho m F1 E1 ltac:(lra) Q2 Q3 A0 Q4) as (F2 & E2). set (r2' := 10001 / 10000 * (m * rho) + 1002 / 1000 * u) in * .
  assert (mr : 0 <= m * rho <= 5 * (10003 / 10000 * (111 / 10 + 156) * / 16777216)) by (split; [apply Rmult_le_pos; lra|apply Rmult_le_compat; lra]).
  destruct (dinv _ (1 + Q) r2' F2 E2) as (F3 & E3). { unfold r2'. lra. } { apply Rabs_le_inv in Q4. lra. } rewrite Q1, Rinv_inv in E3. split. exact F3. eapply Rle_trans. exact E3. apply Rmult_le_compat_r. lra.
  assert (ST := eb_step _ Ds n). fold m in ST. assert (m * rho <= m * (10003 / 10000 * (111 / 10 + eb D n) * u)) by (apply Rmult_le_compat_l; lra).
  apply Rle_trans with ((1001 / 1000 * (m * (111 / 10 + eb D n)) + 201 / 100) * u). 2: apply Rmult_le_compat_r; lra. assert (0 <= m * (111 / 10 + eb D n) * u) by (repeat apply Rmult_le_pos; lra). unfold r2'. lra.
Qed.
Lemma d_start : let d := incomplete_beta_d_update a b z (ofZ f 1) 0 in finite d = true /\ Rabs (B2R d - D 0%nat) <= 75 * u * D 0%nat.
Proof.
  cbv zeta. unfold incomplete_beta_d_update. destruct (coef_ok 0 ltac:(lia)) as (Fk & Ek). change (Z.of_nat 0) with 0%Z in * . set (k := incomplete_beta_coef a b z 0) in * . destruct (mul_one k Fk) as (F1 & V1). cbn [dd].
  assert (L := Ds). assert (P : 0 < 1 + al 0%nat) by (apply inv_pos_pos; lra). set (Q := al 0%nat) in * . assert (Q9 : Rabs Q <= 9) by apply cf_bnd. assert (I : / 12 <= 1 + Q). { rewrite <- (Rinv_inv (1 + Q)). apply Rinv_le_contravar; lra. }
  assert (E1 : Rabs (B2R (k *. ofZ f 1) - Q) <= 61 / 10 * u * Rabs Q + u * / 100000). { rewrite V1. unfold ep in Ek. lra. } set (m := / (1 + Q) - 1). assert (m0 : 0 <= m <= 1022 / 100) by (unfold m; lra).
  assert (Q0 : Q <= 0). { assert (1 * (1 + Q) <= / (1 + Q) * (1 + Q)) by (apply Rmult_le_compat_r; lra). rewrite Rinv_l in H by lra. lra. }
  destruct (qsum (k *. ofZ f 1) Q (61 / 10 * u) m F1 E1 ltac:(lra) I) as (F2 & E2). { unfold m. replace ((/ (1 + Q) - 1) * (1 + Q)) with (- Q) by (field; lra). rewrite Rabs_left1; lra. } lra. lra.
  set (r2' := 10001 / 10000 * (m * (61 / 10 * u)) + 1002 / 1000 * u) in * . assert (mr : 0 <= m * (61 / 10 * u) <= 1022 / 100 * (61 / 10 * u)) by (split; [apply Rmult_le_pos; lra|apply Rmult_le_compat_r; lra]).
  destruct (dinv _ (1 + Q) r2' F2 E2) as (F3 & E3). { unfold r2'. lra. } { lra. } split. exact F3. eapply Rle_trans. exact E3. apply Rmult_le_compat_r. lra. unfold r2'. lra.
Qed.
(** ** The loop *)
Notation F1 := (FF al).
Let tp := cf_tpos A B Z1 Ha Hb Hz0 Hzt.
Lemma F1_bnd n : 1 <= F1 n <= 12.
Proof.
  rewrite (FF_tt al tp). assert (L := tt_zero A B Z1 Ha Hb Hz0 Hzt al hal n). split.
  - rewrite <- Rinv_1 at 1. apply Rinv_le_contravar. lra. destruct n. cbn. lra. rewrite tt_S. assert (P := tp n 1%nat). destruct (al0 A B Z1 Ha Hb Hz0 Hzt al hal) as (Q & _). assert (0 < - al 0%nat / tt al n 1) by (apply Rdiv_lt_0_compat; auto). unfold Rdiv in * . lra.
  - replace 12 with (/ / 12) by lra. apply Rinv_le_contravar; lra.
Qed.
Definition fb (n : nat) : R := 75 + 318 * INR n.
Lemma f_step n (c d x : flt f) : (n <= 204)%nat -> finite c = true -> finite d = true -> finite x = true -> Rabs (B2R c - / G (S n)) <= eb G (S n) * u * / G (S n) -> Rabs (B2R d - D (S n)) <= eb D (S n) * u * D (S n) -> Rabs (B2R x - F1 (S n)) <= fb n * u * F1 (S n) ->
  finite (x *. c *. d) = true /\ Rabs (B2R (x *. c *. d) - F1 (S (S n))) <= fb (S n) * u * F1 (S (S n)).
Proof.
  intros Hn Fc Fd Fx Ec Ed Ex. assert (N : 0 <= INR n <= 204). { split. apply pos_INR. rewrite INR_IZR_INZ. apply IZR_le. lia. }
  assert (g1 := G_le (S n)). assert (I : / 6 <= / G (S n)) by (apply Rinv_le_contravar; lra). assert (d1 := D_le (S n)). assert (f1 := F1_bnd (S n)). assert (f2 := F1_bnd (S (S n))).
  destruct (q_step _ Gs n) as (Q1 & _ & _ & Q4). assert (H := G_le n); lra. apply Rabs_le_inv in Q4. assert (I2 : / G (S n) <= 1001) by lra.
  assert (eg := eb_bnd _ Gs (S n)). assert (ed := eb_bnd _ Ds (S n)). assert (fu : 0 <= fb n * u <= 65000 * / 16777216) by (unfold fb; split; [apply Rmult_le_pos; lra|apply Rmult_le_compat; lra]).
  assert (gu : 0 <= eb G (S n) * u <= 156 * u) by (split; [apply Rmult_le_pos; lra|apply Rmult_le_compat_r; lra]). assert (du : 0 <= eb D (S n) * u <= 156 * u) by (split; [apply Rmult_le_pos; lra|apply Rmult_le_compat_r; lra]).
  destruct (pmul x c (F1 (S n)) (/ G (S n)) _ _ Fx Fc Ex Ec) as (P1 & E1); try lra. { split. apply Rle_trans with (1 * / 6); [lra|]. apply Rmult_le_compat; lra. apply Rle_trans with (12 * 1001); [|lra]. apply Rmult_le_compat; lra. }
  assert (FE : F1 (S n) * / G (S n) * D (S n) = F1 (S (S n))) by (rewrite FF_S; unfold Rdiv; ring).
  destruct (pmul (x *. c) d (F1 (S n) * / G (S n)) (D (S n)) _ _ P1 Fd E1 Ed) as (P2 & E2); try lra. { apply Rmult_lt_0_compat; lra. }
  split. exact P2. rewrite FE in E2. eapply Rle_trans. exact E2. apply Rmult_le_compat_r. lra. unfold fb. rewrite S_INR. lra.
Qed.
Lemma stop_ok n (c d : flt f) m : (n <= 204)%nat -> finite c = true -> finite d = true -> Rabs (B2R c - / G (S n)) <= eb G (S n) * u * / G (S n) -> Rabs (B2R d - D (S n)) <= eb D (S n) * u * D (S n) ->
  lt_incml_beta_tol (ModelBasic.abs (c *. d -. ofZ f 1)) = true -> Rabs (F1 (S (S n) + m) - F1 (S (S n))) <= (13920 * u + 4402 / 100000000000000000) * F1 (S (S n)).
Proof.
  intros Hn Fc Fd Ec Ed T. assert (g1 := G_le (S n)). assert (I : / 6 <= / G (S n)) by (apply Rinv_le_contravar; lra). assert (d1 := D_le (S n)). assert (f1 := F1_bnd (S n)).
  destruct (q_step _ Gs n) as (Q1 & _ & _ & Q4). assert (H := G_le n); lra. apply Rabs_le_inv in Q4. assert (I2 : / G (S n) <= 1001) by lra.
  destruct (q_step _ Ds n) as (Q1' & _ & _ & Q4'). assert (H := D_le n); lra. apply Rabs_le_inv in Q4'. assert (I3 : / 1001 <= D (S n)). { rewrite <- (Rinv_inv (D (S n))). apply Rinv_le_contravar. apply Rinv_0_lt_compat; lra. lra. }
  assert (eg := eb_bnd _ Gs (S n)). assert (ed := eb_bnd _ Ds (S n)).
  assert (gu : 0 <= eb G (S n) * u <= 156 * u) by (split; [apply Rmult_le_pos; lra|apply Rmult_le_compat_r; lra]). assert (du : 0 <= eb D (S n) * u <= 156 * u) by (split; [apply Rmult_le_pos; lra|apply Rmult_le_compat_r; lra]).
  destruct (pmul c d (/ G (S n)) (D (S n)) _ _ Fc Fd Ec Ed) as (P1 & E1); try lra. { split. apply Rle_trans with (/ 6 * / 1001); [lra|]. apply Rmult_le_compat; lra. apply Rle_trans with (1001 * 12); [|lra]. apply Rmult_le_compat; lra. }
  assert (FE : F1 (S (S n)) = F1 (S n) * (/ G (S n) * D (S n))) by (rewrite FF_S; unfold Rdiv; ring). set (q := / G (S n) * D (S n)) in * .
  assert (q0 : 0 < q) by (apply Rmult_lt_0_compat; lra). assert (q1 : q <= 1001 * 12) by (apply Rmult_le_compat; lra).
  assert (E2 : Rabs (B2R (c *. d) - q) <= 315 * u * q). { eapply Rle_trans. exact E1. apply Rmult_le_compat_r; lra. } assert (uq : 315 * u * q <= 315 * / 16777216 * q) by (apply Rmult_le_compat_r; lra).
  apply Rabs_le_inv in E2. destruct (ofZ_small f 1 ltac:(lia)) as (V1 & FZ & _). destruct (op_sub (c *. d) (ofZ f 1) P1 FZ) as (P2 & V2). { rewrite V1. apply Rabs_le. lra. } rewrite V1 in V2.
  apply tol_lt in T. 2:{ rewrite abs_finite. exact P2. } rewrite abs_B2R, V2 in T. assert (GR := @grnd f (B2R (c *. d) - 1)). set (y := B2R (c *. d) - 1) in * .
  assert (Y : Rabs y <= Rabs (rnd f y) + Rabs (rnd f y - y)). { replace y with (rnd f y - (rnd f y - y)) at 1 by ring. eapply Rle_trans. apply Rabs_triang. rewrite Rabs_Ropp. lra. }
  assert (uy : u * Rabs y <= / 16777216 * Rabs y) by (apply Rmult_le_compat_r; [apply Rabs_pos|lra]).
  assert (Y2 : Rabs y <= 100011 / 100000000000000000000 + u * / 100000000) by lra.
  assert (Y3 := Y2). apply Rabs_le_inv in Y3. assert (qq : q <= 1 + / 10000) by (unfold y in Y3; lra). assert (uqq : u * q <= u * (1 + / 10000)) by (apply Rmult_le_compat_l; lra).
  assert (Y4 : Rabs (q - 1) <= 100011 / 100000000000000000000 + 31505 / 100 * u). { replace (q - 1) with (y - (B2R (c *. d) - q)) by (unfold y; ring). unfold Rminus at 1. eapply Rle_trans. apply Rabs_triang. rewrite Rabs_Ropp. assert (Rabs (B2R (c *. d) - q) <= 315 * u * q) by (apply Rabs_le; lra). lra. }
  assert (q3 : 1 - / 10000 <= q). { apply Rabs_le_inv in Y4. lra. }
  eapply Rle_trans. apply (sum44 A B Z1 Ha Hb Hz0 Hzt (S n) m ltac:(lia)). rewrite <- (FF_diff al tp (S n)). rewrite FE. replace (F1 (S n) * q - F1 (S n)) with (F1 (S n) * (q - 1)) by ring. rewrite Rabs_mult, (Rabs_pos_eq (F1 (S n))) by lra.
  replace (44 * (F1 (S n) * Rabs (q - 1))) with (F1 (S n) * (44 * Rabs (q - 1))) by ring. replace ((13920 * u + 4402 / 100000000000000000) * (F1 (S n) * q)) with (F1 (S n) * ((13920 * u + 4402 / 100000000000000000) * q)) by ring. apply Rmult_le_compat_l. lra.
  assert (u * (1 - / 10000) <= u * q) by (apply Rmult_le_compat_l; lra). lra.
Qed.
Lemma fb_le n : (n <= 205)%nat -> 0 <= fb n <= 65265.
Proof. intros H. assert (N : 0 <= INR n <= 205). { split. apply pos_INR. rewrite INR_IZR_INZ. apply IZR_le. lia. } unfold fb. lra. Qed.
Lemma loop_ok m : forall n c d x, (n + m = 206)%nat -> (n <= 204)%nat -> finite c = true -> finite d = true -> finite x = true -> Rabs (B2R c - / G n) <= eb G n * u * / G n -> Rabs (B2R d - D n) <= eb D n * u * D n -> Rabs (B2R x - F1 (S n)) <= fb n * u * F1 (S n) ->
  exists w, incomplete_beta_cf m a b z c d x (Z.of_nat (S n)) = Ok w /\ finite w = true /\ Rabs (B2R w - F1 206) <= (79400 * u + bpow radix2 (-44)) * F1 206.
Proof.
  assert (B44 : 5684 / 100000000000000000 <= bpow radix2 (-44) <= 5685 / 100000000000000000) by (cbn; lra).
  induction m as [|m IH]; intros n c d x Hm Hn Fc Fd Fx Ec Ed Ex. lia. cbn [incomplete_beta_cf]. destruct (c_step n c Hn Fc Ec) as (Fc2 & Ec2). destruct (d_step n d Hn Fd Ed) as (Fd2 & Ed2).
  set (c2 := incomplete_beta_c_update a b z c (Z.of_nat (S n))) in * . set (d2 := incomplete_beta_d_update a b z d (Z.of_nat (S n))) in * . destruct (f_step n c2 d2 x Hn Fc2 Fd2 Fx Ec2 Ed2 Ex) as (Fx2 & Ex2). assert (fl := fb_le (S n) ltac:(lia)). assert (f2 := F1_bnd (S (S n))).
  assert (fu : fb (S n) * u <= 65265 * u) by (apply Rmult_le_compat_r; lra). assert (Ex3 : Rabs (B2R (x *. c2 *. d2) - F1 (S (S n))) <= 65265 * u * F1 (S (S n))). { eapply Rle_trans. exact Ex2. apply Rmult_le_compat_r; lra. }
  destruct (lt_incml_beta_tol (ModelBasic.abs (c2 *. d2 -. ofZ f 1))) eqn:T.
  - exists (x *. c2 *. d2). split. reflexivity. split. exact Fx2. assert (ST := stop_ok n c2 d2 (204 - n) Hn Fc2 Fd2 Ec2 Ed2 T). replace (S (S n) + (204 - n))%nat with 206%nat in ST by lia.
    assert (f6 := F1_bnd 206). set (P := F1 206) in * . set (Q := F1 (S (S n))) in * . set (e := 13920 * u + 4402 / 100000000000000000) in * . assert (e1 : 0 <= e <= / 1000) by (unfold e; lra).
    assert (eQ : e * Q <= / 1000 * Q) by (apply Rmult_le_compat_r; lra). assert (QP : Q <= 1002 / 1000 * P). { apply Rabs_le_inv in ST. lra. }
    replace (B2R (x *. c2 *. d2) - P) with ((B2R (x *. c2 *. d2) - Q) - (P - Q)) by ring. unfold Rminus at 1. eapply Rle_trans. apply Rabs_triang. rewrite Rabs_Ropp. apply Rle_trans with ((65265 * u + e) * Q). lra.
    apply Rle_trans with ((65265 * u + e) * (1002 / 1000 * P)). apply Rmult_le_compat_l; lra. rewrite <- Rmult_assoc. apply Rmult_le_compat_r. lra. unfold e. lra.
  - destruct (Z.of_nat (S n) <? GCEM_INCML_BETA_MAX_ITER)%Z eqn:L.
    + apply Z.ltb_lt in L. unfold GCEM_INCML_BETA_MAX_ITER in L. replace (Z.of_nat (S n) + 1)%Z with (Z.of_nat (S (S n))) by lia. apply IH; auto; lia.
    + apply Z.ltb_ge in L. unfold GCEM_INCML_BETA_MAX_ITER in L. assert (n = 204%nat) by lia. subst n. exists (x *. c2 *. d2). split. reflexivity. split. exact Fx2. eapply Rle_trans. exact Ex3. apply Rmult_le_compat_r. lra. lra.
Qed.
Lemma cf_ok : exists w, incomplete_beta_cf (Z.to_nat (GCEM_INCML_BETA_MAX_ITER + 1)) a b z (ofZ f 1) (incomplete_beta_d_update a b z (ofZ f 1) 0) (incomplete_beta_d_update a b z (ofZ f 1) 0) 1 = Ok w /\ finite w = true /\ Rabs (B2R w - F1 206) <= (79400 * u + bpow radix2 (-44)) * F1 206.
Proof.
  destruct d_start as (Fd & Ed). set (d := incomplete_beta_d_update a b z (ofZ f 1) 0) in * . change 1%Z with (Z.of_nat 1) at 3. destruct (ofZ_small f 1 ltac:(lia)) as (V1 & FZ & _).
  apply (loop_ok _ 0); auto. lia. cbn [dd]. rewrite V1, Rinv_1, Rminus_diag_eq, Rabs_R0 by reflexivity. cbn. lra. unfold fb. change (INR 0) with 0. rewrite Rmult_0_r, Rplus_0_r. exact Ed.
Qed.
End C.
End A.
