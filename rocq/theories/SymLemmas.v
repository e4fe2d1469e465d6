(** * Algebra of floating-point operations: full case analysis, commutativity, signs *)
From Coq Require Import Lra.
From Verif Require Import Base FltLemmas ConvLemmas Spec.
Open Scope R_scope.

Lemma inf_of_SF {f} (x : flt f) s : B2SF x = SpecFloat.S754_infinity s -> x = B754_infinity s.
Proof. destruct x; cbn; intros H; inversion H; reflexivity. Qed.

(** Signs and overflow of the four operations on finite operands. *)
Lemma fadd_full {f} (x y : flt f) : finite x = true -> finite y = true ->
  (Rabs (rnd f (B2R x + B2R y)) < bpow radix2 (emax f) /\
   B2R (x +. y) = rnd f (B2R x + B2R y) /\ finite (x +. y) = true /\
   Bsign (x +. y) = match Rcompare (B2R x + B2R y) 0 with Eq => Bsign x && Bsign y | Lt => true | Gt => false end) \/
  (bpow radix2 (emax f) <= Rabs (rnd f (B2R x + B2R y)) /\ x +. y = B754_infinity (Bsign x) /\ Bsign x = Bsign y).
Proof.
  intros Hx Hy. pose proof (Bplus_correct (prec f) (emax f) _ _ mode_NE x y Hx Hy) as H.
  change (round_mode mode_NE) with ZnearestE in H. fold (rnd f (B2R x + B2R y)) in H.
  change (Bplus mode_NE x y) with (x +. y) in H.
  destruct (Rlt_bool_spec (Rabs (rnd f (B2R x + B2R y))) (bpow radix2 (emax f))).
  - left. tauto.
  - right. destruct H. repeat split; auto. apply inf_of_SF. exact H.
Qed.
Lemma fsub_full {f} (x y : flt f) : finite x = true -> finite y = true ->
  (Rabs (rnd f (B2R x - B2R y)) < bpow radix2 (emax f) /\
   B2R (x -. y) = rnd f (B2R x - B2R y) /\ finite (x -. y) = true /\
   Bsign (x -. y) = match Rcompare (B2R x - B2R y) 0 with Eq => Bsign x && negb (Bsign y) | Lt => true | Gt => false end) \/
  (bpow radix2 (emax f) <= Rabs (rnd f (B2R x - B2R y)) /\ x -. y = B754_infinity (Bsign x) /\ Bsign x = negb (Bsign y)).
Proof.
  intros Hx Hy. pose proof (Bminus_correct (prec f) (emax f) _ _ mode_NE x y Hx Hy) as H.
  change (round_mode mode_NE) with ZnearestE in H. fold (rnd f (B2R x - B2R y)) in H.
  change (Bminus mode_NE x y) with (x -. y) in H.
  destruct (Rlt_bool_spec (Rabs (rnd f (B2R x - B2R y))) (bpow radix2 (emax f))).
  - left. tauto.
  - right. destruct H. repeat split; auto. apply inf_of_SF. exact H.
Qed.
Lemma fmul_full {f} (x y : flt f) : finite x = true -> finite y = true ->
  (Rabs (rnd f (B2R x * B2R y)) < bpow radix2 (emax f) /\
   B2R (x *. y) = rnd f (B2R x * B2R y) /\ finite (x *. y) = true /\ Bsign (x *. y) = xorb (Bsign x) (Bsign y)) \/
  (bpow radix2 (emax f) <= Rabs (rnd f (B2R x * B2R y)) /\ x *. y = B754_infinity (xorb (Bsign x) (Bsign y))).
Proof.
  intros Hx Hy. pose proof (Bmult_correct (prec f) (emax f) _ _ mode_NE x y) as H.
  change (round_mode mode_NE) with ZnearestE in H. fold (rnd f (B2R x * B2R y)) in H.
  change (Bmult mode_NE x y) with (x *. y) in H.
  destruct (Rlt_bool_spec (Rabs (rnd f (B2R x * B2R y))) (bpow radix2 (emax f))).
  - left. destruct H as (A & B & C). rewrite Hx, Hy in B. cbn in B. repeat split; auto.
    apply C. destruct (x *. y); try discriminate; reflexivity.
  - right. split; auto. apply inf_of_SF. exact H.
Qed.
Lemma fdiv_full {f} (x y : flt f) : finite x = true -> B2R y <> 0 ->
  (Rabs (rnd f (B2R x / B2R y)) < bpow radix2 (emax f) /\
   B2R (x /. y) = rnd f (B2R x / B2R y) /\ finite (x /. y) = true /\ Bsign (x /. y) = xorb (Bsign x) (Bsign y)) \/
  (bpow radix2 (emax f) <= Rabs (rnd f (B2R x / B2R y)) /\ x /. y = B754_infinity (xorb (Bsign x) (Bsign y))).
Proof.
  intros Hx Hy. pose proof (Bdiv_correct (prec f) (emax f) _ _ mode_NE x y Hy) as H.
  change (round_mode mode_NE) with ZnearestE in H. fold (rnd f (B2R x / B2R y)) in H.
  change (Bdiv mode_NE x y) with (x /. y) in H.
  destruct (Rlt_bool_spec (Rabs (rnd f (B2R x / B2R y))) (bpow radix2 (emax f))).
  - left. destruct H as (A & B & C). rewrite Hx in B. repeat split; auto.
    apply C. destruct (x /. y); try discriminate; reflexivity.
  - right. split; auto. apply inf_of_SF. exact H.
Qed.

Lemma fneg_sign {f} (x : flt f) : BinarySingleNaN.is_nan x = false -> Bsign (-. x) = negb (Bsign x).
Proof. destruct x; try discriminate; reflexivity. Qed.
Lemma fin_nan {f} (x : flt f) : finite x = true -> BinarySingleNaN.is_nan x = false.
Proof. destruct x; try discriminate; reflexivity. Qed.
Lemma fneg_sign_fin {f} (x : flt f) : finite x = true -> Bsign (-. x) = negb (Bsign x).
Proof. intros. apply fneg_sign, fin_nan, H. Qed.

(** ** Commutativity *)
Lemma fadd_comm {f} (x y : flt f) : x +. y = y +. x.
Proof.
  destruct (finite x) eqn:Hx; [destruct (finite y) eqn:Hy|].
  - destruct (fadd_full x y Hx Hy) as [(A & B & C & D)|(A & B & C)];
    destruct (fadd_full y x Hy Hx) as [(A' & B' & C' & D')|(A' & B' & C')]; rewrite (Rplus_comm (B2R y)) in * .
    + apply flt_inj; auto. congruence. rewrite D, D'. destruct (Rcompare _ _); auto. apply andb_comm.
    + lra.
    + lra.
    + rewrite B, B', C. reflexivity.
  - destruct y as [|[]| |]; try discriminate; destruct x as [|[]| |]; try discriminate; reflexivity.
  - destruct x as [|[]| |]; try discriminate; destruct y as [|[]| |]; try discriminate; reflexivity.
Qed.
Lemma fmul_comm {f} (x y : flt f) : x *. y = y *. x.
Proof.
  destruct (finite x) eqn:Hx; [destruct (finite y) eqn:Hy|].
  - destruct (fmul_full x y Hx Hy) as [(A & B & C & D)|(A & B)];
    destruct (fmul_full y x Hy Hx) as [(A' & B' & C' & D')|(A' & B')]; rewrite (Rmult_comm (B2R y)) in * .
    + apply flt_inj; auto. congruence. rewrite D, D'. apply xorb_comm.
    + lra.
    + lra.
    + rewrite B, B', xorb_comm. reflexivity.
  - destruct y as [|[]| |]; try discriminate; destruct x as [[]|[]| |[]]; try discriminate; reflexivity.
  - destruct x as [|[]| |]; try discriminate; destruct y as [[]|[]| |[]]; try discriminate; reflexivity.
Qed.

(** ** Signs *)
Lemma fneg_inf {f} s : -. (B754_infinity s : flt f) = B754_infinity (negb s).
Proof. reflexivity. Qed.
Lemma fmul_neg_l {f} (x y : flt f) : (-. x) *. y = -. (x *. y).
Proof.
  destruct (finite x) eqn:Hx; [destruct (finite y) eqn:Hy|].
  - assert (Hn : finite (-. x) = true) by (rewrite fneg_finite; auto).
    destruct (fmul_full x y Hx Hy) as [(A & B & C & D)|(A & B)];
    destruct (fmul_full (-. x) y Hn Hy) as [(A' & B' & C' & D')|(A' & B')];
    rewrite fneg_B2R, Ropp_mult_distr_l_reverse, rnd_opp, Rabs_Ropp in A'; try lra.
    + apply flt_inj; auto. rewrite fneg_finite; auto.
      rewrite B', !fneg_B2R, Ropp_mult_distr_l_reverse, rnd_opp. congruence.
      rewrite D', !fneg_sign_fin, D by auto. destruct (Bsign x), (Bsign y); reflexivity.
    + rewrite B, B', fneg_inf, fneg_sign_fin by auto. f_equal. destruct (Bsign x), (Bsign y); reflexivity.
  - destruct y as [|[]| |]; try discriminate; destruct x as [[]|[]| |[]]; try discriminate; reflexivity.
  - destruct x as [|[]| |]; try discriminate; destruct y as [[]|[]| |[]]; try discriminate; reflexivity.
Qed.
Lemma fmul_neg_r {f} (x y : flt f) : x *. (-. y) = -. (x *. y).
Proof. rewrite fmul_comm, fmul_neg_l, fmul_comm. reflexivity. Qed.
Lemma fmul_neg_neg {f} (x y : flt f) : (-. x) *. (-. y) = x *. y.
Proof. rewrite fmul_neg_l, fmul_neg_r, fneg_involutive. reflexivity. Qed.
Lemma B2R_0 {f} (x : flt f) : finite x = true -> B2R x = 0 -> exists s, x = B754_zero s.
Proof.
  destruct x as [s| | |s m e H]; intros F E; try discriminate; [eauto|].
  exfalso. cbn in E. apply eq_0_F2R in E. destruct s; discriminate.
Qed.
Lemma fdiv_neg_l {f} (x y : flt f) : (-. x) /. y = -. (x /. y).
Proof.
  destruct (finite x) eqn:Hx; [destruct (finite y) eqn:Hy|].
  - destruct (Req_dec (B2R y) 0) as [Z|Z].
    { destruct (B2R_0 y Hy Z) as [s ->]. destruct x as [[]| | |[]]; try discriminate; destruct s; reflexivity. }
    assert (Hn : finite (-. x) = true) by (rewrite fneg_finite; auto).
    destruct (fdiv_full x y Hx Z) as [(A & B & C & D)|(A & B)];
    destruct (fdiv_full (-. x) y Hn Z) as [(A' & B' & C' & D')|(A' & B')];
    rewrite fneg_B2R in A'; unfold Rdiv in A, A'; rewrite Ropp_mult_distr_l_reverse, rnd_opp, Rabs_Ropp in A'; try lra.
    + apply flt_inj; auto. rewrite fneg_finite; auto.
      rewrite B', !fneg_B2R. unfold Rdiv. rewrite Ropp_mult_distr_l_reverse, rnd_opp. unfold Rdiv in B. congruence.
      rewrite D', !fneg_sign_fin, D by auto. destruct (Bsign x), (Bsign y); reflexivity.
    + rewrite B, B', fneg_inf, fneg_sign_fin by auto. f_equal. destruct (Bsign x), (Bsign y); reflexivity.
  - destruct y as [|[]| |]; try discriminate; destruct x as [[]|[]| |[]]; try discriminate; reflexivity.
  - destruct x as [|[]| |]; try discriminate; destruct y as [[]|[]| |[]]; try discriminate; reflexivity.
Qed.
Lemma fdiv_neg_r {f} (x y : flt f) : x /. (-. y) = -. (x /. y).
Proof.
  destruct (finite x) eqn:Hx; [destruct (finite y) eqn:Hy|].
  - destruct (Req_dec (B2R y) 0) as [Z|Z].
    { destruct (B2R_0 y Hy Z) as [s ->]. destruct x as [[]| | |[]]; try discriminate; destruct s; reflexivity. }
    assert (Zn : B2R (-. y) <> 0) by (rewrite fneg_B2R; lra).
    destruct (fdiv_full x y Hx Z) as [(A & B & C & D)|(A & B)];
    destruct (fdiv_full x (-. y) Hx Zn) as [(A' & B' & C' & D')|(A' & B')];
    rewrite fneg_B2R in A'; replace (B2R x / - B2R y) with (- (B2R x / B2R y)) in A' by (field; auto); rewrite rnd_opp, Rabs_Ropp in A'; try lra.
    + apply flt_inj; auto. rewrite fneg_finite; auto.
      rewrite B', !fneg_B2R. replace (B2R x / - B2R y) with (- (B2R x / B2R y)) by (field; auto). rewrite rnd_opp. congruence.
      rewrite D', !fneg_sign_fin, D by auto. destruct (Bsign x), (Bsign y); reflexivity.
    + rewrite B, B', fneg_inf, fneg_sign_fin by auto. f_equal. destruct (Bsign x), (Bsign y); reflexivity.
  - destruct y as [|[]| |]; try discriminate; destruct x as [[]|[]| |[]]; try discriminate; reflexivity.
  - destruct x as [|[]| |]; try discriminate; destruct y as [[]|[]| |[]]; try discriminate; reflexivity.
Qed.
Lemma fdiv_neg_neg {f} (x y : flt f) : (-. x) /. (-. y) = x /. y.
Proof. rewrite fdiv_neg_l, fdiv_neg_r, fneg_involutive. reflexivity. Qed.

(** Subtraction is addition of the opposite. *)
Lemma fsub_fadd {f} (x y : flt f) : x -. y = x +. (-. y).
Proof.
  destruct x as [[]|[]| |[] mx ex Hx]; destruct y as [[]|[]| |[] my ey Hy]; reflexivity.
Qed.
(** Opposite of a sum, exact except for a zero sum of opposite numbers. *)
Lemma fadd_neg_neg {f} (x y : flt f) : same_num ((-. x) +. (-. y)) (-. (x +. y)).
Proof.
  destruct (finite x) eqn:Hx; [destruct (finite y) eqn:Hy|].
  - assert (Hnx : finite (-. x) = true) by (rewrite fneg_finite; auto).
    assert (Hny : finite (-. y) = true) by (rewrite fneg_finite; auto).
    assert (E : - B2R x + - B2R y = - (B2R x + B2R y)) by ring.
    destruct (fadd_full x y Hx Hy) as [(A & B & C & D)|(A & B & C)];
    destruct (fadd_full (-. x) (-. y) Hnx Hny) as [(A' & B' & C' & D')|(A' & B' & C')];
    rewrite !fneg_B2R, E, rnd_opp, Rabs_Ropp in A'; try lra.
    + assert (V : B2R (-. x +. -. y) = - B2R (x +. y)) by (rewrite B', !fneg_B2R, E, rnd_opp; congruence).
      destruct (Req_dec (B2R (x +. y)) 0) as [Z|Z].
      * right. destruct (B2R_0 _ C Z) as [s ->]. destruct (B2R_0 (-. x +. -. y) C') as [s' ->]; [lra|]. cbn. eauto.
      * left. apply flt_inj_nz; auto. rewrite fneg_finite; auto. rewrite fneg_B2R. auto. rewrite V. lra.
    + left. rewrite B, B', fneg_inf, fneg_sign_fin by auto. reflexivity.
  - left. destruct y as [|[]| |]; try discriminate; destruct x as [[]|[]| |[]]; try discriminate; reflexivity.
  - left. destruct x as [|[]| |]; try discriminate; destruct y as [[]|[]| |[]]; try discriminate; reflexivity.
Qed.
Lemma fsub_swap {f} (x y : flt f) : same_num (y -. x) (-. (x -. y)).
Proof.
  rewrite (fsub_fadd y x), (fsub_fadd x y), (fadd_comm y).
  rewrite <- (fneg_involutive y) at 1. apply fadd_neg_neg.
Qed.
(** [x - (-y)] and [x + y], [(-x) - y] and [-x + -y] *)
Lemma fsub_neg_r {f} (x y : flt f) : x -. (-. y) = x +. y.
Proof. rewrite fsub_fadd, fneg_involutive. reflexivity. Qed.

Lemma same_num_refl {f} (x : flt f) : same_num x x.
Proof. left. reflexivity. Qed.
Lemma same_num_sym {f} (x y : flt f) : same_num x y -> same_num y x.
Proof. intros [->|(s & s' & -> & ->)]; [left|right]; eauto. Qed.
Lemma same_num_trans {f} (x y z : flt f) : same_num x y -> same_num y z -> same_num x z.
Proof.
  intros [->|(s & s' & -> & ->)]; auto. intros [<-|(t & t' & H & ->)]; right; eauto.
Qed.
Lemma same_num_neg {f} (x y : flt f) : same_num x y -> same_num (-. x) (-. y).
Proof. intros [->|(s & s' & -> & ->)]; [left|right]; cbn; eauto. Qed.
Lemma same_num_div {f} (x y z : flt f) : B2R z <> 0 -> same_num x y -> same_num (x /. z) (y /. z).
Proof.
  intros Z [->|(s & s' & -> & ->)]; [left; auto|].
  destruct z as [[]| | |[]]; cbn in Z; try lra; right; destruct s, s'; cbn; eauto.
Qed.
