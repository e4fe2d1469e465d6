(** * Directed bounds in primitive floating-point arithmetic.
    [ub h r]: the primitive float [h] is an upper bound of the real [r] (NaN and
    +infinity mean no bound); [lb l r] dually. The operations are those of
    Interval's [PrimitiveFloat]; no interval functor is used. *)
From Coq Require Import ZArith Reals Lra Psatz PrimFloat.
From Flocq Require Import Core.
From Interval Require Import Xreal Basic Sig Primitive_ops.
Open Scope R_scope.

Notation pf := PrimFloat.float.
Definition pr : PrimitiveFloat.precision := 53%Z.
Definition au (x y : pf) : pf := PrimitiveFloat.add_UP pr x y.
Definition ad (x y : pf) : pf := PrimitiveFloat.add_DN pr x y.
Definition su (x y : pf) : pf := PrimitiveFloat.sub_UP pr x y.
Definition sd (x y : pf) : pf := PrimitiveFloat.sub_DN pr x y.
Definition mu (x y : pf) : pf := PrimitiveFloat.mul_UP pr x y.
Definition md (x y : pf) : pf := PrimitiveFloat.mul_DN pr x y.
Definition du (x y : pf) : pf := PrimitiveFloat.div_UP pr x y.
Definition dd (x y : pf) : pf := PrimitiveFloat.div_DN pr x y.
Definition rv (x : pf) : R := PrimitiveFloat.toR x.
Definition isr (x : pf) : bool := PrimitiveFloat.real x.
Definition ub (h : pf) (r : R) : Prop := PrimitiveFloat.valid_ub h = true /\ le_upper (Xreal r) (PrimitiveFloat.toX h).
Definition lb (l : pf) (r : R) : Prop := PrimitiveFloat.valid_lb l = true /\ le_lower (PrimitiveFloat.toX l) (Xreal r).

Lemma real_toX x : isr x = true -> PrimitiveFloat.toX x = Xreal (rv x).
Proof. unfold isr, rv, PrimitiveFloat.toR. rewrite PrimitiveFloat.real_correct. destruct (PrimitiveFloat.toX x); [discriminate|reflexivity]. Qed.
Lemma toX_real x r : PrimitiveFloat.toX x = Xreal r -> isr x = true /\ rv x = r.
Proof. intros H. unfold isr, rv, PrimitiveFloat.toR. rewrite PrimitiveFloat.real_correct, H. auto. Qed.
Lemma real_vub x : isr x = true -> PrimitiveFloat.valid_ub x = true.
Proof.
  intros H. rewrite PrimitiveFloat.valid_ub_correct. pose proof (PrimitiveFloat.classify_correct x) as C. unfold isr in H. rewrite H in C. destruct (PrimitiveFloat.classify x); auto; discriminate.
Qed.
Lemma real_vlb x : isr x = true -> PrimitiveFloat.valid_lb x = true.
Proof.
  intros H. rewrite PrimitiveFloat.valid_lb_correct. pose proof (PrimitiveFloat.classify_correct x) as C. unfold isr in H. rewrite H in C. destruct (PrimitiveFloat.classify x); auto; discriminate.
Qed.
Lemma ub_intro h r : isr h = true -> r <= rv h -> ub h r.
Proof. intros H L. split. apply real_vub; auto. rewrite real_toX by auto. exact L. Qed.
Lemma lb_intro h r : isr h = true -> rv h <= r -> lb h r.
Proof. intros H L. split. apply real_vlb; auto. rewrite real_toX by auto. cbn. lra. Qed.
Lemma ub_elim h r : ub h r -> isr h = true -> r <= rv h.
Proof. intros (_ & H) L. rewrite real_toX in H by auto. exact H. Qed.
Lemma lb_elim h r : lb h r -> isr h = true -> rv h <= r.
Proof. intros (_ & H) L. rewrite real_toX in H by auto. cbn in H. lra. Qed.
Lemma ub_le h r s : ub h r -> s <= r -> ub h s.
Proof. intros (V & H) L. split; auto. destruct (PrimitiveFloat.toX h); cbn in * ; auto; lra. Qed.
Lemma lb_le h r s : lb h r -> r <= s -> lb h s.
Proof. intros (V & H) L. split; auto. destruct (PrimitiveFloat.toX h); cbn in * ; auto; lra. Qed.

Lemma ub_add a b x y : ub a x -> ub b y -> ub (au a b) (x + y).
Proof.
  intros (Va & Ha) (Vb & Hb). destruct (PrimitiveFloat.add_UP_correct pr a b Va Vb) as (V & H). split; auto. fold (au a b) in * .
  destruct (PrimitiveFloat.toX a), (PrimitiveFloat.toX b), (PrimitiveFloat.toX (au a b)); cbn in * ; auto; try contradiction; lra.
Qed.
Lemma lb_add a b x y : lb a x -> lb b y -> lb (ad a b) (x + y).
Proof.
  intros (Va & Ha) (Vb & Hb). destruct (PrimitiveFloat.add_DN_correct pr a b Va Vb) as (V & H). split; auto. fold (ad a b) in * .
  destruct (PrimitiveFloat.toX a), (PrimitiveFloat.toX b), (PrimitiveFloat.toX (ad a b)); cbn in * ; auto; try contradiction; lra.
Qed.
Lemma ub_sub a b x y : ub a x -> lb b y -> ub (su a b) (x - y).
Proof.
  intros (Va & Ha) (Vb & Hb). destruct (PrimitiveFloat.sub_UP_correct pr a b Va Vb) as (V & H). split; auto. fold (su a b) in * .
  destruct (PrimitiveFloat.toX a), (PrimitiveFloat.toX b), (PrimitiveFloat.toX (su a b)); cbn in * ; auto; try contradiction; lra.
Qed.
Lemma lb_sub a b x y : lb a x -> ub b y -> lb (sd a b) (x - y).
Proof.
  intros (Va & Ha) (Vb & Hb). destruct (PrimitiveFloat.sub_DN_correct pr a b Va Vb) as (V & H). split; auto. fold (sd a b) in * .
  destruct (PrimitiveFloat.toX a), (PrimitiveFloat.toX b), (PrimitiveFloat.toX (sd a b)); cbn in * ; auto; try contradiction; lra.
Qed.
Lemma ub_nonneg a x : 0 <= x -> ub a x -> PrimitiveFloat.is_non_neg a.
Proof. intros H (V & U). split; auto. destruct (PrimitiveFloat.toX a); cbn in * ; auto. lra. Qed.
Lemma ub_mul a b x y : 0 <= x -> 0 <= y -> ub a x -> ub b y -> ub (mu a b) (x * y).
Proof.
  intros Hx Hy Ha Hb. destruct (PrimitiveFloat.mul_UP_correct pr a b) as (V & H). { left. split; [apply ub_nonneg with x|apply ub_nonneg with y]; auto. } split; auto. fold (mu a b) in * .
  destruct Ha as (_ & Ha), Hb as (_ & Hb).
  destruct (PrimitiveFloat.toX a), (PrimitiveFloat.toX b), (PrimitiveFloat.toX (mu a b)); cbn in * ; auto; try contradiction. nra.
Qed.
(** Known lower bounds. *)
Definition nonneg (x : pf) : bool := match PrimitiveFloat.cmp x 0%float with Xgt | Xeq => PrimitiveFloat.real x | _ => false end.
Definition pos (x : pf) : bool := match PrimitiveFloat.cmp x 0%float with Xgt => PrimitiveFloat.real x | _ => false end.
Definition ltF (x y : pf) : bool := match PrimitiveFloat.cmp x y with Xlt => PrimitiveFloat.real x && PrimitiveFloat.real y | _ => false end.
Lemma cmp_real x y : PrimitiveFloat.real x = true -> PrimitiveFloat.real y = true -> PrimitiveFloat.cmp x y = Xcmp (PrimitiveFloat.toX x) (PrimitiveFloat.toX y).
Proof.
  intros Hx Hy. rewrite PrimitiveFloat.cmp_correct. pose proof (PrimitiveFloat.classify_correct x) as Cx. pose proof (PrimitiveFloat.classify_correct y) as Cy. rewrite Hx in Cx. rewrite Hy in Cy.
  destruct (PrimitiveFloat.classify x); try discriminate. destruct (PrimitiveFloat.classify y); try discriminate. reflexivity.
Qed.
Lemma zero_val : PrimitiveFloat.toX 0%float = Xreal 0.
Proof. exact PrimitiveFloat.zero_correct. Qed.
Lemma nonneg_ok x : nonneg x = true -> isr x = true /\ 0 <= rv x.
Proof.
  unfold nonneg. intros H. assert (Rx : PrimitiveFloat.real x = true) by (destruct (PrimitiveFloat.cmp x 0%float); auto; discriminate). split. exact Rx.
  rewrite cmp_real in H by (auto; reflexivity). rewrite zero_val, (real_toX x Rx) in H. cbn in H. destruct (Rcompare_spec (rv x) 0); try discriminate; lra.
Qed.
Lemma pos_ok x : pos x = true -> isr x = true /\ 0 < rv x.
Proof.
  unfold pos. intros H. assert (Rx : PrimitiveFloat.real x = true) by (destruct (PrimitiveFloat.cmp x 0%float); auto; discriminate). split. exact Rx.
  rewrite cmp_real in H by (auto; reflexivity). rewrite zero_val, (real_toX x Rx) in H. cbn in H. destruct (Rcompare_spec (rv x) 0); try discriminate; lra.
Qed.
Lemma ltF_ok x y : ltF x y = true -> isr x = true /\ isr y = true /\ rv x < rv y.
Proof.
  unfold ltF. intros H. assert (R2 : andb (PrimitiveFloat.real x) (PrimitiveFloat.real y) = true) by (destruct (PrimitiveFloat.cmp x y); auto; discriminate).
  apply andb_prop in R2 as (Rx & Ry). split; [exact Rx|]. split; [exact Ry|].
  rewrite cmp_real in H by auto. rewrite (real_toX x Rx), (real_toX y Ry) in H. cbn in H. destruct (Rcompare_spec (rv x) (rv y)); try discriminate; lra.
Qed.
Lemma ub_div a b x y : 0 <= x -> ub a x -> pos b = true -> rv b <= y -> ub (du a b) (x / y).
Proof.
  intros Hx Ha Pb Lb. destruct (pos_ok _ Pb) as (Rb & B0). assert (Tb := real_toX _ Rb).
  destruct (PrimitiveFloat.div_UP_correct pr a b) as (V & H). { left. split. apply ub_nonneg with x; auto. unfold PrimitiveFloat.is_pos_real. rewrite Tb. exact B0. }
  split; auto. fold (du a b) in * . destruct Ha as (_ & Ha). rewrite Tb in H.
  destruct (PrimitiveFloat.toX a), (PrimitiveFloat.toX (du a b)); cbn in * ; auto; try contradiction.
  unfold Xdiv' in H. cbn in H. destruct (is_zero_spec (rv b)); [lra|]. cbn in H. eapply Rle_trans; [|exact H].
  unfold Rdiv. apply Rmult_le_compat; auto. left; apply Rinv_0_lt_compat; lra. apply Rinv_le; lra.
Qed.
(** Lower bound of a product with a non-negative factor. *)
Lemma lb_mul a b x y : nonneg a = true -> nonneg b = true -> rv a <= x -> rv b <= y -> lb (md a b) (x * y).
Proof.
  intros Na Nb Lx Ly. destruct (nonneg_ok _ Na) as (Ra & A0). destruct (nonneg_ok _ Nb) as (Rb & B0).
  assert (Ta := real_toX _ Ra). assert (Tb := real_toX _ Rb).
  destruct (PrimitiveFloat.mul_DN_correct pr a b) as (V & H). { left. unfold PrimitiveFloat.is_non_neg_real. rewrite Ta, Tb. auto. }
  split; auto. fold (md a b) in * . rewrite Ta, Tb in H. destruct (PrimitiveFloat.toX (md a b)); cbn in * ; auto. nra.
Qed.
Lemma lb_div a b x y : nonneg a = true -> rv a <= x -> isr b = true -> 0 < y -> y <= rv b -> lb (dd a b) (x / y).
Proof.
  intros Na Lx Rb Py Ly. destruct (nonneg_ok _ Na) as (Ra & A0). assert (Ta := real_toX _ Ra). assert (Tb := real_toX _ Rb).
  destruct (PrimitiveFloat.div_DN_correct pr a b) as (V & H). { right; right; left. unfold PrimitiveFloat.is_non_neg_real, PrimitiveFloat.is_pos_real. rewrite Ta, Tb. split; lra. }
  split; auto. fold (dd a b) in * . rewrite Ta, Tb in H. destruct (PrimitiveFloat.toX (dd a b)); cbn in * ; auto.
  unfold Xdiv' in H. cbn in H. destruct (is_zero_spec (rv b)); [lra|]. cbn in H. apply Ropp_le_contravar.
  apply Ropp_le_cancel in H. eapply Rle_trans; [exact H|]. unfold Rdiv. apply Rmult_le_compat; auto. left; apply Rinv_0_lt_compat; lra. apply Rinv_le; lra.
Qed.
Definition ng (x : pf) : pf := (- x)%float.
Lemma ng_toX x : PrimitiveFloat.toX (ng x) = Xneg (PrimitiveFloat.toX x).
Proof. apply PrimitiveFloat.toX_neg. Qed.
Lemma ng_real x : isr x = true -> isr (ng x) = true /\ rv (ng x) = - rv x.
Proof. intros H. apply toX_real. rewrite ng_toX, (real_toX _ H). reflexivity. Qed.
Definition mx (x y : pf) : pf := match PrimitiveFloat.cmp x y with Xlt => y | _ => x end.
Lemma mx_ok x y : isr x = true -> isr y = true -> isr (mx x y) = true /\ rv (mx x y) = Rmax (rv x) (rv y).
Proof.
  intros Hx Hy. unfold mx. rewrite cmp_real by auto. rewrite (real_toX x Hx), (real_toX y Hy). cbn.
  destruct (Rcompare_spec (rv x) (rv y)); split; auto; unfold Rmax; destruct Rle_dec; lra.
Qed.
Lemma rv0 : rv 0%float = 0.
Proof. apply toX_real, zero_val. Qed.
Lemma lb_mx0 l r : 0 <= r -> lb l r -> lb (mx 0 l) r.
Proof.
  intros H L. unfold mx. destruct (PrimitiveFloat.cmp 0 l); auto; apply lb_intro; auto; replace (rv 0%float) with 0; auto;
  symmetry; apply rv0.
Qed.
Lemma lb_ng a x : ub a x -> lb (ng a) (- x).
Proof.
  intros (V & H). split.
  - destruct (isr a) eqn:Ra. apply real_vlb, ng_real; auto.
    rewrite PrimitiveFloat.valid_lb_correct. rewrite PrimitiveFloat.valid_ub_correct in V. pose proof (PrimitiveFloat.neg_correct a) as N.
    pose proof (PrimitiveFloat.classify_correct a) as C. unfold isr in Ra. rewrite Ra in C.
    unfold ng. change (- a)%float with (PrimitiveFloat.neg a). destruct (PrimitiveFloat.classify a); try discriminate; rewrite N; reflexivity.
  - rewrite ng_toX. destruct (PrimitiveFloat.toX a); cbn in * ; auto. lra.
Qed.
Lemma ub_ng a x : lb a x -> ub (ng a) (- x).
Proof.
  intros (V & H). split.
  - destruct (isr a) eqn:Ra. apply real_vub, ng_real; auto.
    rewrite PrimitiveFloat.valid_ub_correct. rewrite PrimitiveFloat.valid_lb_correct in V. pose proof (PrimitiveFloat.neg_correct a) as N.
    pose proof (PrimitiveFloat.classify_correct a) as C. unfold isr in Ra. rewrite Ra in C.
    unfold ng. change (- a)%float with (PrimitiveFloat.neg a). destruct (PrimitiveFloat.classify a); try discriminate; rewrite N; reflexivity.
  - rewrite ng_toX. destruct (PrimitiveFloat.toX a); cbn in * ; auto.
Qed.
Lemma nonneg_false a : isr a = true -> nonneg a = false -> rv a < 0.
Proof.
  unfold nonneg. intros H. rewrite cmp_real by (auto; reflexivity). rewrite zero_val, (real_toX a H). cbn [Xcmp].
  destruct (Rcompare_spec (rv a) 0); auto; intros Q; unfold isr in H; rewrite H in Q; discriminate.
Qed.
Lemma nonneg_intro a : isr a = true -> 0 <= rv a -> nonneg a = true.
Proof.
  intros H L. unfold nonneg. rewrite cmp_real by (auto; reflexivity). rewrite zero_val, (real_toX a H). cbn [Xcmp].
  destruct (Rcompare_spec (rv a) 0); auto. lra.
Qed.
Definition ofZd (z : Z) : pf := PrimitiveFloat.fromZ_DN pr z.
Definition ofZu (z : Z) : pf := PrimitiveFloat.fromZ_UP pr z.
Lemma ofZd_ok z : lb (ofZd z) (IZR z).
Proof. exact (PrimitiveFloat.fromZ_DN_correct pr z). Qed.
Lemma ofZu_ok z : ub (ofZu z) (IZR z).
Proof. exact (PrimitiveFloat.fromZ_UP_correct pr z). Qed.
(** Literals. *)
Lemma lit x m e : PrimitiveFloat.toF x = Float false m e -> isr x = true /\ rv x = IZR (Zpos m) * bpow radix2 e.
Proof.
  intros H. apply toX_real. unfold PrimitiveFloat.toX. rewrite H. cbn [FtoX]. f_equal. unfold FtoR. destruct e; cbn [bpow]; auto. ring.
  rewrite mult_IZR. reflexivity.
Qed.
(** Integers below 2^53 are exact. *)
Lemma P53 : (2 ^ 53)%positive = 9007199254740992%positive.
Proof. vm_compute. reflexivity. Qed.
Lemma pos_lt q n : (Zpos q < Zpos n)%Z -> (q < n)%positive.
Proof. intros H. exact H. Qed.
Lemma ofZ_toX z : (Z.abs z < 9007199254740992)%Z -> PrimitiveFloat.toX (ofZd z) = Xreal (IZR z) /\ PrimitiveFloat.toX (ofZu z) = Xreal (IZR z).
Proof.
  intros H. unfold ofZd, ofZu, PrimitiveFloat.fromZ_DN, PrimitiveFloat.fromZ_UP. destruct z as [|q|q].
  - split; exact PrimitiveFloat.zero_correct.
  - assert (L : (q < 9007199254740992)%positive) by (apply pos_lt; assumption). rewrite (proj2 (Pos.compare_lt_iff _ _) L).
    rewrite PrimitiveFloat.of_int63_of_pos_exact by (rewrite P53; exact L). auto.
  - assert (L : (q < 9007199254740992)%positive) by (apply pos_lt; assumption). rewrite (proj2 (Pos.compare_lt_iff _ _) L).
    pose proof (PrimitiveFloat.toX_neg (of_uint63 (Uint63.of_pos q))) as N. rewrite PrimitiveFloat.of_int63_of_pos_exact in N by (rewrite P53; exact L).
    rewrite N. cbn. auto.
Qed.
Lemma ofZ_val z : (Z.abs z < 9007199254740992)%Z -> (isr (ofZd z) = true /\ rv (ofZd z) = IZR z) /\ (isr (ofZu z) = true /\ rv (ofZu z) = IZR z).
Proof. intros H. destruct (ofZ_toX z H). split; apply toX_real; auto. Qed.
