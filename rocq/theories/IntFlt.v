(** * gcd, lcm and binomial_coef of integer-valued floating-point arguments; overflow of binomial_coef *)
From Verif Require Import Base ModelBasic ModelInt ModelElem ModelApi FltLemmas Spec IntProofs BasicProofs ConvLemmas MiscProofs.
From Coq Require Import Lra Psatz Znumtheory Zpow_facts.
Open Scope R_scope.

(** ** A divisor of a representable integer is representable *)
Lemma div_fmt f a d : a <> 0%Z -> (0 < d)%Z -> (d | a)%Z -> generic_format radix2 (fexpf f) (IZR a) -> generic_format radix2 (fexpf f) (IZR d).
Proof.
  intros A D0 D G. destruct (FLT_format_generic radix2 (emin f) (prec f) _ G) as [[m e] E M Em]. cbn [Fnum Fexp] in M, Em. unfold F2R in E. cbn [Fnum Fexp] in E.
  change (radix2 ^ prec f)%Z with (2 ^ prec f)%Z in M. destruct (Z_le_gt_dec e 0) as [L|L].
  - apply fmt_IZR. assert (LE : (Z.abs d <= Z.abs a)%Z). { apply Z.divide_abs_r in D. rewrite (Z.abs_eq d) by lia. apply Z.divide_pos_le; [lia|exact D]. }
    assert (AM : (Z.abs a <= Z.abs m)%Z). { apply le_IZR. rewrite !abs_IZR, E, Rabs_mult, (Rabs_pos_eq (bpow _ _)) by apply bpow_ge_0. assert (B : bpow radix2 e <= 1) by (change 1 with (bpow radix2 0); apply bpow_le; lia). assert (0 <= Rabs (IZR m)) by apply Rabs_pos. assert (Rabs (IZR m) * bpow radix2 e <= Rabs (IZR m) * 1) by (apply Rmult_le_compat_l; auto). lra. }
    lia.
  - assert (EA : a = (m * 2 ^ e)%Z). { apply eq_IZR. rewrite mult_IZR, E. f_equal. rewrite (IZR_Zpower radix2) by lia. reflexivity. }
    assert (P2 : (0 < 2 ^ e)%Z) by (apply Z.pow_pos_nonneg; lia). set (g := Z.gcd d (2 ^ e)). assert (g0 : (0 < g)%Z). { assert (0 <= g)%Z by apply Z.gcd_nonneg. assert (g <> 0)%Z. { intros K. apply Z.gcd_eq_0_l in K. lia. } lia. }
    destruct (Zdivide_power_2 g 2 e) as (j & Ej); [lia|lia|apply prime_2|apply Z.gcd_divide_r|].
    assert (j0 : (0 <= j)%Z). { destruct (Z_lt_le_dec j 0) as [K|K]; auto. rewrite Z.pow_neg_r in Ej by lia. lia. }
    destruct (Z.gcd_divide_l d (2 ^ e)) as (q & Eq). fold g in Eq. destruct (Z.gcd_divide_r d (2 ^ e)) as (r & Er). fold g in Er.
    assert (C : Z.gcd q r = 1%Z). { assert (K := Z.gcd_div_gcd d (2 ^ e) g ltac:(lia) eq_refl). rewrite Eq in K at 1. rewrite Er in K at 1. rewrite !Z.div_mul in K by lia. exact K. }
    assert (QM : (q | m)%Z). { apply Z.gauss with r; [|exact C]. destruct D as (z & Ez). exists z. apply Z.mul_reg_r with g. lia. rewrite EA, Er in Ez. rewrite Eq in Ez at 1. lia. }
    assert (m0 : m <> 0%Z) by (intros ->; lia). assert (q0 : (0 < q)%Z) by nia. assert (QL : (Z.abs q <= Z.abs m)%Z). { apply Z.divide_abs_r in QM. rewrite (Z.abs_eq q) by lia. apply Z.divide_pos_le; [lia|exact QM]. }
    replace (IZR d) with (F2R (Float radix2 q j)). apply fmt_F2R. lia. assert (K := emin_neg f). assert (K' := prec_pos f). lia.
    unfold F2R. cbn [Fnum Fexp]. rewrite Eq, mult_IZR, Ej. f_equal. rewrite (IZR_Zpower radix2) by lia. reflexivity.
Qed.
Lemma val_fmt {f} (x : flt f) a : has_val x (IZR a) -> generic_format radix2 (fexpf f) (IZR a).
Proof. intros (_ & V). rewrite <- V. apply fmt_format. Qed.
Lemma val_lt {f} (x : flt f) r : has_val x r -> Rabs r < bpow radix2 (emax f).
Proof. intros (_ & V). rewrite <- V. apply abs_B2R_lt_emax. Qed.
Lemma gcd_fmt f a b : generic_format radix2 (fexpf f) (IZR a) -> generic_format radix2 (fexpf f) (IZR b) -> generic_format radix2 (fexpf f) (IZR (Z.gcd a b)).
Proof.
  intros A B. destruct (Z.eq_dec a 0) as [->|Na].
  - rewrite Z.gcd_0_l, abs_IZR. apply generic_format_abs; auto.
  - apply div_fmt with a; auto. 2: apply Z.gcd_divide_l. assert (K := Z.gcd_nonneg a b). assert (Z.gcd a b <> 0)%Z; [|lia]. intros E. apply Z.gcd_eq_0_l in E. auto.
Qed.
Lemma gcd_le a b : (0 < a)%Z \/ (0 < b)%Z -> (0 <= a)%Z -> (0 <= b)%Z -> (Z.gcd a b <= Z.max a b)%Z.
Proof.
  intros H A B. destruct (Z.eq_dec a 0) as [->|Na]. rewrite Z.gcd_0_l; lia. assert (Z.gcd a b <= a)%Z; [|lia]. apply Z.divide_pos_le. lia. apply Z.gcd_divide_l.
Qed.

(** ** gcd *)
Lemma in_U64 z : (0 <= z < 2 ^ 64)%Z -> in_range U64 z.
Proof. intros H. unfold in_range, imin, imax. cbn [isigned ibits]. lia. Qed.
Lemma fcast_val {f} (x : flt f) a : has_val x (IZR a) -> (0 <= a < 2 ^ 64)%Z -> fcast U64 x = Ok a.
Proof. intros (F & V) A. rewrite fcast_ok; auto; rewrite V, Ztrunc_IZR; auto. apply in_U64; auto. Qed.
Lemma abs_val {f} (x : flt f) a : has_val x (IZR a) -> has_val (ModelBasic.abs x) (IZR (Z.abs a)).
Proof. intros (F & V). split. rewrite abs_finite; auto. rewrite abs_B2R, V, abs_IZR. reflexivity. Qed.
Lemma conv_val {f} g (x : flt f) r : wider f g -> has_val x r -> has_val (conv g x) r.
Proof. intros W (F & V). destruct (conv_exact g x W F) as (A & B & _). split; auto. rewrite A; auto. Qed.
Lemma api_gcd_flt f g (x : flt f) (y : flt g) a b : has_val x (IZR a) -> has_val y (IZR b) -> (Z.abs a < 2 ^ 64)%Z -> (Z.abs b < 2 ^ 64)%Z ->
  exists w, gcem_gcd (AFlt f x) (AFlt g y) = Ok (AFlt (fmt_max f g) w) /\ has_val w (IZR (Z.gcd a b)).
Proof.
  intros X Y A B. set (h := fmt_max f g). assert (X' := conv_val h _ _ (wider_max_l f g) (abs_val x a X)). assert (Y' := conv_val h _ _ (wider_max_r f g) (abs_val y b Y)).
  exists (ofZ h (Z.gcd a b)). split.
  - unfold gcem_gcd, abs_to_fmt. cbn [cr_fmt gcem_abs bind to_fmt]. fold h. rewrite (fcast_val _ _ X'), (fcast_val _ _ Y') by lia. cbn [bind].
    rewrite (gcd_recur_ok U64 64) by (try apply in_U64; try lia; unfold gcd_fuel; lia). cbn [bind]. rewrite Z.gcd_abs_l, Z.gcd_abs_r. reflexivity.
  - assert (G : generic_format radix2 (fexpf h) (IZR (Z.gcd a b))). { rewrite <- Z.gcd_abs_l, <- Z.gcd_abs_r. apply gcd_fmt; eapply val_fmt; eassumption. }
    destruct (ofZ_gen h (Z.gcd a b)) as (V & F & _). { rewrite rnd_id by exact G. rewrite <- abs_IZR, (Z.abs_eq _ (Z.gcd_nonneg a b)).
      apply Rlt_le_trans with (bpow radix2 65). change (bpow radix2 65) with (IZR (2 ^ 65)). apply IZR_lt. destruct (Z.eq_dec a 0) as [->|Na]. rewrite Z.gcd_0_l; lia. assert (Z.gcd a b <= Z.abs a)%Z; [|lia]. rewrite <- Z.gcd_abs_l. apply Z.divide_pos_le. lia. apply Z.gcd_divide_l. apply bpow_le. destruct h; discriminate. }
    split; auto. rewrite V. apply rnd_id. exact G.
Qed.
Lemma fcast_big {f} (x : flt f) : finite x = true -> bpow radix2 64 <= Rabs (B2R x) -> fcast U64 x = Ub UbCast.
Proof.
  intros F B. unfold fcast. rewrite F. assert (E : Btrunc x = Ztrunc (B2R x)). { apply eq_IZR. rewrite Btrunc_correct by auto with typeclass_instances. unfold round. rewrite <- round_FIX_IZR. reflexivity. }
  rewrite E. replace (in_rangeb U64 (Ztrunc (B2R x))) with false; auto. symmetry. apply not_true_iff_false. intros K. apply in_rangeb_spec in K. unfold in_range, imin, imax in K. cbn [isigned ibits] in K.
  change (bpow radix2 64) with (IZR (2 ^ 64)) in B. assert (K2 : (2 ^ 64 <= Ztrunc (Rabs (B2R x)))%Z). { rewrite <- (Ztrunc_IZR (2 ^ 64)). apply Ztrunc_le. exact B. } rewrite Ztrunc_abs in K2. lia.
Qed.
Lemma api_gcd_big f g (x : flt f) (y : flt g) : finite x = true -> bpow radix2 64 <= Rabs (B2R x) -> gcem_gcd (AFlt f x) (AFlt g y) = Ub UbCast.
Proof.
  intros F B. unfold gcem_gcd, abs_to_fmt. cbn [cr_fmt gcem_abs bind to_fmt]. set (h := fmt_max f g). destruct (conv_exact h (ModelBasic.abs x) (wider_max_l f g)) as (V & F' & _). rewrite abs_finite; auto.
  rewrite fcast_big; auto. rewrite V, abs_B2R, Rabs_Rabsolu. exact B.
Qed.

(** ** lcm *)
Lemma api_lcm_flt f g (x : flt f) (y : flt g) a b : has_val x (IZR a) -> has_val y (IZR b) -> (Z.abs a < 2 ^ 64)%Z -> (Z.abs b < 2 ^ 64)%Z -> (a <> 0 \/ b <> 0)%Z ->
  Rabs (rnd (fmt_max f g) (IZR (Z.lcm a b))) < bpow radix2 (emax (fmt_max f g)) ->
  exists w, gcem_lcm (AFlt f x) (AFlt g y) = Ok (AFlt (fmt_max f g) w) /\ has_val w (rnd (fmt_max f g) (IZR (Z.lcm a b))).
Proof.
  intros X Y A B N O. set (h := fmt_max f g) in * . assert (X' := conv_val h _ _ (wider_max_l f g) X). assert (Y' := conv_val h _ _ (wider_max_r f g) Y).
  destruct (api_gcd_flt h h (conv h x) (conv h y) a b X' Y' A B) as (d & Ed & Vd). unfold gcem_lcm. cbn [cr_fmt to_fmt]. fold h. rewrite Ed. cbn [bind to_fmt].
  assert (W : wider (fmt_max h h) h) by (destruct h; apply wider_refl). assert (D := conv_val h d _ W Vd). set (d' := conv h d) in * . set (x' := conv h x) in * . set (y' := conv h y) in * .
  exists (ModelBasic.abs (x' *. (y' /. d'))). split; auto. destruct X' as (Fx & Vx). destruct Y' as (Fy & Vy). destruct D as (Fd & VD).
  assert (g0 : (0 < Z.gcd a b)%Z). { assert (K := Z.gcd_nonneg a b). assert (Z.gcd a b <> 0)%Z; [|lia]. intros E. destruct N as [N|N]; apply N. apply Z.gcd_eq_0_l in E; auto. apply Z.gcd_eq_0_r in E; auto. }
  destruct (Z.gcd_divide_r a b) as (q & Eq). assert (Q : B2R y' / B2R d' = IZR q). { rewrite Vy, VD, Eq at 1. rewrite mult_IZR. field. apply not_0_IZR. lia. }
  assert (GQ : generic_format radix2 (fexpf h) (IZR q)).
  { destruct (Z.eq_dec b 0) as [E|E]. assert (q = 0)%Z by nia. subst q. apply generic_format_0.
    assert (GA : generic_format radix2 (fexpf h) (IZR (Z.abs q))). { apply div_fmt with b; auto. assert (q <> 0)%Z by (intros ->; lia). lia. apply Z.divide_abs_l. exists (Z.gcd a b). lia. rewrite <- Vy. apply fmt_format. }
    rewrite abs_IZR in GA. apply generic_format_abs_inv in GA. exact GA. }
  destruct (fdiv_spec y' d' Fy) as (V1 & F1). rewrite VD. apply not_0_IZR. lia. rewrite Q, rnd_id by exact GQ.
  { apply Rle_lt_trans with (Rabs (IZR b)). rewrite <- !abs_IZR. apply IZR_le. rewrite Eq, Z.abs_mul, (Z.abs_eq (Z.gcd _ _)) by lia. nia. rewrite <- Vy. apply abs_B2R_lt_emax. }
  rewrite Q, rnd_id in V1 by exact GQ. assert (L : Rabs (IZR a * IZR q) = IZR (Z.lcm a b)). { rewrite <- mult_IZR, <- abs_IZR. f_equal. unfold Z.lcm. f_equal. f_equal. symmetry. rewrite Eq at 1. apply Z.div_mul. lia. }
  destruct (fmul_spec x' (y' /. d') Fx F1) as (V2 & F2). { rewrite Vx, V1, rnd_abs, L, <- (Rabs_pos_eq (IZR (Z.lcm a b))), <- rnd_abs. exact O. apply IZR_le. apply Z.lcm_nonneg. }
  split. rewrite abs_finite; auto. rewrite abs_B2R, V2, Vx, V1, rnd_abs, L. reflexivity.
Qed.
Lemma rnd_int_rel f z : rel_err (rnd f (IZR z)) (IZR z) (bpow radix2 (- prec f)).
Proof.
  unfold rel_err. destruct (Z.eq_dec z 0) as [->|N]. rewrite rnd_0, Rminus_0_r, Rabs_R0. lra.
  destruct (rnd_rel f (IZR z)) as (e & He & ->). { apply Rle_trans with 1. change 1 with (bpow radix2 0). apply bpow_le. destruct f; discriminate. rewrite <- abs_IZR. apply IZR_le. lia. }
  replace (IZR z * (1 + e) - IZR z) with (e * IZR z) by ring. rewrite Rabs_mult. apply Rmult_le_compat_r; auto. apply Rabs_pos.
Qed.
Lemma rnd_int_ok f z : (0 <= z)%Z -> IZR z <= bpow radix2 (emax f - 1) -> Rabs (rnd f (IZR z)) < bpow radix2 (emax f).
Proof. intros Z0 B. apply rnd_lt_emax_bpow with (emax f - 1)%Z. destruct f; split; reflexivity || discriminate. rewrite Rabs_pos_eq; auto. apply IZR_le; auto. Qed.
Lemma api_lcm_near f g (x : flt f) (y : flt g) a b : has_val x (IZR a) -> has_val y (IZR b) -> (Z.abs a < 2 ^ 64)%Z -> (Z.abs b < 2 ^ 64)%Z -> (a <> 0 \/ b <> 0)%Z ->
  IZR (Z.lcm a b) <= bpow radix2 (emax (fmt_max f g) - 1) ->
  exists w, gcem_lcm (AFlt f x) (AFlt g y) = Ok (AFlt (fmt_max f g) w) /\ finite w = true /\ rel_err (B2R w) (IZR (Z.lcm a b)) (bpow radix2 (- prec (fmt_max f g))) /\
    ((Z.lcm a b <= 2 ^ prec (fmt_max f g))%Z -> B2R w = IZR (Z.lcm a b)).
Proof.
  intros X Y A B N L. destruct (api_lcm_flt f g x y a b X Y A B N) as (w & E & F & V). apply rnd_int_ok; auto. apply Z.lcm_nonneg. exists w. split; auto. split; auto. rewrite V. split. apply rnd_int_rel.
  intros K. apply rnd_IZR. rewrite Z.abs_eq; auto. apply Z.lcm_nonneg.
Qed.
Lemma api_lcm_zeros f s t : gcem_lcm (AFlt f (B754_zero s)) (AFlt f (B754_zero t)) = Ok (AFlt f B754_nan).
Proof.
  assert (G : forall h (w : flt h), B2SF w = SpecFloat.S754_nan -> w = B754_nan) by (intros h w; destruct w; discriminate || reflexivity).
  destruct f, s, t; vm_compute; reflexivity.
Qed.
Lemma lcm_mixed : gcem_lcm (AInt I32 (-6)) (AInt U32 4) = Ok (AInt U32 4294967284) /\ gcem_lcm (AInt I64 (-6)) (AInt U64 4) = Ok (AInt U64 18446744073709551604).
Proof. split; vm_compute; reflexivity. Qed.

(** ** binomial_coef *)
Lemma binomial_flt_gen fuel f g (x : flt f) (y : flt g) n k r : has_val x (IZR n) -> has_val y (IZR k) -> (0 <= n < 2 ^ 64)%Z -> (0 <= k < 2 ^ 64)%Z ->
  binomial_coef_recur fuel U64 n k = Ok r -> gcem_binomial_coef fuel (AFlt f x) (AFlt g y) = Ok (AFlt (fmt_max f g) (ofZ (fmt_max f g) r)).
Proof.
  intros X Y N K E. set (h := fmt_max f g). assert (X' := conv_val h _ _ (wider_max_l f g) X). assert (Y' := conv_val h _ _ (wider_max_r f g) Y). unfold gcem_binomial_coef. cbn [cr_fmt to_fmt]. fold h. rewrite (fcast_val _ _ X'), (fcast_val _ _ Y') by auto. cbn [bind]. rewrite E. reflexivity.
Qed.
Lemma api_binomial_flt fuel f g (x : flt f) (y : flt g) n k c : has_val x (IZR n) -> has_val y (IZR k) -> (0 <= n < 2 ^ 64)%Z -> (0 <= k < 2 ^ 64)%Z -> is_choose n k c -> (c < 2 ^ 64)%Z -> (n < Z.of_nat fuel)%Z ->
  exists w, gcem_binomial_coef fuel (AFlt f x) (AFlt g y) = Ok (AFlt (fmt_max f g) w) /\ finite w = true /\ rel_err (B2R w) (IZR c) (bpow radix2 (- prec (fmt_max f g))) /\
    ((c <= 2 ^ prec (fmt_max f g))%Z -> B2R w = IZR c).
Proof.
  intros X Y N K C L F. set (h := fmt_max f g). exists (ofZ h c). assert (C' := C). rewrite <- (Z2Nat.id n), <- (Z2Nat.id k) in C' by lia. apply is_choose_pascal in C'. assert (c0 : (0 <= c)%Z) by (rewrite C'; apply pascal_nonneg).
  assert (E : binomial_coef_recur fuel U64 n k = Ok c). { assert (Q := binomial_recur_ok U64 (Z.to_nat n) (Z.to_nat k) fuel). rewrite !Z2Nat.id, <- C' in Q by lia. apply Q; try apply in_U64; lia. }
  split. apply binomial_flt_gen with n k; auto. assert (CB : IZR c <= bpow radix2 (emax h - 1)). { apply Rle_trans with (bpow radix2 64). change (bpow radix2 64) with (IZR (2 ^ 64)). apply IZR_le. lia. apply bpow_le. destruct h; discriminate. }
  destruct (ofZ_gen h c (rnd_int_ok h c c0 CB)) as (V & Fv & _). split; auto. rewrite V. split. apply rnd_int_rel. intros Q. apply rnd_IZR. rewrite Z.abs_eq; auto.
Qed.
(** unsigned types wrap silently, signed types overflow *)
Lemma binomial_wrap t : isigned t = false -> forall n k fuel, in_range t (Z.of_nat n) -> in_range t (Z.of_nat k) -> (n < fuel)%nat ->
  binomial_coef_recur fuel t (Z.of_nat n) (Z.of_nat k) = Ok (pascal n k mod 2 ^ ibits t)%Z.
Proof.
  intros S. assert (P : (1 < 2 ^ ibits t)%Z) by (destruct t; reflexivity).
  induction n as [|n IH]; intros k fuel Rn Rk Hf; (destruct fuel as [|fuel]; [lia|]); cbn [binomial_coef_recur].
  - destruct k; [cbn; rewrite Z.mod_1_l by auto; reflexivity|].
    destruct (Z.eqb_spec (Z.of_nat (Datatypes.S k)) 0); [lia|]. destruct (Z.eqb_spec (Z.of_nat 0) (Z.of_nat (Datatypes.S k))); [lia|]. reflexivity.
  - destruct k as [|k]; [cbn; rewrite Z.mod_1_l by auto; reflexivity|].
    destruct (Z.eqb_spec (Z.of_nat (Datatypes.S k)) 0); [lia|]. cbn [orb].
    destruct (Z.eqb_spec (Z.of_nat (Datatypes.S n)) (Z.of_nat (Datatypes.S k))) as [E|E].
    + apply Nat2Z.inj in E. rewrite E, pascal_diag, Z.mod_1_l by auto. reflexivity.
    + destruct (Z.eqb_spec (Z.of_nat (Datatypes.S n)) 0); [lia|].
      assert (Rn' : in_range t (Z.of_nat n)) by (eapply in_range_mid; [apply (in_range_0 t)|exact Rn| lia]).
      assert (Rk' : in_range t (Z.of_nat k)) by (eapply in_range_mid; [apply (in_range_0 t)|exact Rk| lia]).
      unfold isub. replace (Z.of_nat (Datatypes.S n) - 1)%Z with (Z.of_nat n) by lia. replace (Z.of_nat (Datatypes.S k) - 1)%Z with (Z.of_nat k) by lia. rewrite !iarith_ok by auto. cbn [bind].
      rewrite !IH by (auto; lia). cbn [bind]. unfold iadd, iarith. rewrite S. f_equal. rewrite <- Zplus_mod. reflexivity.
Qed.
Lemma binomial_over t : isigned t = true -> forall n k fuel, in_range t (Z.of_nat n) -> in_range t (Z.of_nat k) -> (n < fuel)%nat -> ~ in_range t (pascal n k) ->
  binomial_coef_recur fuel t (Z.of_nat n) (Z.of_nat k) = Ub UbOverflow.
Proof.
  intros S. induction n as [|n IH]; intros k fuel Rn Rk Hf O; (destruct fuel as [|fuel]; [lia|]); cbn [binomial_coef_recur].
  - destruct k; exfalso; apply O. apply in_range_1. apply in_range_0.
  - destruct k as [|k]; [exfalso; apply O; apply in_range_1|].
    destruct (Z.eqb_spec (Z.of_nat (Datatypes.S k)) 0); [lia|]. cbn [orb].
    destruct (Z.eqb_spec (Z.of_nat (Datatypes.S n)) (Z.of_nat (Datatypes.S k))) as [E|E].
    + apply Nat2Z.inj in E. rewrite E, pascal_diag in O. exfalso; apply O; apply in_range_1.
    + destruct (Z.eqb_spec (Z.of_nat (Datatypes.S n)) 0); [lia|].
      assert (Rn' : in_range t (Z.of_nat n)) by (eapply in_range_mid; [apply (in_range_0 t)|exact Rn| lia]).
      assert (Rk' : in_range t (Z.of_nat k)) by (eapply in_range_mid; [apply (in_range_0 t)|exact Rk| lia]).
      unfold isub. replace (Z.of_nat (Datatypes.S n) - 1)%Z with (Z.of_nat n) by lia. replace (Z.of_nat (Datatypes.S k) - 1)%Z with (Z.of_nat k) by lia. rewrite !iarith_ok by auto. cbn [bind].
      assert (D : forall z, in_range t z \/ ~ in_range t z) by (intros z; unfold in_range; lia). cbn [pascal] in O.
      destruct (D (pascal n k)) as [D1|D1]; [|rewrite IH by (auto; lia); reflexivity]. rewrite binomial_recur_ok by (auto; lia). cbn [bind].
      destruct (D (pascal n (Datatypes.S k))) as [D2|D2]; [|rewrite IH by (auto; lia); reflexivity]. rewrite binomial_recur_ok by (auto; lia). cbn [bind]. apply iarith_ub; auto.
Qed.
Lemma pascal_choose n k c : (0 <= n)%Z -> (0 <= k)%Z -> is_choose n k c -> c = pascal (Z.to_nat n) (Z.to_nat k).
Proof. intros Hn Hk C. apply is_choose_pascal. rewrite !Z2Nat.id by lia. exact C. Qed.
Lemma wide_promote t : wide t = true -> promote t = t.
Proof. destruct t; discriminate || reflexivity. Qed.
(** wide signed types: the value is right or the overflow is detected *)
Lemma api_binomial_signed fuel t1 t2 n k c : let t := common t1 t2 in wide t = true -> isigned t = true -> (0 <= n)%Z -> (0 <= k)%Z -> in_range t n -> in_range t k -> is_choose n k c -> (n < Z.of_nat fuel)%Z ->
  gcem_binomial_coef fuel (AInt t1 n) (AInt t2 k) = (if (c <=? imax t)%Z then Ok (AInt t c) else Ub UbOverflow).
Proof.
  cbv zeta. intros W S N K Rn Rk C F. destruct (Z.leb_spec c (imax (common t1 t2))) as [L|L].
  - apply api_binomial; auto. assert (c0 : (0 <= c)%Z). { rewrite (pascal_choose n k c) by auto. apply pascal_nonneg. } assert (Q := in_range_0 (common t1 t2)). unfold in_range in * . lia.
  - unfold gcem_binomial_coef, binomial_coef_int. rewrite !icast_id, wide_promote by auto. assert (P := pascal_choose n k c N K C). assert (Q := binomial_over (common t1 t2) S (Z.to_nat n) (Z.to_nat k) fuel). rewrite !Z2Nat.id, <- P in Q by lia. rewrite Q; auto. lia. unfold in_range. lia.
Qed.
(** wide unsigned types: the value is reduced modulo 2^w *)
Lemma api_binomial_unsigned fuel t1 t2 n k c : let t := common t1 t2 in wide t = true -> isigned t = false -> in_range t n -> in_range t k -> is_choose n k c -> (n < Z.of_nat fuel)%Z ->
  gcem_binomial_coef fuel (AInt t1 n) (AInt t2 k) = Ok (AInt t (c mod 2 ^ ibits t)%Z).
Proof.
  cbv zeta. set (t := common t1 t2). intros W S Rn Rk C F. assert (I0 : imin t = 0%Z) by (unfold imin; rewrite S; reflexivity). assert (N : (0 <= n)%Z) by (unfold in_range in Rn; lia). assert (K : (0 <= k)%Z) by (unfold in_range in Rk; lia).
  unfold gcem_binomial_coef, binomial_coef_int. fold t. rewrite !icast_id, wide_promote by auto. assert (P := pascal_choose n k c N K C). assert (Q := binomial_wrap t S (Z.to_nat n) (Z.to_nat k) fuel). rewrite !Z2Nat.id, <- P in Q by lia. rewrite Q; auto; try lia. cbn [bind]. unfold icast. rewrite S, Z.mod_mod by (destruct t; discriminate). reflexivity.
Qed.
(** types narrower than int: computed in int, converted back *)
Lemma api_binomial_narrow fuel t1 t2 n k c : let t := common t1 t2 in wide t = false -> (0 <= n)%Z -> (0 <= k)%Z -> in_range t n -> in_range t k -> is_choose n k c -> (n < Z.of_nat fuel)%Z ->
  gcem_binomial_coef fuel (AInt t1 n) (AInt t2 k) = (if (c <=? imax I32)%Z then Ok (AInt t (icast t c)) else Ub UbOverflow).
Proof.
  cbv zeta. set (t := common t1 t2). intros W N K Rn Rk C F. assert (P := pascal_choose n k c N K C). assert (PR : promote t = I32) by (destruct t; discriminate || reflexivity).
  assert (c0 : (0 <= c)%Z) by (rewrite P; apply pascal_nonneg). assert (Rn' := in_range_promote t n Rn). assert (Rk' := in_range_promote t k Rk). rewrite PR in Rn', Rk'.
  unfold gcem_binomial_coef, binomial_coef_int. fold t. rewrite !icast_id, PR by auto. destruct (Z.leb_spec c (imax I32)) as [L|L].
  - assert (Q := binomial_recur_ok I32 (Z.to_nat n) (Z.to_nat k) fuel). rewrite !Z2Nat.id, <- P in Q by lia. rewrite Q; auto; try lia. unfold in_range. change (imin I32) with (-2147483648)%Z. lia.
  - assert (Q := binomial_over I32 eq_refl (Z.to_nat n) (Z.to_nat k) fuel). rewrite !Z2Nat.id, <- P in Q by lia. rewrite Q; auto. lia. unfold in_range. lia.
Qed.
(** floating-point arguments: computed modulo 2^64 *)
Lemma api_binomial_flt_wrap fuel f g (x : flt f) (y : flt g) n k c : has_val x (IZR n) -> has_val y (IZR k) -> (0 <= n < 2 ^ 64)%Z -> (0 <= k < 2 ^ 64)%Z -> is_choose n k c -> (n < Z.of_nat fuel)%Z ->
  exists w, gcem_binomial_coef fuel (AFlt f x) (AFlt g y) = Ok (AFlt (fmt_max f g) w) /\ finite w = true /\ B2R w = rnd (fmt_max f g) (IZR (c mod 2 ^ 64)).
Proof.
  intros X Y N K C F. set (h := fmt_max f g). set (m := (c mod 2 ^ 64)%Z). assert (M : (0 <= m < 2 ^ 64)%Z) by (apply Z.mod_pos_bound; reflexivity). exists (ofZ h m).
  assert (P := pascal_choose n k c (proj1 N) (proj1 K) C). assert (Q := binomial_wrap U64 eq_refl (Z.to_nat n) (Z.to_nat k) fuel). rewrite !Z2Nat.id, <- P in Q by lia.
  split. apply binomial_flt_gen with n k; auto. apply Q; try apply in_U64; lia.
  assert (CB : IZR m <= bpow radix2 (emax h - 1)). { apply Rle_trans with (bpow radix2 64). change (bpow radix2 64) with (IZR (2 ^ 64)). apply IZR_le. lia. apply bpow_le. destruct h; discriminate. }
  destruct (ofZ_gen h m (rnd_int_ok h m (proj1 M) CB)) as (V & Fv & _). split; auto.
Qed.
(** negative arguments *)
Lemma binomial_neg_n t : forall fuel n k r, (n < 0 < k)%Z -> in_range t n -> in_range t k -> isigned t = true -> binomial_coef_recur fuel t n k <> Ok r.
Proof.
  induction fuel as [|fuel IH]; intros n k r N Rn Rk S; cbn [binomial_coef_recur]. discriminate.
  destruct (Z.eqb_spec k 0); [lia|]. destruct (Z.eqb_spec n k); [lia|]. destruct (Z.eqb_spec n 0); [lia|]. cbn [orb].
  assert (Rk' : in_range t (k - 1)) by (apply in_range_mid with (a := 0%Z) (b := k); [apply in_range_0|auto|lia]).
  assert (D : in_range t (n - 1) \/ ~ in_range t (n - 1)) by (unfold in_range; lia). unfold isub. destruct D as [D|D].
  2:{ rewrite (iarith_ub t (n - 1)) by auto. discriminate. }
  rewrite !iarith_ok by auto. cbn [bind]. destruct (binomial_coef_recur fuel t (n - 1) (k - 1)) as [u| |] eqn:E1; try discriminate. cbn [bind].
  destruct (binomial_coef_recur fuel t (n - 1) k) as [w| |] eqn:E2; try discriminate. exfalso. revert E2. apply IH; auto. lia.
Qed.
Lemma binomial_neg_k t : forall n fuel k, in_range t (Z.of_nat n) -> (k < 0)%Z -> in_range t (k - Z.of_nat n) -> (n < fuel)%nat -> binomial_coef_recur fuel t (Z.of_nat n) k = Ok 0%Z.
Proof.
  induction n as [|n IH]; intros fuel k Rn K Rk F; (destruct fuel as [|fuel]; [lia|]); cbn [binomial_coef_recur].
  - destruct (Z.eqb_spec k 0); [lia|]. destruct (Z.eqb_spec (Z.of_nat 0) k); [lia|]. reflexivity.
  - destruct (Z.eqb_spec k 0); [lia|]. destruct (Z.eqb_spec (Z.of_nat (Datatypes.S n)) k); [lia|]. destruct (Z.eqb_spec (Z.of_nat (Datatypes.S n)) 0); [lia|]. cbn [orb].
    assert (Rn' : in_range t (Z.of_nat n)) by (eapply in_range_mid; [apply (in_range_0 t)|exact Rn| lia]).
    assert (A1 : in_range t (k - 1)) by (apply in_range_mid with (a := (k - Z.of_nat (Datatypes.S n))%Z) (b := 0%Z); [auto|apply in_range_0|lia]).
    unfold isub. replace (Z.of_nat (Datatypes.S n) - 1)%Z with (Z.of_nat n) by lia. rewrite !iarith_ok by auto. cbn [bind].
    rewrite !IH; auto; try lia. cbn [bind]. unfold iadd. apply iarith_ok. apply in_range_0.
    apply in_range_mid with (a := (k - Z.of_nat (Datatypes.S n))%Z) (b := 0%Z); [auto|apply in_range_0|lia].
    replace (k - 1 - Z.of_nat n)%Z with (k - Z.of_nat (Datatypes.S n))%Z by lia. auto.
Qed.
Lemma api_binomial_neg_n fuel t1 t2 n k r : let t := common t1 t2 in isigned t = true -> (n < 0 < k)%Z -> in_range t n -> in_range t k -> gcem_binomial_coef fuel (AInt t1 n) (AInt t2 k) <> Ok r.
Proof.
  cbv zeta. set (t := common t1 t2). intros S N Rn Rk. unfold gcem_binomial_coef, binomial_coef_int. fold t. rewrite !icast_id by auto.
  destruct (binomial_coef_recur fuel (promote t) n k) as [u| |] eqn:E; try discriminate. exfalso. revert E. apply binomial_neg_n; auto using in_range_promote. destruct t; discriminate || reflexivity.
Qed.
Lemma api_binomial_neg_k fuel t1 t2 n k : let t := common t1 t2 in (k < 0 <= n)%Z -> in_range t n -> in_range t k -> in_range (promote t) (k - n) -> (n < Z.of_nat fuel)%Z -> gcem_binomial_coef fuel (AInt t1 n) (AInt t2 k) = Ok (AInt t 0).
Proof.
  cbv zeta. set (t := common t1 t2). intros N Rn Rk Rd F. unfold gcem_binomial_coef, binomial_coef_int. fold t. rewrite !icast_id by auto. assert (Q := binomial_neg_k (promote t) (Z.to_nat n) fuel k). rewrite Z2Nat.id in Q by lia. rewrite Q; auto using in_range_promote; try lia. cbn [bind]. rewrite icast_id by apply in_range_0. reflexivity.
Qed.
