(** * Properties of the integer functions (C01-C08, C11-C14).
    Each theorem is closed by a lemma proved elsewhere. *)
From Verif Require Import Base ModelElem ModelApi Spec IntProofs.
Open Scope Z_scope.

(** C01 *)
Theorem C01_gcd : forall t1 t2 a b,
  in_range t1 a -> in_range t2 b -> in_range t1 (Z.abs a) -> in_range t2 (Z.abs b) ->
  in_range (common t1 t2) (Z.abs a) -> in_range (common t1 t2) (Z.abs b) ->
  gcem_gcd (AInt t1 a) (AInt t2 b) = Ok (AInt (common t1 t2) (Z.gcd a b)).
Proof. exact api_gcd. Qed.
Print Assumptions C01_gcd.
Example C01_ex : gcem_gcd (AInt I32 (-84)) (AInt I64 36) = Ok (AInt I64 12).
Proof. apply C01_gcd; cbv; intuition discriminate. Qed.

(** C02 *)
Theorem C02_lcm : forall t1 t2 a b,
  in_range (common t1 t2) a -> in_range (common t1 t2) b ->
  in_range (common t1 t2) (Z.abs a) -> in_range (common t1 t2) (Z.abs b) ->
  (a <> 0 \/ b <> 0) -> in_range (common t1 t2) (Z.lcm a b) ->
  gcem_lcm (AInt t1 a) (AInt t2 b) = Ok (AInt (common t1 t2) (Z.lcm a b)).
Proof. exact api_lcm. Qed.
Print Assumptions C02_lcm.
Example C02_ex : gcem_lcm (AInt I32 (-1000000000)) (AInt I32 2000000000) = Ok (AInt I32 2000000000).
Proof. apply C02_lcm; cbv; intuition discriminate. Qed.

(** C03: two zeros divide by zero, whatever the types. *)
Theorem C03_lcm_zero_refuted : forall t1 t2, gcem_lcm (AInt t1 0) (AInt t2 0) = Ub UbDivZero.
Proof. exact api_lcm_zero. Qed.
Print Assumptions C03_lcm_zero_refuted.

(** C04 *)
Theorem C04_factorial : forall v n t x, 0 <= x -> in_range t x -> in_range t (zfact x) -> (0 < n)%nat ->
  gcem_factorial v n (AInt t x) = Ok (AInt t (zfact x)).
Proof. exact api_factorial. Qed.
Print Assumptions C04_factorial.
Example C04_ex : gcem_factorial Cxx14 1 (AInt I64 20) = Ok (AInt I64 2432902008176640000).
Proof. apply (C04_factorial Cxx14 1 I64 20); try (cbv; intuition discriminate). auto. Qed.

(** C05: arguments up to 20 whose factorial does not fit give the factorial
    modulo the type; every negative argument gives 20!, reduced likewise. *)
Theorem C05_factorial_wraps_refuted : forall v n t x, 0 <= x <= 20 -> (0 < n)%nat ->
  gcem_factorial v n (AInt t x) = Ok (AInt t (icast t (zfact x))).
Proof. exact api_factorial_wrap. Qed.
Print Assumptions C05_factorial_wraps_refuted.
Theorem C05_factorial_negative_refuted : forall v n t x, x < 0 -> (0 < n)%nat ->
  gcem_factorial v n (AInt t x) = Ok (AInt t (icast t (zfact 20))).
Proof. exact api_factorial_neg. Qed.
Print Assumptions C05_factorial_negative_refuted.
Example C05_ex : gcem_factorial Cxx14 1 (AInt I32 13) = Ok (AInt I32 1932053504) /\ zfact 13 = 6227020800.
Proof. split; reflexivity. Qed.
Example C05_ex' : gcem_factorial Cxx14 1 (AInt I64 (-1)) = Ok (AInt I64 2432902008176640000).
Proof. reflexivity. Qed.

(** C06 *)
Theorem C06_binomial : forall fuel t1 t2 n k c, 0 <= n -> 0 <= k ->
  in_range (common t1 t2) n -> in_range (common t1 t2) k ->
  is_choose n k c -> in_range (common t1 t2) c -> n < Z.of_nat fuel ->
  gcem_binomial_coef fuel (AInt t1 n) (AInt t2 k) = Ok (AInt (common t1 t2) c).
Proof. exact api_binomial. Qed.
Print Assumptions C06_binomial.
Example C06_ex : gcem_binomial_coef 11 (AInt I32 10) (AInt U32 4) = Ok (AInt U32 210).
Proof. apply C06_binomial; cbv; intuition discriminate. Qed.

(** C07 *)
Theorem C07_pow_int : forall v t1 t2 b e, wide t1 = true -> in_range t1 b -> in_range t2 e -> 0 <= e -> e <> imax t2 ->
  in_range t1 (b ^ e) -> in_range (common t1 t2) (b ^ e) ->
  gcem_pow v (AInt t1 b) (AInt t2 e) = Ok (AInt (common t1 t2) (b ^ e)).
Proof. exact api_pow. Qed.
Print Assumptions C07_pow_int.
Example C07_ex : gcem_pow Cxx14 (AInt I32 (-2)) (AInt I32 31) = Ok (AInt I32 (-2147483648)).
Proof. apply (C07_pow_int Cxx14 I32 I32 (-2) 31); cbv; intuition discriminate. Qed.

(** C08 *)
Theorem C08_pow_int_neg : forall v t1 t2 b e, wide t1 = true -> isigned t2 = true -> in_range t1 b -> in_range t2 e ->
  e < 0 -> e <> imin t2 -> - e <> imax (promote t2) -> b <> 0 ->
  in_range t1 (b ^ (- e)) -> in_range (common t1 t2) (Z.quot 1 (b ^ (- e))) ->
  gcem_pow v (AInt t1 b) (AInt t2 e) = Ok (AInt (common t1 t2) (Z.quot 1 (b ^ (- e)))).
Proof. exact api_pow_neg. Qed.
Print Assumptions C08_pow_int_neg.
Theorem C08_pow_zero_neg : forall v t1 t2 e, wide t1 = true -> isigned t2 = true -> in_range t2 e -> e < 0 -> e <> imin t2 ->
  gcem_pow v (AInt t1 0) (AInt t2 e) = Ub UbDivZero.
Proof. exact api_pow_0_neg. Qed.
Print Assumptions C08_pow_zero_neg.
Example C08_ex : gcem_pow Cxx14 (AInt I32 (-1)) (AInt I32 (-7)) = Ok (AInt I32 (-1)).
Proof. apply (C08_pow_int_neg Cxx14 I32 I32 (-1) (-7)); cbv; intuition discriminate. Qed.
Example C08_ex' : gcem_pow Cxx14 (AInt I32 0) (AInt I16 (-7)) = Ub UbDivZero.
Proof. apply C08_pow_zero_neg; cbv; intuition discriminate. Qed.

(** C11, integral base *)
Theorem C11_pow_max_refuted : forall v t1 t2 b,
  gcem_pow v (AInt t1 b) (AInt t2 (imax t2)) = Ok (AInt (common t1 t2) 0).
Proof. exact api_pow_imax. Qed.
Print Assumptions C11_pow_max_refuted.
Theorem C11_pow_min_refuted : forall v t1 t2 b, isigned t2 = true ->
  gcem_pow v (AInt t1 b) (AInt t2 (imin t2)) = Ok (AInt (common t1 t2) 0).
Proof. exact api_pow_imin. Qed.
Print Assumptions C11_pow_min_refuted.
Example C11_ex : gcem_pow Cxx14 (AInt I32 1) (AInt I8 127) = Ok (AInt I32 0).
Proof. reflexivity. Qed.

(** C12 *)
Theorem C12_abs_int : forall t x, in_range t x -> in_range t (Z.abs x) ->
  gcem_abs (AInt t x) = Ok (AInt t (Z.abs x)).
Proof. exact api_abs. Qed.
Print Assumptions C12_abs_int.
Theorem C12_abs_int_min : forall t, isigned t = true ->
  gcem_abs (AInt t (imin t)) = if wide t then Ub UbOverflow else Ok (AInt t (imin t)).
Proof. exact api_abs_min. Qed.
Print Assumptions C12_abs_int_min.
Theorem C12_sgn_int : forall t x, gcem_sgn (AInt t x) = Z.sgn x.
Proof. exact api_sgn. Qed.
Print Assumptions C12_sgn_int.
Example C12_ex : gcem_abs (AInt I8 (-127)) = Ok (AInt I8 127).
Proof. apply C12_abs_int; cbv; intuition discriminate. Qed.

(** C13 *)
Theorem C13_max_int : forall t1 t2 x y, in_range (common t1 t2) x -> in_range (common t1 t2) y ->
  gcem_max (AInt t1 x) (AInt t2 y) = AInt (common t1 t2) (Z.max x y).
Proof. exact api_max. Qed.
Print Assumptions C13_max_int.
Theorem C13_min_int : forall t1 t2 x y, in_range (common t1 t2) x -> in_range (common t1 t2) y ->
  gcem_min (AInt t1 x) (AInt t2 y) = AInt (common t1 t2) (Z.min x y).
Proof. exact api_min. Qed.
Print Assumptions C13_min_int.
Example C13_ex : gcem_max (AInt U8 200) (AInt I32 (-5)) = AInt I32 200.
Proof. apply C13_max_int; cbv; intuition discriminate. Qed.

(** C14: a negative operand is compared (and returned) as its value plus 2^32. *)
Theorem C14_max_mixed_refuted : forall a b, in_range I32 a -> in_range U32 b -> a < 0 ->
  gcem_max (AInt I32 a) (AInt U32 b) = AInt U32 (Z.max (a + 2 ^ 32) b).
Proof. exact api_max_mixed. Qed.
Print Assumptions C14_max_mixed_refuted.
Theorem C14_min_mixed_refuted : forall a b, in_range I32 a -> in_range U32 b -> a < 0 ->
  gcem_min (AInt I32 a) (AInt U32 b) = AInt U32 (Z.min (a + 2 ^ 32) b).
Proof. exact api_min_mixed. Qed.
Print Assumptions C14_min_mixed_refuted.
Example C14_ex : gcem_max (AInt I32 (-1)) (AInt U32 1) = AInt U32 4294967295.
Proof. reflexivity. Qed.
