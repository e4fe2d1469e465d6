(** * lmgamma with a floating-point second argument (C138). *)
From Verif Require Import Base ModelBasic ModelInt ModelElem ModelSpecial ModelApi ModelMore Spec FltLemmas LmgammaFlt.
From Coq Require Import Lra.
Open Scope R_scope.

(** C138: an integer-valued floating-point order gives the result of the integer order *)
Theorem C138_lmgamma_floating_order : forall v n f g (a : flt f) (p : flt g) k, (prec g <= prec f)%Z -> finite p = true -> B2R p = IZR k -> (1 <= k <= 16777216)%Z ->
  gcem_lmgamma_flt v n (AFlt f a) p = gcem_lmgamma v n (AFlt f a) k.
Proof. exact api_lmg_int. Qed.
Print Assumptions C138_lmgamma_floating_order.
(** C138: an order that is not an integer is a domain error; the recursion is no deeper than the order *)
Theorem C138_lmgamma_non_integer_order : forall v n f g (a : flt f) (p : flt g), finite p = true -> (forall k, B2R p <> IZR k) -> B2R p < INR n -> (0 < n)%nat ->
  gcem_lmgamma_flt v n (AFlt f a) p = Ok B754_nan.
Proof. exact api_lmg_nonint. Qed.
Print Assumptions C138_lmgamma_non_integer_order.
Theorem C138_lmgamma_order_below_one : forall v n f g (a : flt f) (p : flt g), finite p = true -> B2R p < 1 -> gcem_lmgamma_flt v (S n) (AFlt f a) p = Ok B754_nan.
Proof. exact api_lmg_neg. Qed.
Print Assumptions C138_lmgamma_order_below_one.
(** C138: but an order that is NaN or infinite has no value at any recursion depth *)
Theorem C138_lmgamma_nan_order_refuted : forall v n f g (a : flt f) (p : flt g), is_nan a = false -> p = B754_nan \/ p = B754_infinity false -> gcem_lmgamma_flt v n (AFlt f a) p = NoFuel.
Proof. exact api_lmg_loop. Qed.
Print Assumptions C138_lmgamma_nan_order_refuted.
Example C138_ex : gcem_lmgamma_flt Cxx14 5 (AFlt F64 (ofZ F64 4)) (ofZ F32 3) = gcem_lmgamma Cxx14 5 (AFlt F64 (ofZ F64 4)) 3.
Proof. destruct (ofZ_small F32 3 ltac:(lia)) as (V & F & _). apply (C138_lmgamma_floating_order _ _ F64 F32 _ _ 3); [discriminate|exact F|exact V|lia]. Qed.
Example C138_ex2 : gcem_lmgamma_flt Cxx11 3 (AFlt F32 (ofZ F32 4)) (dec F64 25 1) = Ok B754_nan.
Proof.
  assert (V : B2R (dec F64 25 1) = 5 / 2). { replace (dec F64 25 1) with (BinarySingleNaN.SF2B (prec := prec F64) (emax := emax F64) (B2SF (dec F64 25 1)) ltac:(vm_compute; reflexivity)) by apply SF2B_B2SF. rewrite B2R_SF2B. vm_compute B2SF. unfold SF2R, F2R. cbn. lra. }
  apply C138_lmgamma_non_integer_order. vm_compute; reflexivity. intros k E. rewrite V in E. assert (H : IZR 5 = IZR (2 * k)) by (rewrite mult_IZR; lra). apply eq_IZR in H. lia. rewrite V. cbn. lra. lia.
Qed.
Example C138_ex3 : gcem_lmgamma_flt Cxx14 100 (AFlt F64 (ofZ F64 4)) (B754_nan : flt F64) = NoFuel.
Proof. apply C138_lmgamma_nan_order_refuted; [vm_compute; reflexivity|left; reflexivity]. Qed.
