(** * Properties of sign, comparison and rounding functions (C15-C25). *)
From Verif Require Import Base ModelBasic ModelElem ModelApi Spec FltLemmas ConvLemmas IntProofs BasicProofs FmodProofs SignBits.
From Coq Require Import Lra.
Open Scope R_scope.

(** C15 *)
Theorem C15_floor : forall f (x : flt f), zero_or_normal x ->
  exists w n, gcem_floor (AFlt f x) = Ok w /\ has_val w (IZR n) /\ is_floor (B2R x) n.
Proof. exact @floor_ok. Qed.
Print Assumptions C15_floor.
Theorem C15_floor_nonfinite : forall f (x : flt f), finite x = false -> gcem_floor (AFlt f x) = Ok x.
Proof. exact @floor_nonfin. Qed.
Print Assumptions C15_floor_nonfinite.
Example C15_ex : exists w n, gcem_floor (AFlt F64 (dec F64 (-25) 1)) = Ok w /\ has_val w (IZR n) /\ is_floor (B2R (dec F64 (-25) 1)) n.
Proof. apply C15_floor. apply zero_or_normal_check; vm_compute; reflexivity. Qed.

(** C16 *)
Theorem C16_ceil : forall f (x : flt f), zero_or_normal x ->
  exists w n, gcem_ceil (AFlt f x) = Ok w /\ has_val w (IZR n) /\ is_ceil (B2R x) n.
Proof. exact @ceil_ok. Qed.
Print Assumptions C16_ceil.
Theorem C16_ceil_nonfinite : forall f (x : flt f), finite x = false -> gcem_ceil (AFlt f x) = Ok x.
Proof. exact @ceil_nonfin. Qed.
Print Assumptions C16_ceil_nonfinite.
Example C16_ex : exists w n, gcem_ceil (AFlt F32 (dec F32 314 2)) = Ok w /\ has_val w (IZR n) /\ is_ceil (B2R (dec F32 314 2)) n.
Proof. apply C16_ceil. apply zero_or_normal_check; vm_compute; reflexivity. Qed.

(** C17 *)
Theorem C17_trunc : forall f (x : flt f), zero_or_normal x ->
  exists w n, gcem_trunc (AFlt f x) = Ok w /\ has_val w (IZR n) /\ is_trunc (B2R x) n.
Proof. exact @trunc_ok. Qed.
Print Assumptions C17_trunc.
Theorem C17_trunc_nonfinite : forall f (x : flt f), finite x = false -> gcem_trunc (AFlt f x) = Ok x.
Proof. exact @trunc_nonfin. Qed.
Print Assumptions C17_trunc_nonfinite.
Example C17_ex : exists w n, gcem_trunc (AFlt F80 (dec F80 (-999) 1)) = Ok w /\ has_val w (IZR n) /\ is_trunc (B2R (dec F80 (-999) 1)) n.
Proof. apply C17_trunc. apply zero_or_normal_check; vm_compute; reflexivity. Qed.

(** C18 *)
Theorem C18_round : forall f (x : flt f), zero_or_normal x ->
  exists w n, gcem_round (AFlt f x) = Ok w /\ has_val w (IZR n) /\ is_round (B2R x) n.
Proof. exact @round_ok. Qed.
Print Assumptions C18_round.
Theorem C18_round_nonfinite : forall f (x : flt f), finite x = false -> gcem_round (AFlt f x) = Ok x.
Proof. exact @round_nonfinite. Qed.
Print Assumptions C18_round_nonfinite.
Example C18_ex : exists w n, gcem_round (AFlt F64 (dec F64 (-25) 1)) = Ok w /\ has_val w (IZR n) /\ is_round (B2R (dec F64 (-25) 1)) n.
Proof. apply C18_round. apply zero_or_normal_check; vm_compute; reflexivity. Qed.

(** C19: every non-zero subnormal number is returned unchanged, and is not an integer. *)
Theorem C19_subnormal_refuted : forall f (x : flt f),
  finite x = true -> B2R x <> 0 -> Rabs (B2R x) < bpow radix2 (2 - emax f) ->
  gcem_floor (AFlt f x) = Ok x /\ gcem_ceil (AFlt f x) = Ok x /\
  gcem_trunc (AFlt f x) = Ok x /\ gcem_round (AFlt f x) = Ok x /\ forall n, B2R x <> IZR n.
Proof. exact api_rounding_sub. Qed.
Print Assumptions C19_subnormal_refuted.
Example C19_ex : B2SF (dec F64 1 310) = SpecFloat.S754_finite false 20240225330731 (-1074).
Proof. vm_compute. reflexivity. Qed.

(** C20 *)
Theorem C20_rounding_integral : forall t z, in_range t z ->
  gcem_floor (AInt t z) = Ok (ofZ F64 z) /\ gcem_ceil (AInt t z) = Ok (ofZ F64 z) /\
  gcem_trunc (AInt t z) = Ok (ofZ F64 z) /\ gcem_round (AInt t z) = Ok (ofZ F64 z).
Proof. exact api_rounding_int. Qed.
Print Assumptions C20_rounding_integral.
Example C20_ex : in_range I64 (-9223372036854775807).
Proof. cbv. intuition discriminate. Qed.

(** C21 *)
Theorem C21_fmod : forall f (x y : flt f) a b, has_val x (IZR a) -> has_val y (IZR b) ->
  (Z.abs a < 2 ^ prec f)%Z -> (Z.abs b < 2 ^ prec f)%Z -> b <> 0%Z ->
  exists w, gcem_fmod (AFlt f x) (AFlt f y) = Ok w /\ has_val w (IZR (Z.rem a b)).
Proof. exact api_fmod_int. Qed.
Print Assumptions C21_fmod.
Example C21_ex : exists w, gcem_fmod (AFlt F64 (ofZ F64 (-9007199254740991))) (AFlt F64 (ofZ F64 1000)) = Ok w /\ has_val w (-991).
Proof. apply (C21_fmod F64 _ _ (-9007199254740991) 1000); try (apply ofZ_has_val); try reflexivity. discriminate. Qed.

(** C22 *)
Theorem C22_fmod_bound_refuted : exists x y w : flt F64, gcem_fmod (AFlt F64 x) (AFlt F64 y) = Ok w /\
  finite x = true /\ finite y = true /\ B2R y <> 0 /\ Rabs (B2R y) <= Rabs (B2R w).
Proof. exact api_fmod_big. Qed.
Print Assumptions C22_fmod_bound_refuted.

(** C23 *)
Theorem C23_abs_flt : forall f (x : flt f), gcem_abs (AFlt f x) = Ok (AFlt f (Babs x)).
Proof. exact api_abs_flt. Qed.
Print Assumptions C23_abs_flt.
Theorem C23_sgn_flt : forall f (x : flt f), gcem_sgn (AFlt f x) =
  match x with
  | B754_zero _ | B754_nan => 0%Z
  | B754_infinity s | B754_finite s _ _ _ => if s then (-1)%Z else 1%Z
  end.
Proof. exact api_sgn_flt. Qed.
Print Assumptions C23_sgn_flt.
Theorem C23_copysign : forall f g (x : fbits f) (y : fbits g),
  bsignbit (bcopysign x y) = bsignbit y /\ same_magnitude (bcopysign x y) x.
Proof. exact @bcopysign_ok. Qed.
Print Assumptions C23_copysign.
Theorem C23_copysign_flt : forall f g (x : flt f) (y : flt g), BinarySingleNaN.is_nan x = false ->
  Bsign (gcem_copysign x y) = Bsign y /\ (gcem_copysign x y = x \/ gcem_copysign x y = Bopp x).
Proof. exact api_copysign. Qed.
Print Assumptions C23_copysign_flt.
Example C23_ex : gcem_copysign (B754_infinity true : flt F64) (B754_zero true : flt F32) = B754_infinity true.
Proof. reflexivity. Qed.

(** C24 *)
Theorem C24_max_flt : forall f g (x : flt f) (y : flt g), is_nan x = false -> is_nan y = false ->
  exists r, gcem_max (AFlt f x) (AFlt g y) = AFlt (fmt_max f g) r /\
    (r = conv (fmt_max f g) x \/ r = conv (fmt_max f g) y) /\
    (conv (fmt_max f g) x <=. r) = true /\ (conv (fmt_max f g) y <=. r) = true.
Proof. exact api_max_flt. Qed.
Print Assumptions C24_max_flt.
Theorem C24_min_flt : forall f g (x : flt f) (y : flt g), is_nan x = false -> is_nan y = false ->
  exists r, gcem_min (AFlt f x) (AFlt g y) = AFlt (fmt_max f g) r /\
    (r = conv (fmt_max f g) x \/ r = conv (fmt_max f g) y) /\
    (r <=. conv (fmt_max f g) x) = true /\ (r <=. conv (fmt_max f g) y) = true.
Proof. exact api_min_flt. Qed.
Print Assumptions C24_min_flt.
(** The conversion to the wider type in these statements changes no value. *)
Theorem C24_widening : forall f g (x : flt f), finite x = true -> has_val (conv (fmt_max f g) x) (B2R x).
Proof. exact api_widening. Qed.
Print Assumptions C24_widening.
Example C24_ex : is_nan (dec F32 1 1) = false /\ is_nan (infty F64) = false.
Proof. split; vm_compute; reflexivity. Qed.

(** C25 *)
Theorem C25_max_nan_refuted : forall f (x : flt f),
  gcem_max (AFlt f (qNaN f)) (AFlt f x) = AFlt f x /\ gcem_max (AFlt f x) (AFlt f (qNaN f)) = AFlt f (qNaN f) /\
  gcem_min (AFlt f (qNaN f)) (AFlt f x) = AFlt f x /\ gcem_min (AFlt f x) (AFlt f (qNaN f)) = AFlt f (qNaN f).
Proof. exact api_max_nan. Qed.
Print Assumptions C25_max_nan_refuted.
