(** * signbit, copysign, abs on bit patterns with signed NaNs.
    The rest of the model has a single NaN; here the full IEEE type of Flocq
    (NaNs carrying a sign and a payload) is used. Paths relative to
    /repo/include/gcem_incl. *)
From Flocq Require Import IEEE754.Binary.
From Verif Require Import Base.
Open Scope Z_scope.

Definition fbits (f : fmt) : Type := Binary.binary_float (prec f) (emax f).

(** Unary minus inverts the sign bit, of NaNs as well. *)
Definition bneg {f} (x : fbits f) : fbits f :=
  match x with
  | Binary.B754_zero _ _ s => Binary.B754_zero _ _ (negb s)
  | Binary.B754_infinity _ _ s => Binary.B754_infinity _ _ (negb s)
  | Binary.B754_nan _ _ s pl H => Binary.B754_nan _ _ (negb s) pl H
  | Binary.B754_finite _ _ s m e H => Binary.B754_finite _ _ (negb s) m e H
  end.
(** signbit.hpp:32-42, the non-MSVC branch *)
Definition bsignbit {f} (x : fbits f) : bool := Binary.Bsign _ _ x.
(** copysign.hpp:32-39 *)
Definition bcopysign {f g} (x : fbits f) (y : fbits g) : fbits f :=
  if xorb (bsignbit x) (bsignbit y) then bneg x else x.

(** Everything but the sign bit. *)
Definition same_magnitude {f} (x y : fbits f) : Prop := x = y \/ x = bneg y.

Lemma bneg_sign {f} (x : fbits f) : bsignbit (bneg x) = negb (bsignbit x).
Proof. destruct x; reflexivity. Qed.
Lemma bcopysign_ok {f g} (x : fbits f) (y : fbits g) :
  bsignbit (bcopysign x y) = bsignbit y /\ same_magnitude (bcopysign x y) x.
Proof.
  unfold bcopysign. destruct (bsignbit x) eqn:X, (bsignbit y) eqn:Y; cbn [xorb];
  rewrite ?bneg_sign, ?X; (split; [reflexivity | unfold same_magnitude; auto]).
Qed.
