(** * Specification of the incomplete gamma function and of gamma below zero, independent of the model *)
From Coq Require Import Reals.
From Coquelicot Require Import Coquelicot.
From Verif Require Import SpecGamma.
Open Scope R_scope.

(** P(a,z) = 1/Γ(a) ∫_0^z t^(a-1) e^(-t) dt for a, z > 0, the regularised lower
    incomplete gamma function; the integral is the limit of those over
    [z/(n+1), z]. *)
Definition gamma_P (a z : R) : R :=
  real (Lim_seq (fun n => RInt (fun t => Rpower t (a - 1) * exp (- t)) (z / (INR n + 1)) z)) / Gamma a.

(** Γ at a negative non-integer x with x + n > 0, by the functional equation:
    Γ(x) = Γ(x+n) / (x (x+1) ... (x+n-1)) *)
Fixpoint Gamma_below (n : nat) (x : R) : R :=
  match n with
  | O => Gamma x
  | S m => Gamma_below m (x + 1) / x
  end.

(** I_z(a,b), the regularised incomplete beta function, for a, b > 0 and
    0 < z < 1: Γ(a+b)/(Γ(a)Γ(b)) ∫_0^z t^(a-1) (1-t)^(b-1) dt *)
Definition beta_I (a b z : R) : R :=
  real (Lim_seq (fun n => RInt (fun t => Rpower t (a - 1) * Rpower (1 - t) (b - 1)) (z / (INR n + 1)) z))
  / (Gamma a * Gamma b / Gamma (a + b)).
