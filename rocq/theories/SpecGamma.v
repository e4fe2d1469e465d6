(** * Specification of the gamma function, independent of the model *)
From Coq Require Import Reals.
From Coquelicot Require Import Coquelicot.
Open Scope R_scope.

(** Γ(x) = ∫_0^∞ t^(x-1) e^(-t) dt for x > 0. The integrand is positive, so the
    improper integral is the limit of the integrals over [1/(n+1), n+1]. *)
Definition Gamma (x : R) : R :=
  real (Lim_seq (fun n => RInt (fun t => Rpower t (x - 1) * exp (- t)) (/ (INR n + 1)) (INR n + 1))).
(** B(a,b) = Γ(a) Γ(b) / Γ(a+b) *)
Definition Beta (a b : R) : R := Gamma a * Gamma b / Gamma (a + b).
(** ln of the multivariate gamma function:
    Γ_p(a) = π^(p(p-1)/4) ∏_{j<p} Γ(a - j/2) *)
Fixpoint ln_mvgamma (p : nat) (a : R) : R :=
  match p with
  | O => 0
  | S q => INR q / 2 * ln PI + ln (Gamma a) + ln_mvgamma q (a - / 2)
  end.
