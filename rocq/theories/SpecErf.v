(** * Specification of the error function, independent of the model *)
From Coq Require Import Reals.
From Coquelicot Require Import Coquelicot.
Open Scope R_scope.

(** erf x = 2/√π ∫_0^x e^{-t²} dt *)
Definition erf_real (x : R) : R := 2 / sqrt PI * RInt (fun t => exp (- (t * t))) 0 x.
