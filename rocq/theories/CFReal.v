(** * Truncation error of the continued fractions of atan, atanh, tan and tanh.
    The tails t_d = (2d-1) + a_d y / t_{d+1}, y = s x^2 with s = 1 or -1, of the
    truncated continued fraction satisfy a Riccati equation up to a residual
    which is the product of the a_k y / t_k^2. *)
From Verif Require Import Base.
From Coq Require Import Lra Psatz.
From Coquelicot Require Import Coquelicot.
Open Scope R_scope.

Section CF.
Variable s : R.
Variable a : Z -> R.
Definition cstep (y : R) (k : Z) (r : R) : R := IZR (2 * k - 1) + a k * y / r.
(** n levels d .. d+n-1 above the base 2(d+n)-1 *)
Definition ct (n : nat) (d : Z) (x : R) : R := up_rec n d (cstep (s * (x * x))) (IZR (2 * (d + Z.of_nat n) - 1)).
Fixpoint ctD (n : nat) (d : Z) (x : R) : R :=
  match n with
  | O => 0
  | S m => a d * s * (2 * x / ct m (d + 1) x - x * x * ctD m (d + 1) x / (ct m (d + 1) x * ct m (d + 1) x))
  end.
(** No tail below level d vanishes. *)
Fixpoint good (n : nat) (d : Z) (x : R) : Prop :=
  match n with O => True | S m => ct m (d + 1) x <> 0 /\ good m (d + 1) x end.
Lemma ct_S n d x : ct (S n) d x = IZR (2 * d - 1) + a d * (s * (x * x)) / ct n (d + 1) x.
Proof. unfold ct. cbn [up_rec]. unfold cstep at 1. do 2 f_equal. f_equal. do 2 f_equal. lia. Qed.
Lemma ct_derive n : forall d x, good n d x -> is_derive (ct n d) x (ctD n d x).
Proof.
  induction n; intros d x G.
  - apply is_derive_ext with (fun _ => IZR (2 * (d + Z.of_nat 0) - 1)). reflexivity. cbn [ctD]. apply (is_derive_const (V := R_NormedModule)).
  - destruct G as (G0 & G). specialize (IHn (d + 1)%Z x G).
    apply is_derive_ext with (fun x => IZR (2 * d - 1) + a d * (s * (x * x)) / ct n (d + 1) x). { intros t. symmetry. apply ct_S. }
    cbn [ctD]. set (t := ct n (d + 1)) in * . set (t' := ctD n (d + 1) x) in * .
    assert (ED : ex_derive t x) by (exists t'; auto). assert (DD : Derive t x = t') by (apply is_derive_unique; auto).
    auto_derive. tauto. match goal with |- context [Derive ?g x] => change (Derive g x) with (Derive t x) end. rewrite DD. field. auto.
Qed.
(** The Riccati equation. *)
Variables (A B : Z -> R -> R) (P : R -> R).
Hypothesis HA : forall d y, A (d + 1)%Z y = a d * y.
Hypothesis HB : forall d y, 2 * P y - B (d + 1)%Z y = B d y - 2 * IZR (2 * d - 1).
Hypothesis HC : forall d y, a d * y = A d y + B d y * IZR (2 * d - 1) - IZR (2 * d - 1) * IZR (2 * d - 1).
Fixpoint cres (n : nat) (d : Z) (x : R) : R :=
  match n with
  | O => a d * (s * (x * x))
  | S m => a d * (s * (x * x)) / (ct m (d + 1) x * ct m (d + 1) x) * cres m (d + 1) x
  end.
Lemma ct_ode n : forall d x, good n d x -> exists e, (e = 1 \/ e = -1) /\ let y := s * (x * x) in
  x * P y * ctD n d x = A d y + B d y * ct n d x - ct n d x * ct n d x + e * cres n d x.
Proof.
  induction n; intros d x G; cbv zeta.
  - exists (-1). split; auto. cbn [ctD cres]. unfold ct. cbn [up_rec]. replace (d + Z.of_nat 0)%Z with d by (cbn; ring). rewrite HC. ring.
  - destruct G as (G0 & G). destruct (IHn _ x G) as (e & He & IH). cbv zeta in IH. exists (- e). split. { destruct He as [->| ->]; [right|left]; ring. }
    rewrite ct_S. cbn [ctD cres]. set (t := ct n (d + 1) x) in * . set (t' := ctD n (d + 1) x) in * . set (y := s * (x * x)) in * . set (r := cres n (d + 1) x) in * .
    rewrite HA in IH. specialize (HB d y). specialize (HC d y). set (c := IZR (2 * d - 1)) in * .
    replace (x * P y * (a d * s * (2 * x / t - x * x * t' / (t * t)))) with (a d * y * (2 * P y / t - (x * P y * t') / (t * t))) by (unfold y; field; auto).
    rewrite IH. replace (2 * P y) with (B (d + 1)%Z y + B d y - 2 * c) by lra.
    replace (A d y) with (a d * y - B d y * c + c * c) by lra. field. auto.
Qed.
End CF.

(** ** The two families *)
Definition sq (k : Z) : R := IZR k * IZR k.
Definition ones (k : Z) : R := 1.
(** P w' for w = x/t_1: atan family a_d = d^2 *)
Definition w_of (s : R) (a : Z -> R) (n : nat) (x : R) : R := x / ct s a n 1 x.
Definition w_D (s : R) (a : Z -> R) (n : nat) (x : R) : R :=
  / ct s a n 1 x - x * ctD s a n 1 x / (ct s a n 1 x * ct s a n 1 x).
Definition w_res (s : R) (a : Z -> R) (n : nat) (x : R) : R := cres s a n 1 x / (ct s a n 1 x * ct s a n 1 x).
Definition good0 (s : R) (a : Z -> R) (n : nat) (x : R) : Prop := good s a n 1 x /\ ct s a n 1 x <> 0.
Lemma w_derive s a n x : good0 s a n x -> is_derive (w_of s a n) x (w_D s a n x).
Proof.
  intros (G & G1). assert (D := ct_derive s a n 1 x G). unfold w_of, w_D. set (t := ct s a n 1) in * .
  assert (ED : ex_derive t x) by (eexists; eauto). assert (DD : Derive t x = ctD s a n 1 x) by (apply is_derive_unique; auto).
  auto_derive. tauto. match goal with |- context [Derive ?g x] => change (Derive g x) with (Derive t x) end. rewrite DD. field. auto.
Qed.
Lemma w_atan s n x : good0 s sq n x -> exists e, (e = 1 \/ e = -1) /\ (1 + s * (x * x)) * w_D s sq n x = 1 + e * w_res s sq n x.
Proof.
  intros (G & G1).
  destruct (ct_ode s sq (fun d y => sq (d - 1) * y) (fun d y => IZR (2 * d - 1) + y) (fun y => 1 + y)) with (n := n) (d := 1%Z) (x := x) as (e & He & E).
  - intros. replace (d + 1 - 1)%Z with d by ring. reflexivity.
  - intros. rewrite !minus_IZR, !mult_IZR, !plus_IZR. ring.
  - intros. unfold sq. rewrite !minus_IZR, !mult_IZR. ring.
  - exact G.
  - cbv zeta in E. unfold w_D, w_res. set (t := ct s sq n 1 x) in * . set (t' := ctD s sq n 1 x) in * . set (y := s * (x * x)) in * .
    exists (- e). split. { destruct He as [->| ->]; [right|left]; ring. }
    replace ((1 + y) * (/ t - x * t' / (t * t))) with (((1 + y) * t - x * (1 + y) * t') / (t * t)) by (field; auto).
    rewrite E. unfold sq at 1. replace (1 - 1)%Z with 0%Z by ring. replace (IZR (2 * 1 - 1)) with 1 by reflexivity. field. auto.
Qed.
Lemma w_tanh s n x : good0 s ones n x -> exists e, (e = 1 \/ e = -1) /\ w_D s ones n x = 1 - s * (w_of s ones n x * w_of s ones n x) + e * w_res s ones n x.
Proof.
  intros (G & G1).
  destruct (ct_ode s ones (fun d y => y) (fun d y => IZR (2 * d - 1)) (fun y => 1)) with (n := n) (d := 1%Z) (x := x) as (e & He & E).
  - intros. unfold ones. ring.
  - intros. rewrite !minus_IZR, !mult_IZR, !plus_IZR. ring.
  - intros. unfold ones. ring.
  - exact G.
  - cbv zeta in E. unfold w_D, w_res, w_of. set (t := ct s ones n 1 x) in * . set (t' := ctD s ones n 1 x) in * .
    exists (- e). split. { destruct He as [->| ->]; [right|left]; ring. }
    replace (/ t - x * t' / (t * t)) with ((t - x * 1 * t') / (t * t)) by (field; auto).
    rewrite E. replace (IZR (2 * 1 - 1)) with 1 by reflexivity. field. auto.
Qed.
