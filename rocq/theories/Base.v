(** * Base: the C++ abstract machine fragment used by gcem.

    - IEEE-754 formats ([float], [double], x87 [long double]) through Flocq's
      [BinarySingleNaN] (one NaN, no payload; see [SignBits.v] for the sign of
      NaN);
    - C++ integer types with promotions, signed-overflow UB and unsigned
      wrap-around;
    - a result monad where undefined behaviour and fuel exhaustion are
      outcomes of their own. *)

From Coq Require Export ZArith Reals Bool List Lia.
From Flocq Require Export Core.Core IEEE754.BinarySingleNaN.
Export ListNotations.
Open Scope Z_scope.

(** ** Results: value, undefined behaviour, or recursion fuel exhausted *)

Inductive ub := UbCast      (* float -> integer conversion out of range *)
              | UbOverflow  (* signed integer overflow *)
              | UbDivZero.  (* integer division by zero *)

Inductive res (A : Type) : Type :=
| Ok (a : A)
| Ub (w : ub)
| NoFuel.
Arguments Ok {A}. Arguments Ub {A}. Arguments NoFuel {A}.

Definition bind {A B} (r : res A) (k : A -> res B) : res B :=
  match r with Ok a => k a | Ub w => Ub w | NoFuel => NoFuel end.
Definition rmap {A B} (g : A -> B) (r : res A) : res B :=
  match r with Ok a => Ok (g a) | Ub w => Ub w | NoFuel => NoFuel end.

Notation "'let*' x := e 'in' k" := (bind e (fun x => k))
  (at level 200, x name, e at level 100, k at level 200, right associativity).

(** ** Floating-point formats *)

Inductive fmt := F32 (* float *) | F64 (* double *) | F80 (* x87 long double *).

Definition prec (f : fmt) : Z := match f with F32 => 24 | F64 => 53 | F80 => 64 end.
Definition emax (f : fmt) : Z := match f with F32 => 128 | F64 => 1024 | F80 => 16384 end.

#[global] Instance fmt_prec_gt_0 (f : fmt) : Prec_gt_0 (prec f).
Proof. destruct f; reflexivity. Defined.
#[global] Instance fmt_prec_lt_emax (f : fmt) : Prec_lt_emax (prec f) (emax f).
Proof. destruct f; reflexivity. Defined.

(** A value of the C++ type denoted by [f]. *)
Definition flt (f : fmt) : Type := binary_float (prec f) (emax f).

(** Round-to-nearest-even arithmetic evaluated in the type of the operands
    (FLT_EVAL_METHOD = 0, no contraction). *)
Definition fadd {f} (x y : flt f) : flt f := Bplus mode_NE x y.
Definition fsub {f} (x y : flt f) : flt f := Bminus mode_NE x y.
Definition fmul {f} (x y : flt f) : flt f := Bmult mode_NE x y.
Definition fdiv {f} (x y : flt f) : flt f := Bdiv mode_NE x y.
Definition fneg {f} (x : flt f) : flt f := Bopp x.

(** IEEE comparisons (false on NaN). *)
Definition feq {f} (x y : flt f) : bool := Beqb x y.
Definition flt_ {f} (x y : flt f) : bool := Bltb x y.
Definition fle {f} (x y : flt f) : bool := Bleb x y.

Declare Scope flt_scope.
Delimit Scope flt_scope with flt.
Infix "+." := fadd (at level 50, left associativity) : flt_scope.
Infix "-." := fsub (at level 50, left associativity) : flt_scope.
Infix "*." := fmul (at level 40, left associativity) : flt_scope.
Infix "/." := fdiv (at level 40, left associativity) : flt_scope.
Notation "-. x" := (fneg x) (at level 35, right associativity) : flt_scope.
Infix "==." := feq (at level 70, no associativity) : flt_scope.
Infix "<." := flt_ (at level 70, no associativity) : flt_scope.
Infix "<=." := fle (at level 70, no associativity) : flt_scope.
Notation "x >. y" := (flt_ y x) (at level 70, no associativity, only parsing) : flt_scope.
Notation "x >=. y" := (fle y x) (at level 70, no associativity, only parsing) : flt_scope.
Open Scope flt_scope.

(** Conversion of an integer to format [f] (round to nearest even). *)
Definition ofZ (f : fmt) (z : Z) : flt f := binary_normalize (prec f) (emax f) _ _ mode_NE z 0 false.

(** Conversion between floating-point types. *)
Definition conv {f : fmt} (g : fmt) (x : flt f) : flt g :=
  match x with
  | B754_zero s => B754_zero s
  | B754_infinity s => B754_infinity s
  | B754_nan => B754_nan
  | B754_finite s m e _ =>
      binary_normalize (prec g) (emax g) _ _ mode_NE (cond_Zopp s (Zpos m)) e s
  end.

(** The decimal literal num * 10^-k written with a suffix of type [f]:
    the correctly rounded quotient. *)
Definition dec (f : fmt) (num : Z) (k : Z) : flt f :=
  match num with
  | Z0 => B754_zero false
  | Zpos p => SF2B _ (proj1 (Bdiv_correct_aux (prec f) (emax f) _ _ mode_NE
                               false p 0 false (Z.to_pos (10 ^ k)) 0))
  | Zneg p => SF2B _ (proj1 (Bdiv_correct_aux (prec f) (emax f) _ _ mode_NE
                               true p 0 false (Z.to_pos (10 ^ k)) 0))
  end.

(** [T(<double literal>)] and [T(<long double literal>)]. *)
Definition dlit (f : fmt) (num k : Z) : flt f := conv f (dec F64 num k).
Definition llit (f : fmt) (num k : Z) : flt f := conv f (dec F80 num k).

(** std::numeric_limits<T>::{quiet_NaN,infinity,min} *)
Definition qNaN (f : fmt) : flt f := B754_nan.
Definition infty (f : fmt) : flt f := B754_infinity false.
Definition fmin (f : fmt) : flt f :=
  binary_normalize (prec f) (emax f) _ _ mode_NE 1 (2 - emax f) false.

(** ** C++ integer types *)

Inductive ity := I8 | U8 | I16 | U16 | I32 | U32 | I64 | U64.

Definition ibits (t : ity) : Z :=
  match t with I8 | U8 => 8 | I16 | U16 => 16 | I32 | U32 => 32 | I64 | U64 => 64 end.
Definition isigned (t : ity) : bool :=
  match t with I8 | I16 | I32 | I64 => true | _ => false end.
Definition imin (t : ity) : Z := if isigned t then - 2 ^ (ibits t - 1) else 0.
Definition imax (t : ity) : Z := if isigned t then 2 ^ (ibits t - 1) - 1 else 2 ^ ibits t - 1.
Definition in_range (t : ity) (z : Z) : Prop := imin t <= z <= imax t.
Definition in_rangeb (t : ity) (z : Z) : bool := (imin t <=? z) && (z <=? imax t).

(** Integral promotion: everything narrower than [int] becomes [int]. *)
Definition promote (t : ity) : ity :=
  match t with I8 | U8 | I16 | U16 => I32 | _ => t end.
(** Types of rank at least [int]. *)
Definition wide (t : ity) : bool :=
  match t with I32 | U32 | I64 | U64 => true | _ => false end.

Definition ity_eqb (s t : ity) : bool :=
  match s, t with
  | I8, I8 | U8, U8 | I16, I16 | U16, U16 | I32, I32 | U32, U32 | I64, I64 | U64, U64 => true
  | _, _ => false
  end.

(** Usual arithmetic conversions ([long] and [long long] both 64 bits). *)
Definition arith (s t : ity) : ity :=
  match promote s, promote t with
  | U64, _ | _, U64 => U64
  | I64, _ | _, I64 => I64
  | U32, _ | _, U32 => U32
  | _, _ => I32
  end.
(** std::common_type: equal types are left alone, otherwise arithmetic
    conversions apply. *)
Definition common (s t : ity) : ity := if ity_eqb s t then s else arith s t.

(** Integer conversion: value modulo 2^bits (for signed targets this is the
    implementation-defined choice of every relevant compiler, standard since
    C++20). *)
Definition icast (t : ity) (z : Z) : Z :=
  let m := z mod 2 ^ ibits t in
  if isigned t then (if m <? 2 ^ (ibits t - 1) then m else m - 2 ^ ibits t) else m.

(** Arithmetic result in type [t]: signed overflow is UB, unsigned wraps. *)
Definition iarith (t : ity) (z : Z) : res Z :=
  if isigned t then (if in_rangeb t z then Ok z else Ub UbOverflow)
  else Ok (z mod 2 ^ ibits t).

Definition iadd (t : ity) (a b : Z) : res Z := iarith t (a + b).
Definition isub (t : ity) (a b : Z) : res Z := iarith t (a - b).
Definition imul (t : ity) (a b : Z) : res Z := iarith t (a * b).
Definition ineg (t : ity) (a : Z) : res Z := iarith t (- a).
Definition idiv (t : ity) (a b : Z) : res Z :=
  if b =? 0 then Ub UbDivZero else iarith t (Z.quot a b).
(* INT_MIN % -1 is UB because the quotient overflows *)
Definition irem (t : ity) (a b : Z) : res Z :=
  if b =? 0 then Ub UbDivZero else
  let* q := iarith t (Z.quot a b) in Ok (Z.rem a b).

(** Float to integer conversion: truncation, UB when the truncated value is
    not representable (or the operand is not finite). *)
Definition fcast {f} (t : ity) (x : flt f) : res Z :=
  if is_finite x then
    (let z := Btrunc x in if in_rangeb t z then Ok z else Ub UbCast)
  else Ub UbCast.

(** ** Loops *)

(** [for (depth = hi; depth > lo - 1; --depth) res = body depth res]. *)
Fixpoint down_loop {A} (n : nat) (depth : Z) (body : Z -> A -> A) (r : A) : A :=
  match n with
  | O => r
  | S n' => down_loop n' (depth - 1) body (body depth r)
  end.
Definition for_down {A} (hi lo : Z) (body : Z -> A -> A) (r : A) : A :=
  down_loop (Z.to_nat (hi - lo + 1)) hi body r.

(** [rec(depth) = depth < hi ? step depth (rec (depth+1)) : base]. *)
Fixpoint up_rec {A} (n : nat) (depth : Z) (step : Z -> A -> A) (base : A) : A :=
  match n with
  | O => base
  | S n' => step depth (up_rec n' (depth + 1) step base)
  end.
Definition rec_up {A} (depth hi : Z) (step : Z -> A -> A) (base : A) : A :=
  up_rec (Z.to_nat (hi - depth)) depth step base.
