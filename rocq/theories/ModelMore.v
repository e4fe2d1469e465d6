(** * lmgamma with a floating-point second argument, incomplete_beta_inv of
    three integral arguments.
    Paths relative to /repo/include/gcem_incl. [v] as in ModelElem.v. *)
From Verif Require Import Base ModelBasic ModelInt ModelElem ModelSpecial ModelApi.

Section More.
Context (v : cxx) {f g : fmt}.
(** lmgamma.hpp:33-50 with T1 = [f], T2 = [g] both floating-point. The
    arithmetic mixing both types is done in the wider one and the result
    converted back to T1. [n] is recursion fuel. *)
Fixpoint lmgamma_recur_flt (n : nat) (a : flt f) (p : flt g) : res (flt f) :=
  match n with
  | O => NoFuel
  | S n' =>
      if is_nan a then Ok (qNaN f)
      else if p ==. ofZ g 1 then lgamma_check v a
      else if p <. ofZ g 1 then Ok (qNaN f)
      else
        let h := fmt_max f g in
        let* l := lgamma_check v a in
        let* r := lmgamma_recur_flt n' (a -. half f) (p -. ofZ g 1) in
        Ok (conv f (conv h (conv f GCEM_LOG_PI) *. (conv h p -. conv h (ofZ f 1)) /. conv h (ofZ f 2)
                    +. conv h l +. conv h r))
  end.
End More.
(** lmgamma.hpp:64-71 *)
Definition gcem_lmgamma_flt (v : cxx) (n : nat) (a : arg) {g} (p : flt g) : res (flt (ret_fmt a)) :=
  lmgamma_recur_flt v n (ret_val a) p.

(** ** incomplete_beta_inv.hpp with T1 = T2 = T3 = [t], an integral type of rank
    at least int: common_t leaves the type alone, so all of the code works on
    integers ([T(0.5)] is 0). Only the steps up to the starting value are
    written out; [rest1], [rest2], [rest3] stand for whatever the remaining
    code does with the values computed so far. *)
Section IntBetaInv.
Context (v : cxx) (t : ity) (rest1 : Z -> res Z) (rest2 : bool -> res Z) (rest3 : Z -> res Z).
(** incomplete_beta_inv.hpp:41-51; log and sqrt return double, the result is converted to T *)
Definition ibinv_tval_int (p : Z) : res Z :=
  let* x := if 0 <? p then isub t 1 p else Ok p in
  let* m := ineg t 2 in
  let* l := gcem_log v (AInt t x) in
  let* s := gcem_sqrt (AFlt F64 (ofZ F64 m *. l)) in
  fcast t s.
(** incomplete_beta_inv.hpp:131-138 and 140-147 (with the parameters exchanged) *)
Definition ibinv_s_int (a b : Z) : res Z :=
  let* s := iadd t a b in
  let* q := idiv t a s in
  let* w := pow_int t t q a in
  idiv t w a.
(** incomplete_beta_inv.hpp:149-157 *)
Definition ibinv_val_2_int (p s1 s2 : Z) : res Z :=
  let* s := iadd t s1 s2 in
  let* q := idiv t s1 s in
  rest2 (p <=? q).
(** incomplete_beta_inv.hpp:161-184 *)
Definition ibinv_initial_int (a b p : Z) : res Z :=
  if (1 <? a) && (1 <? b) then let* tv := ibinv_tval_int p in rest1 tv
  else if 0 <? p then
    let* p' := isub t 1 p in
    let* s1 := ibinv_s_int b a in
    let* s2 := ibinv_s_int a b in
    let* w := ibinv_val_2_int p' s1 s2 in
    isub t 1 w
  else
    let* s1 := ibinv_s_int a b in
    let* s2 := ibinv_s_int b a in
    ibinv_val_2_int p s1 s2.
(** incomplete_beta_inv.hpp:294-350 *)
Definition gcem_incomplete_beta_inv_int (a b p : Z) : res Z :=
  if p <? imin t then Ok 0
  else
    let* d := isub t 1 p in
    let* e := abs_int t d in
    if e <? imin t then Ok 1
    else let* w := ibinv_initial_int a b p in rest3 w.
End IntBetaInv.
