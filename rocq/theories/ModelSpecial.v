(** * Model of the special functions of gcem: gamma, beta, error function,
    incomplete gamma and beta functions and their inverses.
    Paths relative to /repo/include/gcem_incl. [v], [f] as in ModelElem.v. *)
From Verif Require Import Base ModelBasic ModelInt ModelElem.

(** quadrature/gauss_legendre_50.hpp:25-77 *)
Definition gauss_legendre_50_points : list (flt F80) :=
  [dec F80 (-3109833832718887611232898966595) 32;
   dec F80 (3109833832718887611232898966595) 32;
   dec F80 (-9317470156008614085445037763960) 32;
   dec F80 (9317470156008614085445037763960) 32;
   dec F80 (-15489058999814590207162862094111) 32;
   dec F80 (15489058999814590207162862094111) 32;
   dec F80 (-21600723687604175684728453261710) 32;
   dec F80 (21600723687604175684728453261710) 32;
   dec F80 (-27628819377953199032764527852113) 32;
   dec F80 (27628819377953199032764527852113) 32;
   dec F80 (-33550024541943735683698825729107) 32;
   dec F80 (33550024541943735683698825729107) 32;
   dec F80 (-39341431189756512739422925382382) 32;
   dec F80 (39341431189756512739422925382382) 32;
   dec F80 (-44980633497403878914713146777838) 32;
   dec F80 (44980633497403878914713146777838) 32;
   dec F80 (-50445814490746420165145913184914) 32;
   dec F80 (50445814490746420165145913184914) 32;
   dec F80 (-55715830451465005431552290962580) 32;
   dec F80 (55715830451465005431552290962580) 32;
   dec F80 (-60770292718495023918038179639183) 32;
   dec F80 (60770292718495023918038179639183) 32;
   dec F80 (-65589646568543936078162486400368) 32;
   dec F80 (65589646568543936078162486400368) 32;
   dec F80 (-70155246870682225108954625788366) 32;
   dec F80 (70155246870682225108954625788366) 32;
   dec F80 (-74449430222606853826053625268219) 32;
   dec F80 (74449430222606853826053625268219) 32;
   dec F80 (-78455583290039926390530519634099) 32;
   dec F80 (78455583290039926390530519634099) 32;
   dec F80 (-82158207085933594835625411087394) 32;
   dec F80 (82158207085933594835625411087394) 32;
   dec F80 (-85542976942994608461136264393476) 32;
   dec F80 (85542976942994608461136264393476) 32;
   dec F80 (-88596797952361304863754098246675) 32;
   dec F80 (88596797952361304863754098246675) 32;
   dec F80 (-91307855665579189308973564277166) 32;
   dec F80 (91307855665579189308973564277166) 32;
   dec F80 (-93665661894487793378087494727250) 32;
   dec F80 (93665661894487793378087494727250) 32;
   dec F80 (-95661095524280794299774564415662) 32;
   dec F80 (95661095524280794299774564415662) 32;
   dec F80 (-97286438510669207371334410460625) 32;
   dec F80 (97286438510669207371334410460625) 32;
   dec F80 (-98535408404800588230900962563249) 32;
   dec F80 (98535408404800588230900962563249) 32;
   dec F80 (-99403196943209071258510820042069) 32;
   dec F80 (99403196943209071258510820042069) 32;
   dec F80 (-99886640442007105018545944497422) 32;
   dec F80 (99886640442007105018545944497422) 32].
(** quadrature/gauss_legendre_50.hpp:79-131 *)
Definition gauss_legendre_50_weights : list (flt F80) :=
  [dec F80 (6217661665534726232103310736061) 32;
   dec F80 (6217661665534726232103310736061) 32;
   dec F80 (6193606742068324338408750978083) 32;
   dec F80 (6193606742068324338408750978083) 32;
   dec F80 (6145589959031666375640678608392) 32;
   dec F80 (6145589959031666375640678608392) 32;
   dec F80 (6073797084177021603175001538481) 32;
   dec F80 (6073797084177021603175001538481) 32;
   dec F80 (5978505870426545750957640531259) 32;
   dec F80 (5978505870426545750957640531259) 32;
   dec F80 (5860084981322244583512243663085) 32;
   dec F80 (5860084981322244583512243663085) 32;
   dec F80 (5718992564772838372302931506599) 32;
   dec F80 (5718992564772838372302931506599) 32;
   dec F80 (5555774480621251762356742561227) 32;
   dec F80 (5555774480621251762356742561227) 32;
   dec F80 (5371062188899624652345879725566) 32;
   dec F80 (5371062188899624652345879725566) 32;
   dec F80 (5165570306958113848990529584010) 32;
   dec F80 (5165570306958113848990529584010) 32;
   dec F80 (4940093844946631492124358075143) 32;
   dec F80 (4940093844946631492124358075143) 32;
   dec F80 (4695505130394843296563301363499) 32;
   dec F80 (4695505130394843296563301363499) 32;
   dec F80 (4432750433880327549202228683039) 32;
   dec F80 (4432750433880327549202228683039) 32;
   dec F80 (4152846309014769742241197896407) 32;
   dec F80 (4152846309014769742241197896407) 32;
   dec F80 (3856875661258767524477015023639) 32;
   dec F80 (3856875661258767524477015023639) 32;
   dec F80 (3545983561514615416073461100098) 32;
   dec F80 (3545983561514615416073461100098) 32;
   dec F80 (3221372822357801664816582732300) 32;
   dec F80 (3221372822357801664816582732300) 32;
   dec F80 (2884299358053519802990637311323) 32;
   dec F80 (2884299358053519802990637311323) 32;
   dec F80 (2536067357001239044019487838544) 32;
   dec F80 (2536067357001239044019487838544) 32;
   dec F80 (2178024317012479298159206906269) 32;
   dec F80 (2178024317012479298159206906269) 32;
   dec F80 (1811556071348939035125994342235) 32;
   dec F80 (1811556071348939035125994342235) 32;
   dec F80 (1438082276148557441937890892732) 32;
   dec F80 (1438082276148557441937890892732) 32;
   dec F80 (1059054838365096926356968149924) 32;
   dec F80 (1059054838365096926356968149924) 32;
   dec F80 (675979919574540150277887817799) 32;
   dec F80 (675979919574540150277887817799) 32;
   dec F80 (290862255315514095840072434286) 32;
   dec F80 (290862255315514095840072434286) 32].

(** lgamma.hpp:52-65 *)
Definition lgamma_coef_term (x : flt F80) : flt F80 :=
  dec F80 99999999999999709182 20
  +. (dec F80 57156235665862923517 18) /. (x +. ofZ F80 1)
  -. (dec F80 59597960355475491248 18) /. (x +. ofZ F80 2)
  +. (dec F80 14136097974741747174 18) /. (x +. ofZ F80 3)
  -. (dec F80 49191381609762019978 20) /. (x +. ofZ F80 4)
  +. (dec F80 33994649984811888699 24) /. (x +. ofZ F80 5)
  +. (dec F80 46523628927048575665 24) /. (x +. ofZ F80 6)
  -. (dec F80 98374475304879564677 24) /. (x +. ofZ F80 7)
  +. (dec F80 15808870322491248884 23) /. (x +. ofZ F80 8)
  -. (dec F80 21026444172410488319 23) /. (x +. ofZ F80 9)
  +. (dec F80 21743961811521264320 23) /. (x +. ofZ F80 10)
  -. (dec F80 16431810653676389022 23) /. (x +. ofZ F80 11)
  +. (dec F80 84418223983852743293 24) /. (x +. ofZ F80 12)
  -. (dec F80 26190838401581408670 24) /. (x +. ofZ F80 13)
  +. (dec F80 36899182659531622704 25) /. (x +. ofZ F80 14).

Section Special.
Context (v : cxx) (f : fmt).
Notation T := (flt f).
Notation "'#' z" := (ofZ f z) (at level 0, z at level 0, only parsing).

(** ** gamma functions *)

(** lgamma.hpp:67-74 *)
Definition lgamma_term_2 (x : T) : res T :=
  let* l := log_check v (conv f (lgamma_coef_term (conv F80 x))) in
  Ok (conv f GCEM_LOG_SQRT_2PI +. l).
(** lgamma.hpp:76-83 *)
Definition lgamma_term_1 (x : T) : res T :=
  let c := llit f 52421875 7 in
  let* l := log_check v (x +. c) in
  Ok ((x +. half f) *. l -. (x +. c)).
(** lgamma.hpp:85-92 *)
Definition lgamma_begin (x : T) : res T :=
  let* a := lgamma_term_1 x in let* b := lgamma_term_2 x in Ok (a +. b).
(** lgamma.hpp:94-110 *)
Definition lgamma_check (x : T) : res T :=
  if is_nan x then Ok (qNaN f)
  else if fmin f >. abs (x -. #1) then Ok #0
  else if fmin f >. x then Ok (infty f)
  else lgamma_begin (x -. #1).

(** tgamma.hpp:31-55. [n] is recursion fuel: one level per unit step from a
    negative argument up to zero. *)
Fixpoint tgamma_check (n : nat) (x : T) : res T :=
  match n with
  | O => NoFuel
  | S n' =>
      if is_nan x then Ok (qNaN f)
      else if fmin f >. abs (x -. #1) then Ok #1
      else if fmin f >. abs x then Ok (infty f)
      else if x <. #0 then
        (let* w := find_whole x in
         if fmin f >. abs (x -. #w) then Ok (qNaN f)
         else let* t := tgamma_check n' (x +. #1) in Ok (t /. x))
      else let* l := lgamma_check x in exp_check v l
  end.
(** factorial.hpp:71-78, floating-point T *)
Definition factorial_flt (n : nat) (x : T) : res T := tgamma_check n (x +. #1).

(** lbeta.hpp:33-40 with T1 = T2 *)
Definition lbeta (a b : T) : res T :=
  let* la := lgamma_check a in
  let* lb := lgamma_check b in
  let* lab := lgamma_check (a +. b) in
  Ok ((la +. lb) -. lab).
(** beta.hpp:33-40 with T1 = T2 *)
Definition beta (a b : T) : res T := let* l := lbeta a b in exp_check v l.

(** lmgamma.hpp:33-50, integral T2 (value [p] in range of its type, at least
    int wide after the first step). [n] is recursion fuel. *)
Fixpoint lmgamma_recur (n : nat) (a : T) (p : Z) : res T :=
  match n with
  | O => NoFuel
  | S n' =>
      if is_nan a then Ok (qNaN f)
      else if p =? 1 then lgamma_check a
      else if p <? 1 then Ok (qNaN f)
      else
        let* l := lgamma_check a in
        let* r := lmgamma_recur n' (a -. half f) (p - 1) in
        Ok (conv f GCEM_LOG_PI *. (#p -. #1) /. #2 +. l +. r)
  end.

(** log_binomial_coef.hpp:27-34 *)
Definition log_binomial_coef_compute (n k : T) : res T :=
  let* a := lgamma_check (n +. #1) in
  let* b := lgamma_check (k +. #1) in
  let* c := lgamma_check (n -. k +. #1) in
  Ok (a -. (b +. c)).

(** ** erf.hpp *)

(** erf.hpp:36-52 (C++14) and 56-67 (C++11) *)
Definition erf_cf_large_step (x : T) (depth : Z) (r : T) : T := x +. #(2 * depth) /. r.
Definition erf_cf_large_recur (x : T) (depth : Z) : T :=
  match v with
  | Cxx14 => for_down (GCEM_ERF_MAX_ITER - 1) depth (erf_cf_large_step x) x
  | Cxx11 => rec_up depth GCEM_ERF_MAX_ITER (erf_cf_large_step x) x
  end.
(** erf.hpp:71-79 *)
Definition erf_cf_large_main (x : T) : res T :=
  let* e := exp_check v (-. x *. x) in
  Ok (#1 -. #2 *. (e /. conv f GCEM_SQRT_PI) /. erf_cf_large_recur (#2 *. x) 1).
(** erf.hpp:86-102 (C++14): [T(2*depth-1)] *)
Definition erf_cf_small_step_14 (xx : T) (depth : Z) (r : T) : T :=
  #(2 * depth - 1) -. #2 *. xx +. #(4 * depth) *. xx /. r.
(** erf.hpp:106-118 (C++11): [2*depth - T(1)] *)
Definition erf_cf_small_step_11 (xx : T) (depth : Z) (r : T) : T :=
  (#(2 * depth) -. #1) -. #2 *. xx +. #(4 * depth) *. xx /. r.
Definition erf_cf_small_recur (xx : T) (depth : Z) : T :=
  match v with
  | Cxx14 => for_down (GCEM_ERF_MAX_ITER - 1) depth (erf_cf_small_step_14 xx)
                      (#(2 * (GCEM_ERF_MAX_ITER - 1 + 1) - 1) -. #2 *. xx)
  | Cxx11 => rec_up depth GCEM_ERF_MAX_ITER (erf_cf_small_step_11 xx)
                    ((#(2 * GCEM_ERF_MAX_ITER) -. #1) -. #2 *. xx)
  end.
(** erf.hpp:122-130 *)
Definition erf_cf_small_main (x : T) : res T :=
  let* e := exp_check v (-. x *. x) in
  Ok (#2 *. x *. (e /. conv f GCEM_SQRT_PI) /. erf_cf_small_recur (x *. x) 1).
(** erf.hpp:134-145 *)
Definition erf_begin (x : T) : res T :=
  if x >. dlit f 21 1 then erf_cf_large_main x else erf_cf_small_main x.
(** erf.hpp:147-168 *)
Definition erf_check (x : T) : res T :=
  if is_nan x then Ok (qNaN f)
  else if is_posinf x then Ok #1
  else if is_neginf x then Ok (-. #1)
  else if fmin f >. abs x then Ok #0
  else if x <. #0 then (let* t := erf_begin (-. x) in Ok (-. t))
  else erf_begin x.

(** ** erf_inv.hpp *)

(** erf_inv.hpp:42-71: orders 1 to 9 of the Horner scheme, unrolled *)
Definition erf_inv_initial_val_case_2 (a : T) : T :=
  let p := llit f (-200214257) 12 in
  let p := llit f 100950558 12 +. a *. p in
  let p := llit f 134934322 11 +. a *. p in
  let p := llit f (-3673428440) 12 +. a *. p in
  let p := llit f 5739507730 12 +. a *. p in
  let p := llit f (-762246130) 11 +. a *. p in
  let p := llit f 9438870470 12 +. a *. p in
  let p := llit f 1001674060000 12 +. a *. p in
  llit f 283297682000 11 +. a *. p.
(** erf_inv.hpp:73-102: orders 1 to 9 of the Horner scheme, unrolled *)
Definition erf_inv_initial_val_case_1 (a : T) : T :=
  let p := llit f 281022636 16 in
  let p := llit f 343273939 15 +. a *. p in
  let p := llit f (-35233877) 13 +. a *. p in
  let p := llit f (-439150654) 14 +. a *. p in
  let p := llit f 21858087 11 +. a *. p in
  let p := llit f (-125372503) 11 +. a *. p in
  let p := llit f (-4177681640) 12 +. a *. p in
  let p := llit f 24664072700 11 +. a *. p in
  llit f 150140941000 11 +. a *. p.
(** erf_inv.hpp:104-115 *)
Definition erf_inv_initial_val_int (a : T) : res T :=
  if a <. #5 then Ok (erf_inv_initial_val_case_1 (a -. dlit f 25 1))
  else let* s := sqrt_check a in Ok (erf_inv_initial_val_case_2 (s -. #3)).
(** erf_inv.hpp:117-124 *)
Definition erf_inv_initial_val (x : T) : res T :=
  let* l := log_check v ((#1 -. x) *. (#1 +. x)) in
  let* i := erf_inv_initial_val_int (-. l) in
  Ok (x *. i).
(** erf_inv.hpp:138-145 *)
Definition erf_inv_deriv_1 (value : T) : res T := exp_check v (-. value *. value).
(** erf_inv.hpp:174-181, incomplete_beta_inv.hpp:239-246,
    incomplete_gamma_inv.hpp:164-171 *)
Definition halley (r1 r2 : T) : T :=
  r1 /. max (dlit f 8 1) (min (dlit f 12 1) (#1 -. half f *. r1 *. r2)).
(** erf_inv.hpp:129-136, 147-206: one Halley step followed by the decision to
    continue; the derivative handed to the next round is the one at the
    previous iterate. [n] bounds the calls, the code stops by itself. *)
Fixpoint erf_inv_recur (n : nat) (value p deriv_1 : T) (iter : Z) : res T :=
  match n with
  | O => NoFuel
  | S n' =>
      let* ev := erf_check value in
      let r1 := (ev -. p) /. deriv_1 in
      let r2 := (deriv_1 *. (-. #2 *. value)) /. deriv_1 in
      let direc := halley r1 r2 in
      if iter <? GCEM_ERF_INV_MAX_ITER then
        let* d := erf_inv_deriv_1 value in
        erf_inv_recur n' (value -. direc) p d (iter + 1)
      else Ok (value -. direc)
  end.
(** erf_inv.hpp:208-215 *)
Definition erf_inv_recur_begin (initial_val p : T) : res T :=
  let* d := erf_inv_deriv_1 initial_val in
  erf_inv_recur (Z.to_nat (GCEM_ERF_INV_MAX_ITER + 1)) initial_val p d 1.
(** erf_inv.hpp:217-237 *)
Definition erf_inv_begin (p : T) : res T :=
  if is_nan p then Ok (qNaN f)
  else if abs p >. #1 then Ok (qNaN f)
  else if fmin f >. abs (#1 -. p) then Ok (infty f)
  else if fmin f >. abs (#1 +. p) then Ok (-. infty f)
  else let* i := erf_inv_initial_val p in erf_inv_recur_begin i p.

(** ** incomplete_beta.hpp *)

(** incomplete_beta.hpp:39-46 *)
Definition incomplete_beta_coef_even (a b z : T) (k : Z) : T :=
  -. z *. (a +. #k) *. (a +. b +. #k) /. ((a +. #(2 * k)) *. (a +. #(2 * k) +. #1)).
(** incomplete_beta.hpp:48-55 *)
Definition incomplete_beta_coef_odd (a b z : T) (k : Z) : T :=
  z *. #k *. (b -. #k) /. ((a +. #(2 * k) -. #1) *. (a +. #(2 * k))).
(** incomplete_beta.hpp:57-65 *)
Definition incomplete_beta_coef (a b z : T) (depth : Z) : T :=
  if negb (is_odd depth) then incomplete_beta_coef_even a b z (depth / 2)
  else incomplete_beta_coef_odd a b z ((depth + 1) / 2).
(** incomplete_beta.hpp:70-77 *)
Definition incomplete_beta_c_update (a b z c_j : T) (depth : Z) : T :=
  #1 +. incomplete_beta_coef a b z depth /. c_j.
(** incomplete_beta.hpp:79-86 *)
Definition incomplete_beta_d_update (a b z d_j : T) (depth : Z) : T :=
  #1 /. (#1 +. incomplete_beta_coef a b z depth *. d_j).
(** [x < GCEM_INCML_BETA_TOL] (gcem_options.hpp:159-161), a double: the
    comparison takes place in the wider of T and double. *)
Definition lt_incml_beta_tol (x : T) : bool :=
  match f with
  | F80 => conv F80 x <. conv F80 (dec F64 1 15)
  | _ => conv F64 x <. dec F64 1 15
  end.
(** incomplete_beta.hpp:91-117, decision and step fused. [n] bounds the calls,
    the code stops by itself at GCEM_INCML_BETA_MAX_ITER. *)
Fixpoint incomplete_beta_cf (n : nat) (a b z c_j d_j f_j : T) (depth : Z) : res T :=
  match n with
  | O => NoFuel
  | S n' =>
      let c := incomplete_beta_c_update a b z c_j depth in
      let d := incomplete_beta_d_update a b z d_j depth in
      if lt_incml_beta_tol (abs (c *. d -. #1)) then Ok (f_j *. c *. d)
      else if depth <? GCEM_INCML_BETA_MAX_ITER
           then incomplete_beta_cf n' a b z c d (f_j *. c *. d) (depth + 1)
           else Ok (f_j *. c *. d)
  end.
(** incomplete_beta.hpp:122-133 *)
Definition incomplete_beta_begin (a b z : T) : res T :=
  let* lz := log_check v z in
  let* l1z := log_check v (#1 -. z) in
  let* lb := lbeta a b in
  let* e := exp_check v (a *. lz +. b *. l1z -. lb) in
  let d0 := incomplete_beta_d_update a b z #1 0 in
  let* c := incomplete_beta_cf (Z.to_nat (GCEM_INCML_BETA_MAX_ITER + 1)) a b z #1 d0 d0 1 in
  Ok ((e /. a) *. c).
(** incomplete_beta.hpp:135-151 *)
Definition incomplete_beta_check (a b z : T) : res T :=
  if any_nan3 a b z then Ok (qNaN f)
  else if fmin f >. z then Ok #0
  else if (a +. #1) /. (a +. b +. #2) >. z then incomplete_beta_begin a b z
  else let* r := incomplete_beta_begin b a (#1 -. z) in Ok (#1 -. r).

(** ** incomplete_beta_inv.hpp *)

(** incomplete_beta_inv.hpp:41-52; incomplete_gamma_inv.hpp:37-44 computes the
    same value with [-2*log(..)]. *)
Definition incml_inv_t_val (p : T) : res T :=
  if p >. half f then (let* l := log_check v (#1 -. p) in sqrt_check (-. #2 *. l))
  else (let* l := log_check v p in sqrt_check (-. #2 *. l)).
(** incomplete_beta_inv.hpp:54-61 (double literals) *)
Definition incomplete_beta_inv_int_begin (t : T) : T :=
  t -. (dlit f 2515517 6 +. dlit f 802853 6 *. t +. dlit f 10328 6 *. t *. t)
       /. (#1 +. dlit f 1432788 6 *. t +. dlit f 189269 6 *. t *. t +. dlit f 1308 6 *. t *. t *. t).
(** incomplete_beta_inv.hpp:63-79 *)
Definition incomplete_beta_inv_ab1 (al be : T) : T := #1 /. (#2 *. al -. #1) +. #1 /. (#2 *. be -. #1).
Definition incomplete_beta_inv_ab2 (al be : T) : T := #1 /. (#2 *. be -. #1) -. #1 /. (#2 *. al -. #1).
(** incomplete_beta_inv.hpp:81-100 *)
Definition incomplete_beta_inv_w (value ab2 h : T) : res T :=
  let* s := sqrt_check (h +. (value *. value -. #3) /. #6) in
  Ok (value *. s /. h
      -. ab2 *. ((value *. value -. #3) /. #6 +. #5 /. #6 -. #2 /. (#3 *. h))).
(** incomplete_beta_inv.hpp:102-126 *)
Definition incomplete_beta_inv_initial_val_1 (al be t sg : T) : res T :=
  let* w := incomplete_beta_inv_w (sg *. incomplete_beta_inv_int_begin t)
              (incomplete_beta_inv_ab2 al be) (#2 /. incomplete_beta_inv_ab1 al be) in
  let* e := exp_check v (#2 *. w) in
  Ok (al /. (al +. be *. e)).
(** incomplete_beta_inv.hpp:131-147 *)
Definition incomplete_beta_inv_s1 (al be : T) : res T :=
  let* p := pow_check v (al /. (al +. be)) al in Ok (p /. al).
Definition incomplete_beta_inv_s2 (al be : T) : res T :=
  let* p := pow_check v (be /. (al +. be)) be in Ok (p /. be).
(** incomplete_beta_inv.hpp:149-157 *)
Definition incomplete_beta_inv_initial_val_2 (al be p s1 s2 : T) : res T :=
  if p <=. s1 /. (s1 +. s2) then pow_check v (p *. (s1 +. s2) *. al) (#1 /. al)
  else let* q := pow_check v (p *. (s1 +. s2) *. be) (#1 /. be) in Ok (#1 -. q).
(** incomplete_beta_inv.hpp:161-183 *)
Definition incomplete_beta_inv_initial_val (al be p : T) : res T :=
  if (al >. #1) && (be >. #1) then
    let* t := incml_inv_t_val p in
    incomplete_beta_inv_initial_val_1 al be t (if p <. half f then #1 else #(-1))
  else if p >. half f then
    let* s1 := incomplete_beta_inv_s1 be al in
    let* s2 := incomplete_beta_inv_s2 be al in
    let* r := incomplete_beta_inv_initial_val_2 be al (#1 -. p) s1 s2 in
    Ok (#1 -. r)
  else
    let* s1 := incomplete_beta_inv_s1 al be in
    let* s2 := incomplete_beta_inv_s2 al be in
    incomplete_beta_inv_initial_val_2 al be p s1 s2.
(** incomplete_beta_inv.hpp:197-210 *)
Definition incomplete_beta_inv_deriv_1 (value al be lb : T) : res T :=
  if fmin f >. abs value then Ok #0
  else if fmin f >. abs (#1 -. value) then Ok #0
  else let* l := log_check v value in
       let* l1 := log_check v (#1 -. value) in
       exp_check v ((al -. #1) *. l +. (be -. #1) *. l1 -. lb).
(** incomplete_beta_inv.hpp:188-195, 212-281. With a vanishing derivative the
    decision is taken with iter_count = MAX_ITER+1, i.e. returns
    [value - T(0)]. [n] bounds the calls, the code stops by itself. *)
Fixpoint incomplete_beta_inv_recur (n : nat) (value al be p deriv_1 lb : T) (iter : Z) : res T :=
  match n with
  | O => NoFuel
  | S n' =>
      if fmin f >. abs deriv_1 then Ok (value -. #0)
      else
        let* ib := incomplete_beta_check al be value in
        let r1 := (ib -. p) /. deriv_1 in
        let r2 := (deriv_1 *. ((al -. #1) /. value -. (be -. #1) /. (#1 -. value))) /. deriv_1 in
        let direc := halley r1 r2 in
        if iter <=? GCEM_INCML_BETA_INV_MAX_ITER then
          let* d := incomplete_beta_inv_deriv_1 value al be lb in
          incomplete_beta_inv_recur n' (value -. direc) al be p d lb (iter + 1)
        else Ok (value -. direc)
  end.
(** incomplete_beta_inv.hpp:283-311 *)
Definition incomplete_beta_inv_check (al be p : T) : res T :=
  if any_nan3 al be p then Ok (qNaN f)
  else if fmin f >. p then Ok #0
  else if fmin f >. abs (#1 -. p) then Ok #1
  else
    let* i := incomplete_beta_inv_initial_val al be p in
    let* lb := lbeta al be in
    let* d := incomplete_beta_inv_deriv_1 i al be lb in
    incomplete_beta_inv_recur (Z.to_nat (GCEM_INCML_BETA_INV_MAX_ITER + 2)) i al be p d lb 1.

(** ** incomplete_gamma.hpp *)

(** incomplete_gamma.hpp:33-49: products with the long double tables are long
    double expressions *)
Definition incomplete_gamma_quad_inp_vals (lb ub : T) (c : nat) : T :=
  conv f (conv F80 (ub -. lb) *. nth c gauss_legendre_50_points (qNaN F80) /. conv F80 #2
          +. conv F80 ((ub +. lb) /. #2)).
Definition incomplete_gamma_quad_weight_vals (lb ub : T) (c : nat) : T :=
  conv f (conv F80 (ub -. lb) *. nth c gauss_legendre_50_weights (qNaN F80) /. conv F80 #2).
(** incomplete_gamma.hpp:51-58 *)
Definition incomplete_gamma_quad_fn (x a lg : T) : res T :=
  let* l := log_check v x in exp_check v (-. x +. (a -. #1) *. l -. lg).
(** incomplete_gamma.hpp:60-74; [n] = 49 - counter *)
Fixpoint incomplete_gamma_quad_recur (n : nat) (lb ub a lg : T) (counter : nat) : res T :=
  let* q := incomplete_gamma_quad_fn (incomplete_gamma_quad_inp_vals lb ub counter) a lg in
  let t := q *. incomplete_gamma_quad_weight_vals lb ub counter in
  match n with
  | O => Ok t
  | S n' => let* r := incomplete_gamma_quad_recur n' lb ub a lg (S counter) in Ok (t +. r)
  end.
(** incomplete_gamma.hpp:76-94 *)
Definition incomplete_gamma_quad_lb_mult (a : T) : Z :=
  if a >. #1000 then 11
  else if a >. #800 then 11
  else if a >. #500 then 10
  else if a >. #300 then 10
  else if a >. #100 then 9
  else if a >. #90 then 9
  else if a >. #70 then 8
  else if a >. #50 then 7
  else if a >. #40 then 6
  else if a >. #30 then 5
  else 4.
Definition incomplete_gamma_quad_lb (a z : T) : res T :=
  let* s := sqrt_check a in
  Ok (max #0 (min z a -. #(incomplete_gamma_quad_lb_mult a) *. s)).
(** incomplete_gamma.hpp:96-112 *)
Definition incomplete_gamma_quad_ub_mult (a : T) : Z :=
  if a >. #1000 then 10
  else if a >. #800 then 10
  else if a >. #500 then 9
  else if a >. #300 then 9
  else if a >. #100 then 8
  else if a >. #90 then 8
  else if a >. #70 then 7
  else if a >. #50 then 6
  else 5.
Definition incomplete_gamma_quad_ub (a z : T) : res T :=
  let* s := sqrt_check a in
  Ok (min z (a +. #(incomplete_gamma_quad_ub_mult a) *. s)).
(** incomplete_gamma.hpp:114-121 *)
Definition incomplete_gamma_quad (a z : T) : res T :=
  let* lb := incomplete_gamma_quad_lb a z in
  let* ub := incomplete_gamma_quad_ub a z in
  let* lg := lgamma_check a in
  incomplete_gamma_quad_recur 49 lb ub a lg 0.
(** incomplete_gamma.hpp:126-137 *)
Definition incomplete_gamma_cf_2_step (a z : T) (depth : Z) (r : T) : T :=
  (#(1 + (depth - 1) * 2) -. a +. z) +. #depth *. (a -. #depth) /. r.
Definition incomplete_gamma_cf_2_recur (a z : T) (depth : Z) : T :=
  rec_up depth 100 (incomplete_gamma_cf_2_step a z) (#(1 + (100 - 1) * 2) -. a +. z).
(** incomplete_gamma.hpp:139-146 *)
Definition incomplete_gamma_cf_2 (a z : T) : res T :=
  let* l := log_check v z in
  let* lg := lgamma_check a in
  let* e := exp_check v (a *. l -. z -. lg) in
  Ok (#1 -. e /. incomplete_gamma_cf_2_recur a z 1).
(** incomplete_gamma.hpp:151-158 *)
Definition incomplete_gamma_cf_1_coef (a z : T) (depth : Z) : T :=
  if is_odd depth then -. (a -. #1 +. #(depth + 1) /. #2) *. z else #depth /. #2 *. z.
(** incomplete_gamma.hpp:160-171 *)
Definition incomplete_gamma_cf_1_step (a z : T) (depth : Z) (r : T) : T :=
  (a +. #depth -. #1) +. incomplete_gamma_cf_1_coef a z depth /. r.
Definition incomplete_gamma_cf_1_recur (a z : T) (depth : Z) : T :=
  rec_up depth GCEM_INCML_GAMMA_MAX_ITER (incomplete_gamma_cf_1_step a z)
         (a +. #GCEM_INCML_GAMMA_MAX_ITER -. #1).
(** incomplete_gamma.hpp:173-180 *)
Definition incomplete_gamma_cf_1 (a z : T) : res T :=
  let* l := log_check v z in
  let* lg := lgamma_check a in
  let* e := exp_check v (a *. l -. z -. lg) in
  Ok (e /. incomplete_gamma_cf_1_recur a z 1).
(** incomplete_gamma.hpp:184-209 *)
Definition incomplete_gamma_check (a z : T) : res T :=
  if any_nan a z then Ok (qNaN f)
  else if a <. #0 then Ok (qNaN f)
  else if fmin f >. z then Ok #0
  else if fmin f >. a then Ok #1
  else if (a <. #10) && (z -. a <. #10) then incomplete_gamma_cf_1 a z
  else if (a <. #10) || (z /. a >. #3) then incomplete_gamma_cf_2 a z
  else incomplete_gamma_quad a z.

(** ** incomplete_gamma_inv.hpp *)

(** incomplete_gamma_inv.hpp:46-53 *)
Definition incomplete_gamma_inv_t_val_2 (a : T) : T :=
  #1 -. dlit f 253 3 *. a -. dlit f 12 2 *. a *. a.
(** incomplete_gamma_inv.hpp:57-65 (long double literals) *)
Definition incomplete_gamma_inv_int_begin (t : T) : T :=
  t -. (llit f 2515517 6 +. llit f 802853 6 *. t +. llit f 10328 6 *. t *. t)
       /. (#1 +. llit f 1432788 6 *. t +. llit f 189269 6 *. t *. t +. llit f 1308 6 *. t *. t *. t).
(** incomplete_gamma_inv.hpp:67-83 *)
Definition incomplete_gamma_inv_initial_val_1 (a t sg : T) : res T :=
  let value := sg *. incomplete_gamma_inv_int_begin t in
  let* s := sqrt_check a in
  let* c := pow_integral I32 (#1 -. #1 /. (#9 *. a) -. value /. (#3 *. s)) 3 in
  Ok (max (dlit f 1 4) (a *. c)).
(** incomplete_gamma_inv.hpp:85-96 *)
Definition incomplete_gamma_inv_initial_val_2 (a p t : T) : res T :=
  if p <. t then pow_check v (p /. t) (#1 /. a)
  else let* l := log_check v (#1 -. (p -. t) /. (#1 -. t)) in Ok (#1 -. l).
(** incomplete_gamma_inv.hpp:100-114 *)
Definition incomplete_gamma_inv_initial_val (a p : T) : res T :=
  if a >. #1 then
    let* t := incml_inv_t_val p in
    incomplete_gamma_inv_initial_val_1 a t (if p >. half f then #(-1) else #1)
  else incomplete_gamma_inv_initial_val_2 a p (incomplete_gamma_inv_t_val_2 a).
(** incomplete_gamma_inv.hpp:128-135 *)
Definition incomplete_gamma_inv_deriv_1 (value a lg : T) : res T :=
  let* l := log_check v value in exp_check v (-. value +. (a -. #1) *. l -. lg).
(** incomplete_gamma_inv.hpp:119-126, 137-199. [n] bounds the calls, the code
    stops by itself. *)
Fixpoint incomplete_gamma_inv_recur (n : nat) (value a p deriv_1 lg : T) (iter : Z) : res T :=
  match n with
  | O => NoFuel
  | S n' =>
      let* ig := incomplete_gamma_check a value in
      let r1 := (ig -. p) /. deriv_1 in
      let r2 := (deriv_1 *. ((a -. #1) /. value -. #1)) /. deriv_1 in
      let direc := halley r1 r2 in
      if iter <=? GCEM_INCML_GAMMA_INV_MAX_ITER then
        let* d := incomplete_gamma_inv_deriv_1 value a lg in
        incomplete_gamma_inv_recur n' (value -. direc) a p d lg (iter + 1)
      else Ok (value -. direc)
  end.
(** incomplete_gamma_inv.hpp:201-232 *)
Definition incomplete_gamma_inv_check (a p : T) : res T :=
  if any_nan a p then Ok (qNaN f)
  else if fmin f >. p then Ok #0
  else if p >. #1 then Ok (qNaN f)
  else if fmin f >. abs (#1 -. p) then Ok (infty f)
  else if fmin f >. a then Ok #0
  else
    let* i := incomplete_gamma_inv_initial_val a p in
    let* lg := lgamma_check a in
    let* d := incomplete_gamma_inv_deriv_1 i a lg in
    incomplete_gamma_inv_recur (Z.to_nat (GCEM_INCML_GAMMA_INV_MAX_ITER + 2)) i a p d lg 1.

End Special.

Arguments lgamma_term_2 v {f}.
Arguments lgamma_term_1 v {f}.
Arguments lgamma_begin v {f}.
Arguments lgamma_check v {f}.
Arguments tgamma_check v {f}.
Arguments factorial_flt v {f}.
Arguments lbeta v {f}.
Arguments beta v {f}.
Arguments lmgamma_recur v {f}.
Arguments log_binomial_coef_compute v {f}.
Arguments erf_cf_large_step {f}.
Arguments erf_cf_large_recur v {f}.
Arguments erf_cf_large_main v {f}.
Arguments erf_cf_small_step_14 {f}.
Arguments erf_cf_small_step_11 {f}.
Arguments erf_cf_small_recur v {f}.
Arguments erf_cf_small_main v {f}.
Arguments erf_begin v {f}.
Arguments erf_check v {f}.
Arguments erf_inv_initial_val_case_2 {f}.
Arguments erf_inv_initial_val_case_1 {f}.
Arguments erf_inv_initial_val_int {f}.
Arguments erf_inv_initial_val v {f}.
Arguments erf_inv_deriv_1 v {f}.
Arguments halley {f}.
Arguments erf_inv_recur v {f}.
Arguments erf_inv_recur_begin v {f}.
Arguments erf_inv_begin v {f}.
Arguments incomplete_beta_coef_even {f}.
Arguments incomplete_beta_coef_odd {f}.
Arguments incomplete_beta_coef {f}.
Arguments incomplete_beta_c_update {f}.
Arguments incomplete_beta_d_update {f}.
Arguments lt_incml_beta_tol {f}.
Arguments incomplete_beta_cf {f}.
Arguments incomplete_beta_begin v {f}.
Arguments incomplete_beta_check v {f}.
Arguments incml_inv_t_val v {f}.
Arguments incomplete_beta_inv_int_begin {f}.
Arguments incomplete_beta_inv_ab1 {f}.
Arguments incomplete_beta_inv_ab2 {f}.
Arguments incomplete_beta_inv_w {f}.
Arguments incomplete_beta_inv_initial_val_1 v {f}.
Arguments incomplete_beta_inv_s1 v {f}.
Arguments incomplete_beta_inv_s2 v {f}.
Arguments incomplete_beta_inv_initial_val_2 v {f}.
Arguments incomplete_beta_inv_initial_val v {f}.
Arguments incomplete_beta_inv_deriv_1 v {f}.
Arguments incomplete_beta_inv_recur v {f}.
Arguments incomplete_beta_inv_check v {f}.
Arguments incomplete_gamma_quad_inp_vals {f}.
Arguments incomplete_gamma_quad_weight_vals {f}.
Arguments incomplete_gamma_quad_fn v {f}.
Arguments incomplete_gamma_quad_recur v {f}.
Arguments incomplete_gamma_quad_lb_mult {f}.
Arguments incomplete_gamma_quad_lb {f}.
Arguments incomplete_gamma_quad_ub_mult {f}.
Arguments incomplete_gamma_quad_ub {f}.
Arguments incomplete_gamma_quad v {f}.
Arguments incomplete_gamma_cf_2_step {f}.
Arguments incomplete_gamma_cf_2_recur {f}.
Arguments incomplete_gamma_cf_2 v {f}.
Arguments incomplete_gamma_cf_1_coef {f}.
Arguments incomplete_gamma_cf_1_step {f}.
Arguments incomplete_gamma_cf_1_recur {f}.
Arguments incomplete_gamma_cf_1 v {f}.
Arguments incomplete_gamma_check v {f}.
Arguments incomplete_gamma_inv_t_val_2 {f}.
Arguments incomplete_gamma_inv_int_begin {f}.
Arguments incomplete_gamma_inv_initial_val_1 {f}.
Arguments incomplete_gamma_inv_initial_val_2 v {f}.
Arguments incomplete_gamma_inv_initial_val v {f}.
Arguments incomplete_gamma_inv_deriv_1 v {f}.
Arguments incomplete_gamma_inv_recur v {f}.
Arguments incomplete_gamma_inv_check v {f}.
