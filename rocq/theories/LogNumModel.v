(** Model of LogNum (itensor/real.h:71-336): a real number kept as sign and logarithm.

    Real is the exact real line plus NaN, written None (Coq's Reals have no NaN); rounding and the
    infinities are not modelled.  [maxlog] is maxlogdouble (real.h:34), any positive number here. *)
From Coq Require Import Reals ZArith Bool.
From Verif Require Import Util.
Local Open Scope outcome_scope.

(** real.h:74-77: lognum_ and sign_. *)
Record lognum := mkLN { lg : option R; sg : Z }.
(** real.h:80-86: the default is NaN with sign 1. *)
Definition ln_default : lognum := mkLN None 1.

(** Comparisons of doubles: false with a NaN operand. *)
Definition flt (a b : option R) : bool :=
  match a, b with Some x, Some y => if Rlt_dec x y then true else false | _, _ => false end.
Definition feq (a b : option R) : bool :=
  match a, b with Some x, Some y => if Req_EM_T x y then true else false | _, _ => false end.
Definition fop (f : R -> R -> R) (a b : option R) : option R :=
  match a, b with Some x, Some y => Some (f x y) | _, _ => None end.
Definition fmap (f : R -> R) (a : option R) : option R := match a with Some x => Some (f x) | None => None end.

(** explicit LogNum(Real) (real.h:88-107). log(NaN) is NaN, reached through the last branch. *)
Definition ln_of (r : option R) : lognum :=
  if feq r (Some 0%R) then mkLN (Some 0%R) 0
  else if flt r (Some 0%R) then mkLN (fmap (fun x => ln (- x)) r) (-1)
  else mkLN (fmap ln r) 1.

(** isZero, isRealZero, isFiniteReal, isTooBigForReal, isTooSmallForReal (real.h:126-143). *)
Definition isZero (l : lognum) : bool := (sg l =? 0)%Z.
Definition isRealZero (maxlog : R) (l : lognum) : bool := (sg l =? 0)%Z || flt (lg l) (Some (- maxlog)%R).
Definition isTooBig (maxlog : R) (l : lognum) : bool := flt (Some maxlog) (lg l).
Definition isTooSmall (maxlog : R) (l : lognum) : bool := flt (lg l) (Some (- maxlog)%R).
Definition isFiniteReal (maxlog : R) (l : lognum) : bool := flt (lg l) (Some maxlog) && flt (Some (- maxlog)%R) (lg l).

(** real() (real.h:162-180); the checks are there only when DEBUG is defined.  real0 (182-187). *)
Definition real (debug : bool) (maxlog : R) (l : lognum) : outcome (option R) :=
  if (sg l =? 0)%Z then Ok (Some 0%R)
  else if debug && (isTooBig maxlog l || isTooSmall maxlog l) then Err
  else Ok (fmap (fun x => IZR (sg l) * exp x)%R (lg l)).
Definition real0 (debug : bool) (maxlog : R) (l : lognum) : outcome (option R) :=
  if isRealZero maxlog l then Ok (Some 0%R) else real debug maxlog l.

(** operator+= (real.h:189-201). *)
Definition ln_add (debug : bool) (maxlog : R) (l m : lognum) : outcome lognum :=
  let! x := real debug maxlog l in let! y := real debug maxlog m in Ok (ln_of (fop Rplus x y)).
(** ==, approxEquals, negate, *=, *=(Real), /=, -, pow, sqrt (real.h:204-261, 314-319, 330-336). *)
Definition ln_eqb (l m : lognum) : bool := (sg l =? sg m)%Z && feq (lg l) (lg m).
Definition ln_neqb (l m : lognum) : bool := negb (sg l =? sg m)%Z || negb (feq (lg l) (lg m)).
Definition ln_approx (l m : lognum) : bool :=
  (sg l =? sg m)%Z && flt (fmap Rabs (fop Rminus (lg l) (lg m))) (Some (/ 1000000000000)%R).
Definition ln_neg (l : lognum) : lognum := mkLN (lg l) (sg l * -1).
Definition ln_mul (l m : lognum) : lognum := mkLN (fop Rplus (lg l) (lg m)) (sg l * sg m).
Definition ln_mulr (l : lognum) (x : option R) : lognum := if feq x (Some (-1)%R) then mkLN (lg l) (sg l * -1) else ln_mul l (ln_of x).
Definition ln_div (debug : bool) (l m : lognum) : outcome lognum :=
  if debug && (sg m =? 0)%Z then Err else Ok (mkLN (fop Rminus (lg l) (lg m)) (sg l * sg m)).
Definition ln_pow (l : lognum) (p : R) : lognum := mkLN (fmap (fun x => x * p)%R (lg l)) (sg l).
Definition ln_sqrt (l : lognum) : outcome lognum := if (sg l <? 0)%Z then Err else Ok (ln_pow l (/ 2)%R).
(** <, <=, >=, >, magnitudeLessThan (real.h:263-292, 306-312). *)
Definition ln_lt (l m : lognum) : bool :=
  if negb (sg l =? sg m)%Z then (sg l <? sg m)%Z
  else if (0 <? sg l)%Z then flt (lg l) (lg m)
  else if (sg l =? 0)%Z then false
  else flt (lg m) (lg l).
Definition ln_le (l m : lognum) : bool := ln_lt l m || ln_eqb l m.
Definition ln_ge (l m : lognum) : bool := negb (ln_lt l m).
Definition ln_gt (l m : lognum) : bool := negb (ln_lt l m) && negb (ln_eqb l m).
Definition ln_maglt (l m : lognum) : bool :=
  if (sg l =? 0)%Z then negb (sg m =? 0)%Z else if (sg m =? 0)%Z then false else flt (lg l) (lg m).
