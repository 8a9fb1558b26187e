(** Vocabulary for property C66 (expMatrix): matrices, polynomials of a matrix, Pade approximants of the
    exponential, and what LAPACK and the C library promise. *)
From Coq Require Import List Arith Bool ZArith.
From Verif Require Import Util BigSum.
Import ListNotations.

Section Pade.
Context {T : Type} (t0 t1 : T) (tadd tmul : T -> T -> T) (topp tinv : T -> T).
Notation bsum := (bsum t0 tadd).

Definition mat : Type := nat -> nat -> T.
(** Equal as n x n matrices. *)
Definition meq (n : nat) (A B : mat) : Prop := forall i j, i < n -> j < n -> A i j = B i j.
Definition mone : mat := fun i j => if i =? j then t1 else t0.
Definition madd (A B : mat) : mat := fun i j => tadd (A i j) (B i j).
Definition mscale (c : T) (A : mat) : mat := fun i j => tmul c (A i j).
Definition mmul (n : nat) (A B : mat) : mat := fun i j => bsum n (fun k => tmul (A i k) (B k j)).
Fixpoint mpow (n : nat) (A : mat) (k : nat) : mat :=
  match k with O => mone | S k' => mmul n (mpow n A k') A end.
(** c_0 + c_1 A + c_2 A^2 + ... *)
Fixpoint mpoly (n : nat) (c : list T) (A : mat) : mat :=
  match c with [] => fun _ _ => t0 | x :: c' => madd (mscale x mone) (mmul n (mpoly n c' A) A) end.
Definition invertible (n : nat) (A : mat) : Prop := exists B, meq n (mmul n B A) mone.

(** Natural numbers as numbers, and factorials. *)
Fixpoint ofN (n : nat) : T := match n with 0 => t0 | S n' => tadd (ofN n') t1 end.
(** num/den is the [q/q] Pade approximant of exp: both have degree q, den(0) = 1, and den(z) exp(z) and num(z)
    have the same coefficients up to z^(2q). *)
Definition pade (q : nat) (num den : list T) : Prop :=
  length num = S q /\ length den = S q /\ nth 0 den t0 = t1 /\
  forall m, m <= 2 * q ->
    bsum (S m) (fun k => tmul (nth k den t0) (tinv (ofN (fact (m - k))))) = nth m num t0.

(** ?gesv(n,Q,P), when it reports no error: Q is not singular and the result solves Q X = P. *)
Definition gesv_ok (gesv : nat -> mat -> mat -> outcome mat) : Prop :=
  forall n Q P X, gesv n Q P = Ok X -> meq n (mmul n Q X) P /\ invertible n Q.
(** It reports none if Q, an n x n matrix, is not singular. *)
Definition gesv_total (gesv : nat -> mat -> mat -> outcome mat) (n : nat) : Prop :=
  forall Q P, (forall v, (forall i, i < n -> bsum n (fun k => tmul (Q i k) (v k)) = t0) -> forall i, i < n -> v i = t0) ->
  exists X, gesv n Q P = Ok X.
End Pade.

Section Norm.
Context {F : Type} (f0 f1 : F) (fadd fmul : F -> F -> F) (finv : F -> F) (fltb : F -> F -> bool) {T : Type} (tabs : T -> F).
(** 2^z *)
Definition fpow2 (z : Z) : F :=
  match z with
  | Z0 => f1
  | Zpos p => Nat.iter (Pos.to_nat p) (fmul (fadd f1 f1)) f1
  | Zneg p => finv (Nat.iter (Pos.to_nat p) (fmul (fadd f1 f1)) f1)
  end.
(** The logarithm of x to base 2, truncated toward zero. *)
Definition trunc_log2_ok (tlog : F -> Z) : Prop :=
  forall x, fltb f0 x = true ->
    (0 < tlog x -> fltb x (fpow2 (tlog x)) = false)%Z /\ (0 <= tlog x -> fltb x (fpow2 (tlog x + 1)) = true)%Z /\
    (tlog x < 0 -> fltb (fpow2 (tlog x)) x = false)%Z /\ (tlog x <= 0 -> fltb (fpow2 (tlog x - 1)) x = true)%Z.
(** The largest row sum of the absolute values is below b. *)
Definition rows_below (n : nat) (A : nat -> nat -> T) (b : F) : Prop :=
  forall i, i < n -> fltb (bsum f0 fadd n (fun j => tabs (A i j))) b = true.
End Norm.

(** The absolute value of the scalars T. *)
Record abs_ok {F : Type} (f0 : F) (fadd fmul : F -> F -> F) (fltb : F -> F -> bool)
  {T : Type} (t0 t1 : T) (tadd tmul : T -> T -> T) (tabs : T -> F) (f1 : F) : Prop := {
  ab_pos : forall x, fltb (tabs x) f0 = false;
  ab_zero : forall x, tabs x = f0 <-> x = t0;
  ab_one : tabs t1 = f1;
  ab_mul : forall x y, tabs (tmul x y) = fmul (tabs x) (tabs y);
  ab_add : forall x y, fltb (fadd (tabs x) (tabs y)) (tabs (tadd x y)) = false;
  ab_nat : forall n, tabs (ofN t0 t1 tadd n) = ofN f0 f1 fadd n }.

(** Complex conjugation of the scalars T (the identity for real ones), the adjoint matrix, unitary matrices. *)
Record conj_ok {T : Type} (t1 : T) (tadd tmul : T -> T -> T) (conj : T -> T) : Prop := {
  cj_one : conj t1 = t1;
  cj_add : forall x y, conj (tadd x y) = tadd (conj x) (conj y);
  cj_mul : forall x y, conj (tmul x y) = tmul (conj x) (conj y);
  cj_conj : forall x, conj (conj x) = x }.
Definition madj {T : Type} (conj : T -> T) (A : @mat T) : mat := fun i j => conj (A j i).
Definition unitary {T : Type} (t0 t1 : T) (tadd tmul : T -> T -> T) (conj : T -> T) (n : nat) (X : mat) : Prop :=
  meq n (mmul t0 tadd tmul n (madj conj X) X) (mone t0 t1) /\ meq n (mmul t0 tadd tmul n X (madj conj X)) (mone t0 t1).
