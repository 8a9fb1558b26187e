(** Tensors of a matrix product state with their entries, and the local
    factorisations used to move the orthogonality centre. *)
From Coq Require Import ZArith List Bool Arith.
From Verif Require Import Util BigSum MpsModel.
Import ListNotations.
Local Open Scope outcome_scope.

Section MpsTensor.
Context {R : Type} (r0 : R) (radd rmul : R -> R -> R).
Notation bsum := (bsum r0 radd).

(** A tensor A_j of an MPS: left link, site and right link dimension, and the
    element at (left, site, right), all counted from 0.  A missing link (the
    left of site 1, the right of site N) has dimension 1.  [tj] says whether the
    tensor shares an Index with its right neighbour (commonIndex, mps.cc:649). *)
Record tensor := mkT { tl : nat; tp : nat; tr : nat; tj : bool; te : nat -> nat -> nat -> R }.
(** A matrix between an old and a new link. *)
Definition matrix := nat -> nat -> R.
(** A two-site tensor psi(b)*psi(b+1): left link, two sites, right link; [wj] says
    whether it shares an Index with psi(b+2). *)
Record wave := mkW { wl : nat; wp1 : nat; wp2 : nat; wr : nat; wj : bool;
  we : nat -> nat -> nat -> nat -> R }.

(** R *= (D*B) when R is the right neighbour. *)
Definition mul_left (M : matrix) (k : nat) (t : tensor) : tensor :=
  mkT k (tp t) (tr t) (tj t) (fun c s b => bsum (tl t) (fun a => rmul (M c a) (te t a s b))).
(** R *= (D*B) when R is the left neighbour. *)
Definition mul_right (M : matrix) (k : nat) (t : tensor) : tensor :=
  mkT (tl t) (tp t) k (tj t) (fun a s c => bsum (tr t) (fun b => rmul (te t a s b) (M b c))).
Definition pair2 (x y : tensor) : wave :=
  mkW (tl x) (tp x) (tp y) (tr y) (tj y)
    (fun a s s' b => bsum (tr x) (fun c => rmul (te x a s c) (te y c s' b))).

(** svd(L,A,D,B) in orthMPS, seen as L = A (D B): [svdl] factors A_b as a tensor
    on the same left link and site times a matrix on the right link, [svdr] the
    mirror image.  The numerical algorithm is a parameter. *)
Variable svdl svdr : tensor -> outcome (tensor * matrix).

(** mps.cc:643-668, orthMPS(A1,A2,Fromleft): L = A1, R = A2. *)
Definition orthL (x y : tensor) : outcome (tensor * tensor) :=
  if tj x then
    let! (q, M) := svdl x in Ok (q, mul_left M (tr q) y)
  else Ok (x, y).
(** orthMPS(A1,A2,Fromright): L = A2, R = A1. *)
Definition orthR (x y : tensor) : outcome (tensor * tensor) :=
  if tj x then
    let! (q, M) := svdr y in Ok (mul_right M (tl q) x, q)
  else Ok (x, y).
End MpsTensor.
