(** What the elements of a stored tensor are, and what an Einstein sum is.
    Independent of the model's loops, permutations and matrix products. *)
From Coq Require Import List ZArith Arith Bool.
Import ListNotations.

(** Position of the element with (0-based) index values t in storage whose first index runs fastest. *)
Fixpoint colmajor (e t : list nat) : nat :=
  match e, t with d :: e', i :: t' => i + d * colmajor e' t' | _, _ => 0 end.

Section Spec.
Context {R : Type} (r0 : R) (radd rmul : R -> R -> R).
Context {I : Type} (ieq : I -> I -> bool) (dim : I -> nat).

(** A tensor with indices [is] assigns an element to every choice of a value for each index;
    [s x] is the chosen value of index x. *)
Definition elt (is : list I) (data : list R) (s : I -> nat) : R :=
  nth (colmajor (map dim is) (map s is)) data r0.

(** [data] has one element per choice of index values. *)
Definition full (is : list I) (data : list R) : Prop :=
  length data = fold_right Nat.mul 1 (map dim is).

(** The values chosen for the indices [is] are in range. *)
Definition inrange (is : list I) (s : I -> nat) : Prop := forall x, In x is -> s x < dim x.

(** The choice s changed at index x. *)
Definition override (s : I -> nat) (x : I) (v : nat) : I -> nat := fun y => if ieq x y then v else s y.

(** f(0) + ... + f(n-1). *)
Fixpoint sum_below (n : nat) (f : nat -> R) : R :=
  match n with O => r0 | S n' => radd (sum_below n' f) (f n') end.

(** Sum of f over all values of the indices xs, the other indices keeping their value in s. *)
Fixpoint sum_over (xs : list I) (f : (I -> nat) -> R) (s : I -> nat) : R :=
  match xs with
  | [] => f s
  | x :: xs' => sum_below (dim x) (fun v => sum_over xs' f (override s x v))
  end.

Definition mem (x : I) (l : list I) : bool := existsb (ieq x) l.
(** Indices of L that R has too, and those it has not. *)
Definition common (L Rr : list I) : list I := filter (fun x => mem x Rr) L.
Definition only (L Rr : list I) : list I := filter (fun x => negb (mem x Rr)) L.
End Spec.
