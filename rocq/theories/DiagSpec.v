(** What a diagonal tensor is.  Independent of the contraction loops. *)
From Coq Require Import List Arith Bool.
From Verif Require Import DiagModel.
Import ListNotations.

Section Spec.
Context {R : Type} (r0 : R).
Context {I : Type} (idim : I -> nat).

(** The element of the diagonal tensor with diagonal entries vals(0), vals(1), ... for the index
    values s: zero unless all values agree. *)
Definition diagonal (vals : nat -> R) (is : list I) (s : I -> nat) : R :=
  match is with
  | [] => vals 0
  | x :: r => if forallb (fun y => s y =? s x) r then vals (s x) else r0
  end.

(** The J-th diagonal entry the storage describes: one common value, or a list of values. *)
Definition entry (d : diag R) (J : nat) : R :=
  match dst d with [] => dv d | l => nth J l r0 end.

(** A well-formed diagonal tensor: distinct indices, dimensions at least 1, and as many diagonal
    entries as the smallest dimension. *)
Definition diag_tensor (is : list I) (d : diag R) : Prop :=
  NoDup is /\ (forall x, In x is -> 0 < idim x) /\ dl d = minDim idim is /\
  (dst d = [] \/ length (dst d) = minDim idim is).
End Spec.
