(** Vocabulary for property C55 (MPS::orthogonalize), independent of the model: what
    diagPosSemiDef promises about a positive semidefinite matrix. *)
From Coq Require Import List Arith.
From Verif Require Import Util BigSum.
Import ListNotations.

Section OrtSpec.
Context {R : Type} (r0 r1 : R) (radd rmul : R -> R -> R) (conj : R -> R).
Notation bsum := (bsum r0 radd).
Notation delta := (delta r0 r1).
Notation "x * y" := (rmul x y).

(** The sum over a list of numbers of |x|^2. *)
Fixpoint square_sum (l : list R) : R := match l with [] => r0 | x :: l' => radd (x * conj x) (square_sum l') end.
(** |x|^2 is definite, as for the real and the complex numbers: a sum of squares is zero only
    if every number is zero. *)
Definition definite : Prop := forall l, square_sum l = r0 -> Forall (fun x => x = r0) l.

(** A matrix whose row and column are pairs (site value, link value). *)
Definition pmatrix := nat -> nat -> nat -> nat -> R.
(** A positive semidefinite matrix: the Gram matrix of some n vectors. *)
Definition gram (p r : nat) (rho : pmatrix) : Prop :=
  exists n (X : nat -> nat -> nat -> R), forall s k s' k', s < p -> k < r -> s' < p -> k' < r ->
    rho s k s' k' = bsum n (fun c => X c s k * conj (X c s' k')).
(** A matrix of rank at most q. *)
Definition rank_le (q p r : nat) (rho : pmatrix) : Prop :=
  exists (M : nat -> nat -> nat -> R) (N : nat -> nat -> nat -> R), forall s k s' k', s < p -> k < r -> s' < p -> k' < r ->
    rho s k s' k' = bsum q (fun a => M s k a * N a s' k').

(** Orthonormal columns. *)
Definition isometry (p r m : nat) (U : nat -> nat -> nat -> R) : Prop :=
  forall q q', q < m -> q' < m -> bsum p (fun s => bsum r (fun k => U s k q * conj (U s k q'))) = delta q q'.
(** rho = dag(U) * D * prime(U), the rows of rho going with dag(U). *)
Definition diagonalises (p r m : nat) (U : nat -> nat -> nat -> R) (rho : pmatrix) : Prop :=
  exists D : nat -> R, forall s k s' k', s < p -> k < r -> s' < p -> k' < r ->
    rho s k s' k' = bsum m (fun q => conj (U s k q) * D q * U s' k' q).

(** What diagPosSemiDef promises of a positive semidefinite matrix, when it returns: the columns
    are orthonormal; and, if MaxDim does not cut the rank, nothing but zero eigenvalues is dropped. *)
Definition diag_ok (diag : option nat -> nat -> nat -> pmatrix -> outcome (nat * (nat -> nat -> nat -> R))) : Prop :=
  forall mx p r rho m U, gram p r rho -> diag mx p r rho = Ok (m, U) ->
    isometry p r m U /\ ((forall q, mx = Some q -> rank_le q p r rho) -> diagonalises p r m U rho).
End OrtSpec.
