(** Vocabulary for the QR decomposition. *)
From Coq Require Import List Arith.
From Verif Require Import TensorSpec SvdSpec.
Import ListNotations.

Section Spec.
Context {R : Type} (r0 r1 : R) (radd rmul : R -> R -> R) (conj : R -> R).
Notation sum := (sum_below r0 radd).
Notation kron := (kron r0 r1).
Notation cm := (cm r0).

(** LAPACK's geqrf followed by orgqr on an m x n matrix, asking for k orthonormal columns.  Input: the
    matrix, padded to max n k columns.  Output: what geqrf leaves (its upper triangle is R) and the
    columns of Q.  When they succeed they are exact: A = Q R, the columns of Q are orthonormal, and if
    there are m of them so are its rows. *)
Definition exact_qr (f : nat -> nat -> nat -> list R -> option (list R * list R)) : Prop :=
  forall m n k a h q, 0 < m -> 0 < n -> (k = m \/ k = n /\ n <= m) -> length a = m * Nat.max n k -> f m n k a = Some (h, q) ->
    length h = m * Nat.max n k /\ length q = m * Nat.max n k /\
    (forall i j, i < m -> j < n -> cm m a i j = sum k (fun r => rmul (cm m q i r) (if r <=? j then cm m h r j else r0))) /\
    (forall r r', r < k -> r' < k -> sum m (fun i => rmul (conj (cm m q i r)) (cm m q i r')) = kron r r') /\
    (k = m -> forall i i', i < m -> i' < m -> sum m (fun r => rmul (cm m q i r) (conj (cm m q i' r))) = kron i i').
(** The routines report failure for some matrix. *)
Definition qr_fails (f : nat -> nat -> nat -> list R -> option (list R * list R)) : Prop :=
  exists m n k a, 0 < m /\ 0 < n /\ length a = m * Nat.max n k /\ f m n k a = None.

Section Tensors.
Context {I : Type} (ieq : I -> I -> bool) (dim : I -> nat).
Notation override := (override ieq).
Notation elts := ((I -> nat) -> R).

(** Q is the square identity also when summed over the new index: with [isometry], Q is unitary. *)
Definition coisometry (is : list I) (l : I) (k : nat) (Q : elts) : Prop :=
  forall s s', inrange dim is s -> inrange dim is s' ->
    sum k (fun x => rmul (Q (override s l x)) (conj (Q (override s' l x)))) = if forallb (fun y => s y =? s' y) is then r1 else r0.

(** A = Q*R, Q and R sharing the index l of dimension k; Q has orthonormal columns and is unitary if
    complete; R is upper triangular, J numbering the joint values of R's other indices; the numbers of its
    diagonal do not satisfy neg if positive. *)
Definition qr_of (AA Qi : list I) (J : (I -> nat) -> nat) (neg : R -> bool) (complete positive : bool)
    (A Q : elts) (l : I) (Rt : elts) (k : nat) : Prop :=
  (forall s, inrange dim AA s -> A s = sum k (fun x => rmul (Q (override s l x)) (Rt (override s l x)))) /\
  isometry r0 r1 radd rmul conj ieq dim Qi l k Q /\
  (complete = true -> k = fold_right Nat.mul 1 (map dim Qi) /\ coisometry Qi l k Q) /\
  (forall s x, inrange dim AA s -> x < k -> J s < x -> Rt (override s l x) = r0) /\
  (positive = true -> forall s, inrange dim AA s -> J s < k -> neg (Rt (override s l (J s))) = false).
End Tensors.
End Spec.
