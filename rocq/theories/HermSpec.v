(** Vocabulary for Hermitian diagonalisation: tensors with pairs of indices, exact eigendecompositions,
    the product of the factors, functions of an operator. *)
From Coq Require Import List Arith Permutation.
From Verif Require Import TensorSpec SvdSpec.
Import ListNotations.

Section Spec.
Context {R : Type} (r0 r1 : R) (radd rmul : R -> R -> R) (conj : R -> R).
Notation sum := (sum_below r0 radd).
Notation cm := (cm r0).
Notation kron := (kron r0 r1).

(** u and w are the eigenvectors (columns) and eigenvalues of the n x n matrix a: a = u diag(w) u^dagger,
    u is unitary, the eigenvalues are real. *)
Definition exact_eigen (n : nat) (a u w : list R) : Prop :=
  length u = n * n /\ length w = n /\
  (forall i j, i < n -> j < n -> cm n a i j = sum n (fun r => rmul (rmul (cm n u i r) (nth r w r0)) (conj (cm n u j r)))) /\
  (forall r r', r < n -> r' < n -> sum n (fun i => rmul (conj (cm n u i r)) (cm n u i r')) = kron r r') /\
  (forall i j, i < n -> j < n -> sum n (fun r => rmul (cm n u i r) (conj (cm n u j r))) = kron i j) /\
  (forall r, r < n -> conj (nth r w r0) = nth r w r0).
(** A LAPACK routine (dsyev, zheev) whose results for Hermitian matrices, when it reports success, are exact. *)
Definition exact_heev (f : nat -> list R -> option (list R * list R)) : Prop :=
  forall n a u w, 0 < n -> length a = n * n -> (forall i j, i < n -> j < n -> cm n a i j = conj (cm n a j i)) ->
    f n a = Some (u, w) -> exact_eigen n a u w.
Definition heev_fails (f : nat -> list R -> option (list R * list R)) : Prop :=
  exists n a, 0 < n /\ length a = n * n /\ f n a = None.

Section Tensors.
(** An index: what it is without its prime level, and its prime level. *)
Context {J : Type}.
Notation I := (J * nat)%type.
Context (ieq : I -> I -> bool) (dim : I -> nat).
Notation override := (override ieq).
Notation inrange := (inrange dim).
Notation elts := ((I -> nat) -> R).

(** prime(x,p) of an index, and prime(T,p) of a tensor: its element at s is the element of T where every
    index has the value that its primed copy has in s. *)
Definition prime (p : nat) (x : I) : I := (fst x, snd x + p).
Definition primed (p : nat) (s : I -> nat) : I -> nat := fun x => s (prime p x).

(** The indices AA are those of L and their copies primed p times, the prime levels of the copies of one
    index in L lying less than p apart. *)
Definition paired (p : nat) (L AA : list I) : Prop :=
  L <> [] /\ Permutation AA (L ++ map (prime p) L) /\ forall j a b, In (j, a) L -> In (j, b) L -> b < a + p.

(** Exchanging the values of the two copies gives the complex conjugate. *)
Definition hermitian (p : nat) (L AA : list I) (A : elts) : Prop :=
  forall s s', inrange AA s -> (forall x, In x L -> s' x = s (prime p x) /\ s' (prime p x) = s x) -> A s' = conj (A s).

(** dag(U)*D*prime(U,p), D being diagonal on l and prime(l,p). *)
Definition udu (p : nat) (U : elts) (l : I) (D : list R) : elts :=
  udv r0 radd rmul ieq (fun s => conj (U s)) l (prime p l) D (fun s => U (primed p s)).

(** The rows of U are orthonormal: with isometry, U is unitary. *)
Definition complete (L : list I) (l : I) (k : nat) (U : elts) : Prop :=
  forall s s', inrange L s -> inrange L s' ->
    let c := sum k (fun x => rmul (conj (U (override s l x))) (U (override s' l x))) in
    ((forall x, In x L -> s x = s' x) -> c = r1) /\ ((exists x, In x L /\ s x <> s' x) -> c = r0).

(** dag(U)*D*prime(U,p) is the eigendecomposition of A with, of the eigenvalues ds of the blocks, the first
    ks kept: U has orthonormal columns, the eigenvalues are real, the square of the norm of what is missing is the sum of the
    squares of the discarded eigenvalues; if none are discarded nothing is missing and U is unitary. *)
Definition eig_of (rsub : R -> R -> R) (p : nat) (AA L : list I) (A U : elts) (l : I) (D : list R) (ds : list (list R)) (ks : list nat) : Prop :=
  D = kept ks ds /\ isometry r0 r1 radd rmul conj ieq dim L l (length D) U /\ (forall x, In x D -> conj x = x) /\
  (forall s, norm2 r0 radd rmul conj ieq dim AA (fun t => rsub (A t) (udu p U l D t)) s = squares r0 radd rmul (discarded ks ds)) /\
  (discarded ks ds = [] -> (forall s, inrange AA s -> udu p U l D s = A s) /\ complete L l (length D) U).

(** v, a tensor on L, is an eigenvector of the operator T from the primed to the unprimed indices. *)
Definition eigenvector (p : nat) (L : list I) (T : elts) (lam : R) (v : elts) : Prop :=
  (forall s s', (forall x, In x L -> s x = s' x) -> v s = v s') /\
  forall s, inrange L s -> sum_over r0 radd ieq dim (map (prime p) L) (fun t => rmul (T t) (v (primed p t))) s = rmul lam (v s).
End Tensors.
End Spec.
