(** Vocabulary for decompositions: exact LAPACK results, orthonormal columns, the product of the factors. *)
From Coq Require Import List Arith.
From Verif Require Import TensorSpec.
Import ListNotations.

Section Spec.
Context {R : Type} (r0 r1 : R) (radd rmul : R -> R -> R) (conj : R -> R).
Notation sum := (sum_below r0 radd).

Definition kron (i j : nat) : R := if i =? j then r1 else r0.
(** Element (i,j) of a matrix with m rows stored column after column. *)
Definition cm (m : nat) (a : list R) (i j : nat) : R := nth (i + m * j) a r0.

(** u, s, vt is a singular value decomposition of the m x n matrix a with m <= n: a = u diag(s) vt, the
    columns of u and the rows of vt are orthonormal, and the singular values are real. *)
Definition exact_svd (m n : nat) (a u s vt : list R) : Prop :=
  length s = m /\ length u = m * m /\ length vt = m * n /\
  (forall i j, i < m -> j < n -> cm m a i j = sum m (fun r => rmul (rmul (cm m u i r) (nth r s r0)) (cm m vt r j))) /\
  (forall r r', r < m -> r' < m -> sum m (fun i => rmul (conj (cm m u i r)) (cm m u i r')) = kron r r') /\
  (forall r r', r < m -> r' < m -> sum n (fun j => rmul (cm m vt r j) (conj (cm m vt r' j))) = kron r r') /\
  (forall r, r < m -> conj (nth r s r0) = nth r s r0).
(** A LAPACK routine whose results, when it reports success, are exact. *)
Definition exact_lapack (f : nat -> nat -> list R -> option (list R * list R * list R)) : Prop :=
  forall m n a u s vt, 0 < m <= n -> length a = m * n -> f m n a = Some (u, s, vt) -> exact_svd m n a u s vt.

(** A LAPACK routine reports failure for some matrix. *)
Definition fails (f : nat -> nat -> list R -> option (list R * list R * list R)) : Prop :=
  exists m n a, 0 < m <= n /\ length a = m * n /\ f m n a = None.

(** conj is a conjugation: an involution respecting sums and products. *)
Definition conjugation : Prop :=
  (forall a b, conj (radd a b) = radd (conj a) (conj b)) /\
  (forall a b, conj (rmul a b) = rmul (conj a) (conj b)) /\ forall a, conj (conj a) = a.

(** Sum of the squares of some singular values. *)
Definition squares (l : list R) : R := fold_right (fun d acc => radd (rmul d d) acc) r0 l.
(** What is kept, and what is discarded, of the singular values of every block. *)
Fixpoint kept (ks : list nat) (ds : list (list R)) : list R :=
  match ks, ds with k :: ks', d :: ds' => firstn k d ++ kept ks' ds' | _, _ => [] end.
Fixpoint discarded (ks : list nat) (ds : list (list R)) : list R :=
  match ks, ds with k :: ks', d :: ds' => skipn k d ++ discarded ks' ds' | _, _ => [] end.

Section Tensors.
Context {I : Type} (ieq : I -> I -> bool) (dim : I -> nat).
Notation override := (override ieq).
(** A tensor is its elements: a function of the values of the indices. *)
Notation elts := ((I -> nat) -> R).

(** The element of U*D*V, D being diagonal on the indices l and r. *)
Definition udv (U : elts) (l r : I) (D : list R) (V : elts) : elts :=
  fun s => sum (length D) (fun x => rmul (rmul (U (override s l x)) (nth x D r0)) (V (override s r x))).

(** dag(U)*U, summed over the indices is, is the identity on the index l of dimension k. *)
Definition isometry (is : list I) (l : I) (k : nat) (U : elts) : Prop :=
  forall s x x', x < k -> x' < k ->
    sum_over r0 radd ieq dim is (fun t => rmul (conj (U (override t l x))) (U (override t l x'))) s = kron x x'.

(** The square of the norm of a tensor with indices is. *)
Definition norm2 (is : list I) (T : elts) (s : I -> nat) : R :=
  sum_over r0 radd ieq dim is (fun t => rmul (T t) (conj (T t))) s.

(** U*D*V, with the diagonal D on the indices l and r, is the singular value decomposition of A (indices
    AA, those of U being Ui and l, those of V being Vi and r) with, of the singular values ds of the
    blocks, the first ks kept: U and V have orthonormal columns, the square of the norm of what is missing
    is the sum of the squares of the discarded singular values, and nothing is missing if none are. *)
Definition svd_of (rsub : R -> R -> R) (AA Ui Vi : list I) (A U : elts) (l r : I) (D : list R) (V : elts) (ds : list (list R)) (ks : list nat) : Prop :=
  D = kept ks ds /\ isometry Ui l (length D) U /\ isometry Vi r (length D) V /\
  (forall s, norm2 AA (fun t => rsub (A t) (udv U l r D V t)) s = squares (discarded ks ds)) /\
  (discarded ks ds = [] -> forall s, inrange dim AA s -> udv U l r D V s = A s).
End Tensors.

(** Which indices go to U: those of the U passed in if it has any, else those that are not on the V passed in. *)
Definition to_U {I} (Uis Vis : option (list I)) (x : I) : Prop :=
  match Uis, Vis with Some u, _ => In x u | None, Some v => ~ In x v | None, None => True end.


(** A choice of how many singular values to keep: at most all of each block, and not none at all. *)
Definition keeps (keep : list (list R) -> list nat) : Prop :=
  forall ds, length (keep ds) = length ds /\ (forall n, nth n (keep ds) 0 <= length (nth n ds [])) /\
    ((exists d, In d ds /\ d <> []) -> exists k, In k (keep ds) /\ 0 < k).
End Spec.
