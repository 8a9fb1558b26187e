(** Vocabulary for the default AutoMPO conversion: matrices as lists of rows, exact singular vectors,
    the value of a sum of terms.  jw_image, fermionic and nfermi are those of AutoMpoSpec.v. *)
From Coq Require Import List Arith Bool String Sorted.
From Verif Require Import AutoMpoModel AutoMpoSpec.
Import ListNotations.

Section Spec.
Context {R : Type} (r0 r1 : R) (radd rmul : R -> R -> R) (conj : R -> R).
Definition ssum {X} (f : X -> R) (l : list X) : R := fold_right radd r0 (map f l).
(** Element (r,c) of a matrix, and its shape. *)
Definition melt (M : list (list R)) (r c : nat) : R := nth c (nth r M []) r0.
Definition shape (M : list (list R)) (nr nc : nat) : Prop := List.length M = nr /\ forall r, r < nr -> List.length (nth r M []) = nc.
(** The columns of V (a matrix with w columns) are enough right singular vectors of M: nothing is lost
    by projecting the rows of M on them, M V V^dagger = M.  (True of all the right singular vectors with
    a non-zero singular value; also of any larger orthonormal set.) *)
Definition keeps_all (M : list (list R)) (V : nat * list (list R)) : Prop :=
  forall nr nc, shape M nr nc -> (nr = 0 -> nc = 0) -> shape (snd V) nc (fst V) /\
  forall l j, l < nr -> j < nc ->
    ssum (fun j' => rmul (melt M l j') (ssum (fun r => rmul (melt (snd V) j' r) (conj (melt (snd V) j r))) (seq 0 (fst V)))) (seq 0 nc) = melt M l j.

(** An element of the operator that a list of terms stands for: elt n x is the element (for the chosen
    values of the site index of site n) of an operator x of site n. *)
Context {L : Type} (lone : L) (lmul : L -> L -> L) (loc : nat -> string -> L) (elt : nat -> L -> R).
Definition terms_elt (N : nat) (terms : list (@hterm R)) : R :=
  ssum (fun h => rmul (ht_coef h) (fold_right rmul r1 (map (fun n => elt n (jw_image lone lmul loc (ht_ops h) n)) (seq 1 N)))) terms.
(** The element of a product of named operators. *)
Definition prod_elt (n : nat) (p : list sterm) : R := elt n (fold_right lmul lone (map (fun t => loc n (st_op t)) p)).
End Spec.

(** Names that only appear when the conversion renames fermionic operators. *)
Definition internal_names : list string := ["Adagup"; "Aup"; "Adagdn*Fup"; "Adn*Fup"; "A"; "Adag"]%string.

(** A term that can be converted: it has operators, ordered by site, on sites 1..N, an even number of
    them fermionic, of total quantum number zero, under the names a user writes. *)
Definition good_term {R Q} (q0 : Q) (qadd : Q -> Q -> Q) (opq : sterm -> Q) (N : nat) (h : @hterm R) : Prop :=
  ht_ops h <> [] /\ StronglySorted (fun a b => st_i a <= st_i b) (ht_ops h) /\
  (forall t, In t (ht_ops h) -> 1 <= st_i t <= N) /\
  Nat.even (nfermi (ht_ops h)) = true /\
  fold_left (fun q t => qadd q (opq t)) (ht_ops h) q0 = q0 /\
  (forall t, In t (ht_ops h) -> ~ In (st_op t) internal_names).
