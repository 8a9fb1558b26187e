(** What a user means by applying two-site gates to a state, by the Taylor
    polynomial of the exponential of a two-site operator, and by exchanging two
    sites.  A state is the function giving its amplitude at each configuration;
    independent of matrix product states. *)
From Coq Require Import ZArith List Bool Arith Factorial.
From Verif Require Import Util BigSum MpsModel MpsTensor MpsSpec.
Import ListNotations.

Section TevSpec.
Context {R : Type} (r0 r1 : R) (radd rmul : R -> R -> R) (conj : R -> R).
Notation bsum := (bsum r0 radd).
Notation csum := (csum r0 radd).
(** The element of a two-site operator that takes (p,q) to (p',q'). *)
Definition op2 := nat -> nat -> nat -> nat -> R.
Definition state := list nat -> R.

(** The configuration c with the values at positions k and k+1 (from 0) replaced. *)
Definition put2 (c : list nat) (k p q : nat) : list nat := firstn k c ++ p :: q :: skipn (S (S k)) c.
(** The operator g applied to positions k and k+1 of the state f; [dims] are the
    site dimensions. *)
Definition act (dims : list nat) (k : nat) (g : op2) (f : state) : state := fun c =>
  bsum (nth k dims 0) (fun p => bsum (nth (S k) dims 0) (fun q =>
    rmul (f (put2 c k p q)) (g p q (nth k c 0) (nth (S k) c 0)))).
(** The gates in the order of the list, and n times that. *)
Definition circuit (dims : list nat) (gates : list (nat * op2)) (f : state) : state :=
  fold_left (fun f g => act dims (fst g) (snd g) f) gates f.
Definition evolved (dims : list nat) (gates : list (nat * op2)) (n : nat) (f : state) : state :=
  Nat.iter n (circuit dims gates) f.
Definition fnorm2 (dims : list nat) (f : state) : R := csum dims (fun c => rmul (conj (f c)) (f c)).

(** Products and powers of two-site operators, the operator of exchange. *)
Definition one2 : op2 := fun p q p' q' => rmul (delta r0 r1 p p') (delta r0 r1 q q').
Definition mul2 (d1 d2 : nat) (A B : op2) : op2 := fun p q p' q' =>
  bsum d1 (fun u => bsum d2 (fun v => rmul (A p q u v) (B u v p' q'))).
Fixpoint pow2 (d1 d2 : nat) (A : op2) (n : nat) : op2 :=
  match n with 0 => one2 | S n' => mul2 d1 d2 (pow2 d1 d2 A n') A end.
(** 1 + A + A^2/2! + ... + A^n/n!; [inv_of k] is the number 1/k. *)
Definition taylor (inv_of : nat -> R) (d1 d2 : nat) (A : op2) (n : nat) : op2 := fun p q p' q' =>
  bsum (S n) (fun k => rmul (inv_of (fact k)) (pow2 d1 d2 A k p q p' q')).
(** The shapes of the two factors of a two-site tensor. *)
Definition split_shape (split : @wave R -> outcome (@tensor R * @tensor R)) : Prop :=
  forall w x y, split w = Ok (x, y) ->
    tl x = wl w /\ tp x = wp1 w /\ tp y = wp2 w /\ tr y = wr w /\ tr x = tl y.
(** An MPS in which the user sees the state f on sites of dimensions dims. *)
Definition shows (dims : list nat) (psi : mps (@tensor R)) (f : state) : Prop :=
  good r0 r1 radd rmul conj psi /\
  exists ts, holds psi ts /\ proper ts /\ sites ts = dims /\
    forall c, Forall2 lt c dims -> amplitude r0 r1 radd rmul ts c = f c.
End TevSpec.
