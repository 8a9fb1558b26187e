(** Vocabulary for property C62: the overlap of a fixed state with a state that has a free centre. *)
From Coq Require Import ZArith List Arith.
From Verif Require Import Util BigSum MpsModel MpsTensor MpsSpec LocalTensor LocalMeaning.
Import ListNotations.

Section LsetSpec.
Context {R : Type} (r0 r1 : R) (radd rmul : R -> R -> R) (conj : R -> R).
Notation tensor := (@tensor R).
Notation csum := (csum r0 radd).

(** <fixed|P>, the amplitudes of P being those of a chain with phi in place of the centre sites (of
    dimensions [mid]). *)
Definition overlap (fixed tsL tsR : list tensor) (mid : list nat) (dl dr : nat) (phi : nat -> list nat -> nat -> R) : R :=
  csum (sites tsL) (fun cL => csum mid (fun c => csum (sites tsR) (fun cR =>
    rmul (conj (amplitude r0 r1 radd rmul fixed (cL ++ c ++ cR))) (insert r0 r1 radd rmul tsL tsR dl dr phi cL c cR)))).
(** <chi|f>, of two centres. *)
Definition inner (dl : nat) (mid : list nat) (dr : nat) (chi f : nat -> list nat -> nat -> R) : R :=
  bsum r0 radd dl (fun a => csum mid (fun c => bsum r0 radd dr (fun b => rmul (conj (chi a c b)) (f a c b)))).
(** A sum over the members of a list. *)
Definition total {A} (l : list A) (f : A -> R) : R := fold_right (fun x y => radd (f x) y) r0 l.
End LsetSpec.
