(** Vocabulary for property C71 (fitWF): overlaps and distances of states given by their amplitudes. *)
From Coq Require Import List Arith.
From Verif Require Import Util BigSum MpsTensor MpsSpec.
Import ListNotations.

Section FitSpec.
Context {R : Type} (r0 r1 : R) (radd rmul rsub : R -> R -> R) (conj : R -> R).
Notation tensor := (@tensor R).

(** <u|v>, summed over all configurations. *)
Definition overlap (dims : list nat) (u v : list nat -> R) : R := csum r0 radd dims (fun c => rmul (conj (u c)) (v c)).
(** The squared distance of two states. *)
Definition dist2 (dims : list nat) (u v : list nat -> R) : R :=
  csum r0 radd dims (fun c => rmul (conj (rsub (u c) (v c))) (rsub (u c) (v c))).
(** A tensor with the same indices as t. *)
Definition same_inds (t x : tensor) : Prop := tl x = tl t /\ tp x = tp t /\ tr x = tr t.
(** What norm(T) returns: a nonnegative number whose square is the sum of the |T_i|^2. *)
Definition norm_ok (nonneg : R -> Prop) (norm : tensor -> R) : Prop :=
  forall t, nonneg (norm t) /\ conj (norm t) = norm t /\ rmul (norm t) (norm t) = tnorm2 r0 radd rmul conj t.
End FitSpec.
