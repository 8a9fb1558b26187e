(** Vocabulary for property C73 (fitting K|x> with a matrix product state).  Independent of the model
    of the algorithm; dist2 and same_inds are those of FitSpec, applied that of ApplySpec. *)
From Coq Require Import List Bool Arith.
From Verif Require Import Util BigSum MpsTensor MpsSpec FitSpec.
Import ListNotations.

Section FapSpec.
Context {R : Type} (r0 r1 : R) (radd rmul rsub : R -> R -> R) (conj : R -> R).
Notation tensor := (@tensor R).
Notation state := (list nat -> R).

(** dag of a tensor. *)
Definition dagt (t : tensor) : tensor := mkT (tl t) (tp t) (tr t) (tj t) (fun a s b => conj (te t a s b)).
(** The sum of the squared lengths of the steps from u through the states of a list. *)
Fixpoint travelled (dims : list nat) (u : state) (l : list state) : R :=
  match l with [] => r0 | v :: l' => radd (dist2 r0 radd rmul rsub conj dims u v) (travelled dims v l') end.
(** The tensors 1,...,n of an MPS or MPO. *)
Definition tensors {A} (f : nat -> A) (n : nat) : list A := map f (seq 1 n).
(** The squared norm of a two-site tensor. *)
Definition wsq (w : @wave R) : R :=
  bsum r0 radd (wl w) (fun a => bsum r0 radd (wp1 w) (fun s => bsum r0 radd (wp2 w) (fun s' => bsum r0 radd (wr w) (fun b =>
    rmul (conj (we w a s s' b)) (we w a s s' b))))).
(** What position(1) promises: the same state, with every tensor after the first right-orthogonal. *)
Definition position1_ok (n : nat) (pos : (nat -> tensor) -> outcome (nat -> tensor)) : Prop :=
  forall f g, proper (tensors f n) -> pos f = Ok g ->
    proper (tensors g n) /\ sites (tensors g n) = sites (tensors f n) /\
    (forall c, Forall2 lt c (sites (tensors f n)) ->
       amplitude r0 r1 radd rmul (tensors g n) c = amplitude r0 r1 radd rmul (tensors f n) c) /\
    forall j, 2 <= j <= n -> right_orth r0 r1 radd rmul conj (g j).
(** What svd(P,{ci}) promises about V: P is V times a matrix at its right link and V is left-orthogonal (d = true), or the
    same at the left link. *)
Definition svd1_ok (svd1 : bool -> tensor -> outcome tensor) : Prop :=
  forall P V,
  (svd1 true P = Ok V -> tl V = tl P /\ tp V = tp P /\ left_orth r0 r1 radd rmul conj V /\
     exists C : nat -> nat -> R, forall a s b, a < tl P -> s < tp P -> b < tr P -> te P a s b = bsum r0 radd (tr V) (fun c => rmul (te V a s c) (C c b))) /\
  (svd1 false P = Ok V -> tr V = tr P /\ tp V = tp P /\ right_orth r0 r1 radd rmul conj V /\
     exists C : nat -> nat -> R, forall a s b, a < tl P -> s < tp P -> b < tr P -> te P a s b = bsum r0 radd (tl V) (fun c => rmul (C a c) (te V c s b))).
End FapSpec.
