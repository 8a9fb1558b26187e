(** Vocabulary for property C54 (dmrg), independent of the model: the matrix of an MPO,
    states as functions of configurations, lower bounds of the spectrum, and what the
    two-site factorisations promise. *)
From Coq Require Import ZArith List Bool Arith.
From Verif Require Import Util BigSum MpsModel MpsTensor MpsSpec LocalTensor LocalMeaning DavSpec.
Import ListNotations.

Section DmrgSpec.
Context {F : Type} (f0 f1 : F) (fadd fmul fsub : F -> F -> F) (fopp : F -> F) (fltb : F -> F -> bool).
Notation K := (@cplx F).
Notation c0 := (c0 f0). Notation c1 := (c1 f0 f1).
Notation cadd := (cadd fadd). Notation cmul := (cmul fadd fmul fsub). Notation cconj := (cconj fopp).
Notation bsum := (bsum c0 cadd).
Notation csum := (BigSum.csum c0 cadd).

(** The matrix element of the MPO from configuration c to configuration c'. *)
Definition element (ws : list (wten K)) (c c' : list nat) : K := wchain c0 c1 cadd cmul ws c c' 0 0.
(** The matrix of the MPO is Hermitian. *)
Definition hermitian_mpo (ws : list (wten K)) : Prop :=
  forall c c', Forall2 lt c (wsites ws) -> Forall2 lt c' (wsites ws) -> element ws c c' = cconj (element ws c' c).
(** mu is a lower bound of its spectrum: mu <f|f> <= <f|H|f> for every state f. *)
Definition bounded_below (ws : list (wten K)) (mu : F) : Prop :=
  forall f : list nat -> K,
    fltb (fst (csum (wsites ws) (fun c => csum (wsites ws) (fun c' => cmul (cmul (cconj (f c')) (element ws c c')) (f c)))))
         (fmul mu (fst (csum (wsites ws) (fun c => cmul (cconj (f c)) (f c))))) = false.

(** The squared norm of a two-site tensor. *)
Definition wave2 (w : @wave K) : K :=
  bsum (wl w) (fun a => bsum (wp1 w) (fun s => bsum (wp2 w) (fun s' => bsum (wr w) (fun b =>
    cmul (cconj (we w a s s' b)) (we w a s s' b))))).

(** What svdBond's factorisation with DoNormalize promises, truncated or not, with a noise
    term or not: the factors fit together and on the outside, the factor on the side the
    sweep comes from is orthogonal, and the other one is normalised. *)
Definition factors (split : bool -> @wave K -> outcome (@tensor K * @tensor K)) : Prop :=
  forall left w x y, split left w = Ok (x, y) ->
    tl x = wl w /\ tp x = wp1 w /\ tp y = wp2 w /\ tr y = wr w /\ tr x = tl y /\ tj x = true /\ tj y = wj w /\
    (if left then left_orth c0 c1 cadd cmul cconj x else right_orth c0 c1 cadd cmul cconj y) /\
    tnorm2 c0 cadd cmul cconj (if left then y else x) = c1.
(** Nothing is truncated: the factors of a normalised tensor multiply to that tensor. *)
Definition exact_split (split : bool -> @wave K -> outcome (@tensor K * @tensor K)) : Prop :=
  forall left w x y, wave2 w = c1 -> split left w = Ok (x, y) ->
    forall a s s' b, a < wl w -> s < wp1 w -> s' < wp2 w -> b < wr w ->
      bsum (tr x) (fun c => cmul (te x a s c) (te y c s' b)) = we w a s s' b.

(** From one number to the next, never up. *)
Fixpoint descending (x : F) (l : list F) : Prop :=
  match l with [] => True | y :: l' => fltb x y = false /\ descending y l' end.
End DmrgSpec.

(** The bonds of one sweep over n sites: 1,...,n-1 with ha = 1, then n-1,...,1 with ha = 2. *)
Definition up_and_down (n : nat) : list (Z * Z) :=
  map (fun k => (Z.of_nat k, 1%Z)) (seq 1 (n - 1)) ++ map (fun k => (Z.of_nat k, 2%Z)) (rev (seq 1 (n - 1))).
