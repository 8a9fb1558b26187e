(** Matrix elements of an MPO between states written as chains of tensors. *)
From Coq Require Import ZArith List Arith.
From Verif Require Import Util BigSum MpsModel MpsTensor MpsSpec LocalTensor.
Import ListNotations.

Section LocalMeaning.
Context {R : Type} (r0 r1 : R) (radd rmul : R -> R -> R) (conj : R -> R).
Notation tensor := (@tensor R).
Notation wten := (wten R).
Notation edge := (@edge R).
Notation bsum := (bsum r0 radd).
Notation csum := (csum r0 radd).
Notation chain := (chain r0 r1 radd rmul).
Notation delta := (delta r0 r1).
Notation "x + y" := (radd x y). Notation "x * y" := (rmul x y).

(** Matrix element of a chain of MPO tensors between configurations c (in) and c' (out), from MPO
    link value w to v. *)
Fixpoint wchain (ws : list wten) (c c' : list nat) (w v : nat) : R :=
  match ws, c, c' with
  | W :: ws', s :: c1, s' :: c1' => bsum (wtr W) (fun u => wte W w s s' u * wchain ws' c1 c1' u v)
  | _, _, _ => delta w v
  end.
Fixpoint wlinked (a : nat) (ws : list wten) (b : nat) : Prop :=
  match ws with [] => a = b | W :: ws' => wtl W = a /\ wlinked (wtr W) ws' b end.
Definition wsites (ws : list wten) : list nat := map wtp ws.

(** The amplitude of the state with phi in the middle. *)
Definition insert (tsL tsR : list tensor) (dl dr : nat) (phi : nat -> list nat -> nat -> R) (cL c cR : list nat) : R :=
  bsum dl (fun a => bsum dr (fun b => chain tsL cL 0 a * phi a c b * chain tsR cR b 0)).
(** <X|H|P>, where X and P have chi and phi in the middle. *)
Definition matrix_element (tsL tsR : list tensor) (wsL ws wsR : list wten) (dl dr : nat)
    (chi phi : nat -> list nat -> nat -> R) : R :=
  csum (sites tsL) (fun cL => csum (wsites ws) (fun c => csum (sites tsR) (fun cR =>
  csum (sites tsL) (fun cL' => csum (wsites ws) (fun c' => csum (sites tsR) (fun cR' =>
    conj (insert tsL tsR dl dr chi cL' c' cR') * wchain (wsL ++ ws ++ wsR) (cL ++ c ++ cR) (cL' ++ c' ++ cR') 0 0
      * insert tsL tsR dl dr phi cL c cR)))))).

(** <psi|H|psi> for a whole chain. *)
Definition energy (ts : list tensor) (ws : list wten) : R :=
  csum (sites ts) (fun c => csum (sites ts) (fun c' => conj (amplitude r0 r1 radd rmul ts c') * wchain ws c c' 0 0 * amplitude r0 r1 radd rmul ts c)).
(** The tensors i, i+1, ..., i+n-1. *)
Definition seg {A} (f : Z -> A) (i : Z) (n : nat) : list A := map (fun k => f (i + Z.of_nat k)%Z) (seq 0 n).
(** The steps of LocalModel with entries. *)
Definition stepL (ws : Z -> wten) (j : Z) (e : option edge) (t : tensor) : edge := edge_right r0 radd rmul conj (ws j) e t.
Definition stepR (ws : Z -> wten) (j : Z) (e : option edge) (t : tensor) : edge := edge_left r0 radd rmul conj (ws j) e t.

End LocalMeaning.
