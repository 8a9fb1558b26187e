(** The contractions of LocalMPO and LocalOp with their entries
    (itensor/mps/localmpo.h, itensor/mps/localop.h). *)
From Coq Require Import ZArith List Bool Arith.
From Verif Require Import Util BigSum MpsModel MpsTensor LocalModel.
Import ListNotations.
Local Open Scope outcome_scope.

(** An MPO tensor W_j: left link, site (in and out), right link; element at
    (left, s, s', right) where s is the unprimed and s' the primed site Index. *)
Record wten (R : Type) := mkWt { wtl : nat; wtp : nat; wtr : nat; wte : nat -> nat -> nat -> nat -> R }.
Arguments mkWt {R} wtl wtp wtr wte. Arguments wtl {R} w. Arguments wtp {R} w. Arguments wtr {R} w. Arguments wte {R} w.

Section LocalTensor.
Context {R : Type} (r0 : R) (radd rmul : R -> R -> R) (conj : R -> R).
Notation tensor := (@tensor R).
Notation wten := (wten R).
Notation bsum := (bsum r0 radd).
Infix "*" := rmul.

(** An edge tensor: (link of psi, link of the MPO, primed link of psi). *)
Definition edge := nat -> nat -> nat -> R.
(** localmpo.h:546-560: PH_[ll+1] = PH_[ll]*psi(ll+1); *= Op(ll+1); *= dag(prime(psi(ll+1))). *)
Definition edge_right (W : wten) (e : option edge) (t : tensor) : edge :=
  match e with
  | Some e => fun b v b' =>
      bsum (tl t) (fun a' => bsum (tp t) (fun s' =>
        bsum (wtl W) (fun w => bsum (tp t) (fun s =>
          bsum (tl t) (fun a => e a w a' * te t a s b) * wte W w s s' v)) * conj (te t a' s' b')))
  | None => fun b v b' =>
      bsum (tp t) (fun s' => bsum (tp t) (fun s => te t 0 s b * wte W 0 s s' v) * conj (te t 0 s' b'))
  end.
(** localmpo.h:588-608, the mirror image. *)
Definition edge_left (W : wten) (e : option edge) (t : tensor) : edge :=
  match e with
  | Some e => fun a w a' =>
      bsum (tr t) (fun b' => bsum (tp t) (fun s' =>
        bsum (wtr W) (fun v => bsum (tp t) (fun s =>
          bsum (tr t) (fun b => e b v b' * te t a s b) * wte W w s s' v)) * conj (te t a' s' b')))
  | None => fun a w a' =>
      bsum (tp t) (fun s' => bsum (tp t) (fun s => te t a s 0 * wte W w s s' 0) * conj (te t a' s' 0))
  end.

(** localop.h:324-366, LocalOp::product.  phi has links of dimension dl and dr; a null
    edge means that link is absent (dimension 1).  The result is unprimed at the end. *)
Definition local0 (L Rt : option edge) (dl dw dr : nat) (phi : nat -> nat -> R) : outcome (nat -> nat -> R) :=
  match L, Rt with
  | None, None => Err
  | None, Some r => Ok (fun a' b' => bsum dr (fun b => phi a' b * r b 0 b'))
  | Some l, None => Ok (fun a' b' => bsum dl (fun a => phi a b' * l a 0 a'))
  | Some l, Some r => Ok (fun a' b' => bsum dw (fun w => bsum dr (fun b => bsum dl (fun a => phi a b * l a w a') * r b w b')))
  end.
Definition local1 (L Rt : option edge) (W : wten) (dl dr : nat) (phi : nat -> nat -> nat -> R)
  : outcome (nat -> nat -> nat -> R) :=
  match L, Rt with
  | None, None => Err
  | None, Some r => Ok (fun a' s' b' =>
      bsum (wtp W) (fun s => bsum (wtr W) (fun v => bsum dr (fun b => phi a' s b * r b v b') * wte W 0 s s' v)))
  | Some l, _ => Ok (fun a' s' b' =>
      let x v b := bsum (wtp W) (fun s => bsum (wtl W) (fun w => bsum dl (fun a => phi a s b * l a w a') * wte W w s s' v)) in
      match Rt with
      | None => x 0 b'
      | Some r => bsum (wtr W) (fun v => bsum dr (fun b => x v b * r b v b'))
      end)
  end.
Definition local2 (L Rt : option edge) (W1 W2 : wten) (dl dr : nat) (phi : nat -> nat -> nat -> nat -> R)
  : outcome (nat -> nat -> nat -> nat -> R) :=
  match L, Rt with
  | None, None => Err
  | None, Some r => Ok (fun a' s1' s2' b' =>
      bsum (wtp W1) (fun s1 => bsum (wtr W1) (fun u =>
        bsum (wtp W2) (fun s2 => bsum (wtr W2) (fun v =>
          bsum dr (fun b => phi a' s1 s2 b * r b v b') * wte W2 u s2 s2' v)) * wte W1 0 s1 s1' u)))
  | Some l, _ => Ok (fun a' s1' s2' b' =>
      let x v b :=
        bsum (wtp W2) (fun s2 => bsum (wtr W1) (fun u =>
          bsum (wtp W1) (fun s1 => bsum (wtl W1) (fun w =>
            bsum dl (fun a => phi a s1 s2 b * l a w a') * wte W1 w s1 s1' u)) * wte W2 u s2 s2' v)) in
      match Rt with
      | None => x 0 b'
      | Some r => bsum (wtr W2) (fun v => bsum dr (fun b => x v b * r b v b'))
      end)
  end.
(** localop.h:324-366: the dispatch on the number of centre sites (0, 1 or 2).  phi is given as a
    function of left link, centre sites and right link. *)
Definition local_product (L Rt : option edge) (ws : list wten) (dl dw dr : nat) (phi : nat -> list nat -> nat -> R)
  : outcome (nat -> list nat -> nat -> R) :=
  match ws with
  | [] => let! f := local0 L Rt dl dw dr (fun a b => phi a [] b) in Ok (fun a' _ b' => f a' b')
  | [W] => let! f := local1 L Rt W dl dr (fun a s b => phi a [s] b) in Ok (fun a' c' b' => f a' (nth 0 c' 0%nat) b')
  | [W1; W2] => let! f := local2 L Rt W1 W2 dl dr (fun a s1 s2 b => phi a [s1; s2] b) in
      Ok (fun a' c' b' => f a' (nth 0 c' 0%nat) (nth 1 c' 0%nat) b')
  | _ => Err
  end.
End LocalTensor.
