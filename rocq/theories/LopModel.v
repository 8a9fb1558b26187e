(** LocalOp::expect, diag and size (itensor/mps/localop.h:367-373, 407-534), which LocalMPO hands
    through unchanged (itensor/mps/localmpo.h:118, 126, 194).  Tensors are those of LocalTensor: a
    null edge is None, and an edge without a primed partner of its link is an edge whose link has
    dimension 1.  Indices carry no quantum numbers here.  deltaRho is not modelled. *)
From Coq Require Import ZArith List Bool Arith.
From Verif Require Import Util BigSum MpsModel MpsTensor LocalModel LocalTensor.
Import ListNotations.
Local Open Scope outcome_scope.

Section LopModel.
Context {R : Type} (r0 : R) (radd rmul : R -> R -> R) (conj re : R -> R).
Notation wten := (wten R).
Notation edge := (@edge R).
Notation bsum := (bsum r0 radd).
Infix "*" := rmul.

(** localop.h:367-373: real(eltC(dag(phip) * phi)) with phip = product(phi). *)
Definition expect (L Rt : option edge) (ws : list wten) (dl dw dr : nat) (phi : nat -> list nat -> nat -> R) : outcome R :=
  let! phip := local_product r0 radd rmul L Rt ws dl dw dr phi in
  Ok (re (bsum dl (fun a => csum r0 radd (map wtp ws) (fun c => bsum dr (fun b => conj (phip a c b) * phi a c b))))).

(** localop.h:427-447: the centre operators with each primed site Index tied to the unprimed one, as
    a function of the left and right MPO links; no centre operator leaves Diag unset. *)
Definition diag_ops (ws : list wten) (c : list nat) : option (nat -> nat -> R) :=
  match ws with
  | [W1; W2] => let s1 := nth 0 c 0%nat in let s2 := nth 1 c 0%nat in
      Some (fun w v => bsum (wtr W1) (fun u => wte W1 w s1 s1 u * wte W2 u s2 s2 v))
  | [W1] => let s1 := nth 0 c 0%nat in Some (fun w v => wte W1 w s1 s1 v)
  | _ => None
  end.
(** localop.h:409, 449-486: operator bool() wants an edge; then Diag times the edges with their
    link tied to its primed partner, dag and takeReal.  dw and dv are the dimensions of the MPO
    links of L and R. *)
Definition diag (L Rt : option edge) (ws : list wten) (dw dv : nat) : outcome (nat -> list nat -> nat -> R) :=
  match L, Rt with
  | None, None => Err
  | _, _ => Ok (fun a c b =>
      let x : nat -> R :=
        match diag_ops ws c, L with
        | Some d, Some l => fun v => bsum dw (fun w => d w v * l a w a)
        | Some d, None => fun v => d 0 v
        | None, Some l => fun v => l a v a
        | None, None => fun _ => r0
        end in
      let y : R :=
        match Rt with
        | None => x 0
        | Some r =>
            match diag_ops ws c, L with
            | None, None => r b 0 b
            | _, _ => bsum dv (fun v => x v * r b v b)
            end
        end in
      re (conj y))
  end.

(** localop.h:489-530: the dimensions of the primed link of each edge and of the site Indices. *)
Definition size (L Rt : option edge) (ws : list wten) (dl dr : nat) : outcome nat :=
  match L, Rt with
  | None, None => Err
  | _, _ =>
      let n := 1 in
      let n := match L with Some _ => n * dl | None => n end in
      let n := match Rt with Some _ => n * dr | None => n end in
      Ok (match ws with [W1; W2] => n * wtp W1 * wtp W2 | [W1] => n * wtp W1 | _ => n end)
  end%nat.
End LopModel.
