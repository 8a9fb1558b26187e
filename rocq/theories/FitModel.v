(** Model of fitWF (itensor/mps/mpsalgs.cc:141-168), for MPS kept in memory.

    Simplifications: tensors by position (left link, site, right link), so that the priming of the links of
    psi_basis (lines 153, 156), which keeps them apart from those of psi_to_fit, and noPrime (line 160), which
    puts them back, are not visible; the two states have the same site indices.  dag only conjugates here. *)
From Coq Require Import ZArith List Bool Arith.
From Verif Require Import Util BigSum MpsModel MpsTensor OrtModel.
Import ListNotations.
Local Open Scope outcome_scope.

Section Fit.
Context {R : Type} (r0 : R) (radd rmul : R -> R -> R) (rinv : R -> R) (rzero : R -> bool) (conj : R -> R).
Notation tensor := (@tensor R).
Notation bsum := (bsum r0 radd).
Notation "x * y" := (rmul x y).
(** norm(T): itensor.cc:1117-1134. *)
Context (norm : tensor -> R).

(** mpsalgs.cc:153: A = psi_to_fit(N) * dag(prime(psi_basis(N),"Link")). *)
Definition fit_last (f g : tensor) (b b' : nat) : R := bsum (tp f) (fun s => te f b s 0 * conj (te g b' s 0)).
(** mpsalgs.cc:156-157: A *= dag(prime(psi_basis(n),"Link")); A *= psi_to_fit(n). *)
Definition fit_step (A : nat -> nat -> R) (f g : tensor) (a a' : nat) : R :=
  bsum (tr f) (fun b => bsum (tp f) (fun s => bsum (tr g) (fun b' => A b b' * conj (te g a' s b')) * te f a s b)).
(** The loop n = N-1..2, lines 154-158; the lists are the tensors n..N. *)
Fixpoint fit_right (fs gs : list tensor) : nat -> nat -> R :=
  match fs, gs with
  | f :: fs', g :: gs' => match fs' with [] => fit_last f g | _ => fit_step (fit_right fs' gs') f g end
  | _, _ => fun _ _ => r0
  end.
(** Line 159: A = psi_to_fit(1) * A.  With one site psi_to_fit(1) is also psi_to_fit(N), and A is a number. *)
Definition fit_first (fs gs : list tensor) : outcome tensor :=
  match fs, gs with
  | [f], [g] => Ok (mkT (tl g) (tp f) (tr g) (tj g) (fun a s b => te f a s b * fit_last f g 0 0))
  | f :: fs', g :: gs' => Ok (mkT (tl g) (tp f) (tr g) (tj g) (fun a s b' =>
      bsum (tr f) (fun b => te f a s b * fit_right fs' gs' b b')))
  | _, _ => Err
  end.
(** A /= nrm, line 164 (itensor.cc:1021-1027). *)
Definition divide (A : tensor) (c : R) : tensor := mkT (tl A) (tp A) (tr A) (tj A) (fun a s b => te A a s b * rinv c).

(** mpsalgs.cc:141-168: the new psi_to_fit. *)
Definition fitWF (basis fit : mps tensor) : outcome (mps tensor) :=
  if mdo basis || mdo fit then Err
  else if negb (isOrtho basis) then Err
  else
    let! c := orthoCenter basis in
    if negb (c =? 1)%Z then Err
    else if negb (mN fit =? mN basis)%Z then Err
    else
      let! gs := collect (mA basis) 1 (Z.to_nat (mN basis)) in
      let! fs := collect (mA fit) 1 (Z.to_nat (mN fit)) in
      let! A := fit_first fs gs in
      let nrm := norm A in
      if rzero nrm then Err
      else
        let! (_, s) := modify (fun _ _ => None) basis 1 (fun _ => Some (divide A nrm)) in
        Ok s.
End Fit.
