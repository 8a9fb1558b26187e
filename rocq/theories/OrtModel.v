(** Model of MPS::orthogonalize (itensor/mps/mps.cc:738-812).

    Simplifications: dense tensors, no tags; the vector E of environments is a function of
    the tensors to the left; the arguments Cutoff, RespectDegenerate are fixed in [diag]. *)
From Coq Require Import ZArith List Bool Arith.
From Verif Require Import Util BigSum MpsModel MpsTensor OrtSpec.
Import ListNotations.
Local Open Scope outcome_scope.

Section Ort.
Context {R : Type} (r0 : R) (radd rmul : R -> R -> R) (conj : R -> R).
Notation bsum := (bsum r0 radd).
Notation tensor := (@tensor R).
Notation "x * y" := (rmul x y).
(** diagPosSemiDef(rho,{dargs,..}), decomp.cc:726-797, with MaxDim if it is defined: the
    dimension of the new Index and U. *)
Context (diag : option nat -> nat -> nat -> @pmatrix R -> outcome (nat * (nat -> nat -> nat -> R))).
(** args.defined("MaxDim"), args.getInt("MaxDim") (mps.cc:761-762). *)
Context (maxdim : option nat).

(** mps.cc:779: E[1] = psi(1)*psic(1). *)
Definition env1 (t : tensor) (b b' : nat) : R := bsum (tp t) (fun s => te t 0 s b * conj (te t 0 s b')).
(** mps.cc:782: E[j] = E[j-1]*psi(j)*psic(j). *)
Definition env_next (E : nat -> nat -> R) (t : tensor) (b b' : nat) : R :=
  bsum (tl t) (fun a => bsum (tl t) (fun a' => bsum (tp t) (fun s => E a a' * te t a s b * conj (te t a' s b')))).
(** E[j] for the tensors psi(j),...,psi(1). *)
Fixpoint env (rest : list tensor) : nat -> nat -> R :=
  match rest with
  | [] => fun _ _ => r0
  | t :: rest' => match rest' with [] => env1 t | _ => env_next (env rest') t end
  end.
(** mps.cc:783 and 802: rho = E[j-1]*O*dag(prime(O)). *)
Definition density (E : nat -> nat -> R) (O : tensor) : @pmatrix R := fun s k s' k' =>
  bsum (tl O) (fun a => bsum (tl O) (fun a' => E a a' * te O a s k * conj (te O a' s' k'))).
(** mps.cc:790, 808: psi.ref(j) = dag(U). *)
Definition dagU (O : tensor) (m : nat) (U : nat -> nat -> nat -> R) : tensor :=
  mkT m (tp O) (tr O) (tj O) (fun q s k => conj (U s k q)).
(** mps.cc:789, 806-807: O = U*O*psi(j-1). *)
Definition absorb (O t : tensor) (m : nat) (U : nat -> nat -> nat -> R) : tensor :=
  mkT (tl t) (tp t) m true (fun a s q =>
    bsum (tl O) (fun b => te t a s b * bsum (tp O) (fun s' => bsum (tr O) (fun k => U s' k q * te O b s' k)))).

(** mps.cc:783-809: [rest] is psi(j-1),...,psi(1), [O] stands at site j, [acc] are the new tensors
    psi(j+1),...,psi(N).  Without a MaxDim argument the first step has no MaxDim and the others
    have that of the link of O and E[j-1] (mps.cc:794-801). *)
Fixpoint oloop (first : bool) (rest : list tensor) (O : tensor) (acc : list tensor) : outcome (list tensor) :=
  match rest with
  | [] => Ok (O :: acc)
  | t :: rest' =>
      let mx := match maxdim with Some q => Some q | None => if first then None else Some (tl O) end in
      let! (m, U) := diag mx (tp O) (tr O) (density (env rest) O) in
      oloop false rest' (absorb O t m U) (dagU O m U :: acc)
  end.
(** With one site rho = E[0]*... multiplies a default constructed ITensor: an error (itensor.cc:940). *)
Definition orth_list (ts : list tensor) : outcome (list tensor) :=
  match rev ts with
  | last :: t :: rest => oloop true (t :: rest) last []
  | _ => Err
  end.

(** The tensors 1..N; a default constructed one is an error in the products. *)
Fixpoint collect (f : Z -> option tensor) (j : Z) (n : nat) : outcome (list tensor) :=
  match n with
  | 0 => Ok []
  | S n' => match f j with Some t => let! l := collect f (j + 1)%Z n' in Ok (t :: l) | None => Err end
  end.
(** mps.cc:738-812. *)
Definition orthogonalize (s : mps tensor) : outcome (mps tensor) :=
  if mdo s then Err
  else
    let! ts := collect (mA s) 1 (Z.to_nat (mN s)) in
    let! ts' := orth_list ts in
    Ok (mkMps (mN s) (fun j => if (1 <=? j)%Z && (j <=? mN s)%Z then nth_error ts' (Z.to_nat (j - 1)) else mA s j) 0 2 (matb s) (mdo s) (mdir s)).
End Ort.
