(** Model of applyMPO, Method = DensityMatrix (itensor/mps/mpoalgs.cc:128-308).

    Simplifications: dense tensors in memory; an MPS is a chain with one site Index per tensor, an MPO
    one with two; Cutoff and RespectDegenerate are fixed in [diag]; WriteDim, which only pages the
    environments, is left out; x and K have their own, different, link Indices. *)
From Coq Require Import ZArith List Bool Arith.
From Verif Require Import Util BigSum MpsModel MpsTensor OrtSpec OrtModel ApplySpec.
Import ListNotations.
Local Open Scope outcome_scope.

(** O = the product of K and x in the basis of the new MPS: link of x, link of K, site, new link. *)
Record oten (R : Type) := mkO { oa : nat; ow : nat; op : nat; orr : nat; oj : bool; oe : nat -> nat -> nat -> nat -> R }.
Arguments mkO {R}. Arguments oa {R}. Arguments ow {R}. Arguments op {R}. Arguments orr {R}. Arguments oj {R}. Arguments oe {R}.

Section Apply.
Context {R : Type} (r0 : R) (radd rmul : R -> R -> R) (conj : R -> R).
Context {N : Type} (neqb : N -> N -> bool).
Notation bsum := (bsum r0 radd).
Notation tensor := (@tensor R).
Notation kten := (kten R).
Notation "x * y" := (rmul x y).
(** diagPosSemiDef(rho,U,D,{dargs,..}) with MaxDim if it is defined. *)
Context (diag : option nat -> nat -> nat -> @pmatrix R -> outcome (nat * (nat -> nat -> nat -> R))).
(** 1/norm(O), of the squared norm. *)
Context (invnorm : R -> R).

(** mpoalgs.cc:222-226: commonIndex(psi(n),K(n)) must be the site Index of psi(n); the other site Index
    of K(n) is uniqueSiteIndex(K,psi,n), that of the result. *)
Definition orient (n : N) (M : mpoT R N) : outcome (N * kten) :=
  if neqb (nA M) n then Ok (nB M, mkK (ml_ M) (dA M) (dB M) (mr_ M) (me M))
  else if neqb (nB M) n then Ok (nA M, mkK (ml_ M) (dB M) (dA M) (mr_ M) (fun w s s' v => me M w s' s v))
  else Err.
(** The loop of mpoalgs.cc:222-226; K(n) does not exist if K is the shorter one. *)
Fixpoint orients (ns : list N) (Ms : list (mpoT R N)) : outcome (list (N * kten)) :=
  match ns, Ms with
  | [], _ => Ok []
  | n :: ns', M :: Ms' => let! k := orient n M in let! l := orients ns' Ms' in Ok (k :: l)
  | _ :: _, [] => Err
  end.

(** mpoalgs.cc:246: E[1] = psi(1)*K(1)*dag(Kc(1))*dag(psic(1)): the Index out is shared by K and Kc. *)
Definition aenv1 (p : tensor * kten) (b v b' v' : nat) : R :=
  let (x, K) := p in
  bsum (tp x) (fun t => bsum (ko K) (fun s' => bsum (tp x) (fun s => te x 0 s b * ke K 0 s s' v) * conj (ke K 0 t s' v')) * conj (te x 0 t b')).
(** mpoalgs.cc:249: E[j] = E[j-1]*psi(j)*K(j)*dag(Kc(j))*dag(psic(j)). *)
Definition aenv_next (E : nat -> nat -> nat -> nat -> R) (p : tensor * kten) (b v b' v' : nat) : R :=
  let (x, K) := p in
  bsum (tl x) (fun a' => bsum (tp x) (fun t =>
    bsum (kl K) (fun w' => bsum (ko K) (fun s' =>
      bsum (kl K) (fun w => bsum (tp x) (fun s =>
        bsum (tl x) (fun a => E a w a' w' * te x a s b) * ke K w s s' v))
      * conj (ke K w' t s' v')))
    * conj (te x a' t b'))).
(** E[j] for the tensors at j,...,1. *)
Fixpoint aenv (rest : list (tensor * kten)) : nat -> nat -> nat -> nat -> R :=
  match rest with
  | [] => fun _ _ _ _ => r0
  | p :: rest' => match rest' with [] => aenv1 p | _ => aenv_next (aenv rest') p end
  end.
(** mpoalgs.cc:259: O = psi(N)*K(N). *)
Definition olast (p : tensor * kten) : oten R :=
  let (x, K) := p in mkO (tl x) (kl K) (ko K) (tr x) (tj x) (fun a w s' k => bsum (tp x) (fun s => te x a s k * ke K w s s' 0)).
(** mpoalgs.cc:261, 288: rho = E[j-1]*O*dag(prime(O)). *)
Definition arho (E : nat -> nat -> nat -> nat -> R) (O : oten R) : @pmatrix R := fun s k s' k' =>
  bsum (oa O) (fun a' => bsum (ow O) (fun w' =>
    bsum (oa O) (fun a => bsum (ow O) (fun w => E a w a' w' * oe O a w s k)) * conj (oe O a' w' s' k'))).
(** mpoalgs.cc:269, 293: res.ref(j) = dag(U). *)
Definition adagU (O : oten R) (m : nat) (U : nat -> nat -> nat -> R) : tensor :=
  mkT m (op O) (orr O) (oj O) (fun q s k => conj (U s k q)).
(** mpoalgs.cc:271, 292: O = O*U*psi(j-1)*K(j-1). *)
Definition aabsorb (O : oten R) (p : tensor * kten) (m : nat) (U : nat -> nat -> nat -> R) : oten R :=
  let (x, K) := p in
  mkO (tl x) (kl K) (ko K) m true (fun a w s' q =>
    bsum (ow O) (fun v => bsum (tp x) (fun s =>
      bsum (oa O) (fun b => bsum (op O) (fun s'' => bsum (orr O) (fun k => oe O b v s'' k * U s'' k q)) * te x a s b) * ke K w s s' v))).
(** mpoalgs.cc:297-298: if(normalize) O /= norm(O); res.ref(1) = O, whose links of x and K are absent. *)
Definition osquare (O : oten R) : R := bsum (op O) (fun s => bsum (orr O) (fun k => conj (oe O 0 0 s k) * oe O 0 0 s k)).
Definition ofirst (normalize : bool) (O : oten R) : tensor :=
  mkT 1 (op O) (orr O) (oj O) (fun _ s k => if normalize then invnorm (osquare O) * oe O 0 0 s k else oe O 0 0 s k).
(** mpoalgs.cc:261-295: [rest] are the tensors at j-1,...,1 and [acc] the new ones at j+1,...,N.  Without
    a MaxDim argument the first step has no MaxDim and the others have the product of the dimensions of
    the links of x and K shared with E[j-1] (mpoalgs.cc:277-287). *)
Fixpoint aloop (maxdim : option nat) (normalize first : bool) (rest : list (tensor * kten)) (O : oten R) (acc : list tensor) : outcome (list tensor) :=
  match rest with
  | [] => Ok (ofirst normalize O :: acc)
  | p :: rest' =>
      let mx := match maxdim with Some q => Some q | None => if first then None else Some (oa O * ow O)%nat end in
      let! (m, U) := diag mx (op O) (orr O) (arho (aenv rest) O) in
      aloop maxdim normalize false rest' (aabsorb O p m U) (adagU O m U :: acc)
  end.
(** With one site rho = E[0]*... multiplies a default constructed ITensor: an error (itensor.cc:940). *)
Definition apply_list (maxdim : option nat) (normalize : bool) (ps : list (tensor * kten)) : outcome (list tensor) :=
  match rev ps with
  | last :: p :: rest => aloop maxdim normalize true (p :: rest) (olast last) []
  | _ => Err
  end.
(** mpoalgs.cc:193-308: x is the MPS [s] with site Indices [ns].  The result and its site Indices. *)
Definition density_apply (maxdim : option nat) (normalize : bool) (Ms : list (mpoT R N)) (s : mps tensor) (ns : list N) : outcome (mps tensor * list N) :=
  if mdo s then Err
  else
    let! ks := orients ns Ms in
    let! ts := collect (mA s) 1 (Z.to_nat (mN s)) in
    let! ts' := apply_list maxdim normalize (List.combine ts (map snd ks)) in
    Ok (mkMps (mN s) (fun j => if (1 <=? j)%Z && (j <=? mN s)%Z then nth_error ts' (Z.to_nat (j - 1)) else mA s j) 0 2 (matb s) (mdo s) (mdir s), map fst ks).

(** The methods a caller can name (mpoalgs.cc:136-160). *)
Inductive method := DensityMatrix | Fit | Other.
(** fitApplyMPOImpl: a parameter here; its two-site sweeps are modelled in FapModel.v. *)
Context (fit : list (mpoT R N) -> mps tensor -> list N -> outcome (mps tensor * list N)).
(** mpoalgs.cc:128-163: operator bool of an MPS is N > 0. *)
Definition applyMPO (meth : option method) (maxdim : option nat) (normalize : bool) (Ms : list (mpoT R N)) (s : mps tensor) (ns : list N) : outcome (mps tensor * list N) :=
  if (mN s =? 0)%Z then Err
  else if (length Ms =? 0)%nat then Err
  else match meth with
       | None | Some DensityMatrix => density_apply maxdim normalize Ms s ns
       | Some Fit => fit Ms s ns
       | Some Other => Err
       end.
(** mpoalgs.cc:166-190, with a guess x0 (of N sites [n0]). *)
Definition applyMPO_guess (meth : option method) (Ms : list (mpoT R N)) (s : mps tensor) (ns : list N) (n0 : Z) : outcome (mps tensor * list N) :=
  if (mN s =? 0)%Z then Err
  else if (length Ms =? 0)%nat then Err
  else if (n0 =? 0)%Z then Err
  else match meth with
       | None | Some Fit => fit Ms s ns
       | Some DensityMatrix | Some Other => Err
       end.
End Apply.
