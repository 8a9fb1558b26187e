(** Model of nmultMPO(A,B,res,args) (itensor/mps/mpoalgs.cc:34-107).

    Simplifications: dense tensors in memory; every tensor has two site Indices; Cutoff and
    RespectDegenerate are fixed in [diag] and [splitR]; the case that at some site no Index is shared is
    not modelled (Err stands for it).  If A and B are the same object nmultMPO positions it once: as
    position is a function, B = A gives the same. *)
From Coq Require Import ZArith List Bool Arith.
From Verif Require Import Util BigSum MpsModel MpsTensor OrtSpec OrtModel NmultSpec.
Import ListNotations.
Local Open Scope outcome_scope.

(** clust = nfork*A(i)*B(i): the new link mid, the Index of A, the Index of B, the right links of A and B. *)
Record clus (R : Type) := mkC { cm : nat; cpa : nat; cpb : nat; ca : nat; cb : nat; ce : nat -> nat -> nat -> nat -> nat -> R }.
Arguments mkC {R}. Arguments cm {R}. Arguments cpa {R}. Arguments cpb {R}. Arguments ca {R}. Arguments cb {R}. Arguments ce {R}.

Section Nmult.
Context {R : Type} (r0 : R) (radd rmul : R -> R -> R) (conj : R -> R).
Context {N : Type} (neqb : N -> N -> bool).
Notation bsum := (bsum r0 radd).
Notation tensor := (@tensor R).
Notation "x * y" := (rmul x y).
(** diag_hermitian in denmatDecomp (decomp.h:408), with MaxDim if it is defined; the singular value
    decompositions of position, and svdBond's factorisation. *)
Context (diag : option nat -> nat -> nat -> @pmatrix R -> outcome (nat * (nat -> nat -> nat -> R))).
Context (svdl svdr : tensor -> outcome (tensor * @matrix R)) (splitL splitR : @wave R -> outcome (tensor * tensor)).
Context (maxdim : option nat).

(** uniqueSiteIndex(A,B,i) (mpo.cc:184-194): the first site Index of A(i) that B(i) does not have. *)
Definition unique_site (x y : msite N) : option bool :=
  let has n := neqb n (i1 y) || neqb n (i2 y) in
  if negb (has (i1 x)) then Some true else if negb (has (i2 x)) then Some false else None.
(** mpoalgs.cc:61-72: sA(i) and sB(i) must exist. *)
Fixpoint unique_sites (xs ys : list (msite N)) : outcome (list (bool * bool)) :=
  match xs, ys with
  | x :: xs', y :: ys' =>
      match unique_site x y, unique_site y x with
      | Some oa, Some ob =>
          if neqb (shared_name oa x) (shared_name ob y) then let! l := unique_sites xs' ys' in Ok ((oa, ob) :: l) else Err
      | _, _ => Err
      end
  | _, _ => Ok []
  end.
(** The tensors of A and B at a site with what their sites mean. *)
Record opair := mkP { pa : tensor; pb : tensor; po : bool * bool; px : msite N; py : msite N }.
Definition ea (p : opair) (a u m b : nat) : R := te (pa p) a (both (fst (po p)) (px p) u m) b.
Definition eb (p : opair) (a m v b : nat) : R := te (pb p) a (both (snd (po p)) (py p) v m) b.
Definition pu (p : opair) : nat := own (fst (po p)) (px p).
Definition pv (p : opair) : nat := own (snd (po p)) (py p).
Definition pm (p : opair) : nat := shared (fst (po p)) (px p).
Fixpoint zip (ta tb : list tensor) (os : list (bool * bool)) (xs ys : list (msite N)) : list opair :=
  match ta, tb, os, xs, ys with
  | a :: ta', b :: tb', o :: os', x :: xs', y :: ys' => mkP a b o x y :: zip ta' tb' os' xs' ys'
  | _, _, _, _, _ => []
  end.

(** mpoalgs.cc:80: clust = A(1)*B(1). *)
Definition clust1 (p : opair) : clus R :=
  mkC 1 (pu p) (pv p) (tr (pa p)) (tr (pb p)) (fun _ u v a b => bsum (pm p) (fun m => ea p 0 u m a * eb p 0 m v b)).
(** mpoalgs.cc:84: clust = nfork*A(i)*B(i), the link mid of nfork having dimension k. *)
Definition clust_next (k : nat) (nfork : nat -> nat -> nat -> R) (p : opair) : clus R :=
  mkC k (pu p) (pv p) (tr (pa p)) (tr (pb p)) (fun q u v a b =>
    bsum (tl (pb p)) (fun b0 => bsum (pm p) (fun m => bsum (tl (pa p)) (fun a0 => nfork q a0 b0 * ea p a0 u m a) * eb p b0 m v b))).
(** decomp.h:365-379, of denmatDecomp(clust,res(i),nfork,Fromleft): the rows are the Indices of res(i) that
    are not on nfork, so mid, sA(i), sB(i), combined; rho = AAc*dag(prime(AAc,ci)). *)
Definition crho (C : clus R) : @pmatrix R := fun s k s' k' =>
  bsum (ca C) (fun a => bsum (cb C) (fun b => ce C k (s mod cpa C) (s / cpa C) a b * conj (ce C k' (s' mod cpa C) (s' / cpa C) a b))).
(** decomp.h:412: to_orth = cmb*dag(U). *)
Definition cres (C : clus R) (m : nat) (U : nat -> nat -> nat -> R) : tensor :=
  mkT (cm C) (cpa C * cpb C)%nat m true (fun k s q => conj (U s k q)).
(** decomp.h:414: newoc = U*AAc. *)
Definition cfork (C : clus R) (U : nat -> nat -> nat -> R) (q a b : nat) : R :=
  bsum (cpa C * cpb C)%nat (fun s => bsum (cm C) (fun k => U s k q * ce C k (s mod cpa C) (s / cpa C) a b)).
(** mpoalgs.cc:97: nfork = clust*A(N)*B(N), a two-site tensor. *)
Definition cwave (C : clus R) (p : opair) : @wave R :=
  mkW (cm C) (cpa C * cpb C)%nat (pu p * pv p)%nat 1 false (fun k s s' _ =>
    bsum (cb C) (fun b => bsum (pm p) (fun m => bsum (ca C) (fun a =>
      ce C k (s mod cpa C) (s / cpa C) a b * ea p a (s' mod pu p) m 0) * eb p b m (s' / pu p) 0))).

(** mpoalgs.cc:77-100 from clust at site i on: [ps] are the tensors at i+1,...,N.  res.ref(i+1) is made a
    tensor without elements (line 94); they are assigned before they are read. *)
Fixpoint nloop (d : disk tensor) (res : mps tensor) (i : Z) (C : clus R) (ps : list opair) : outcome (disk tensor * mps tensor) :=
  match ps with
  | [] => UB
  | [p] => svdBond splitL splitR d res i (cwave C p) false
  | p :: ps' =>
      let! (m, U) := diag maxdim (cpa C * cpb C)%nat (cm C) (crho C) in
      let! (d1, res1) := modify d res i (fun _ => Some (cres C m U)) in
      let! (d2, res2) := modify d1 res1 (i + 1)%Z (fun t => t) in
      nloop d2 res2 (i + 1)%Z (clust_next m (cfork C U) p) ps'
  end.
(** linkInds(A) (mps.cc:1272-1285): every link must exist. *)
Fixpoint all_links (ts : list tensor) : bool :=
  match ts with
  | t :: (_ :: _) as ts' => tj t && all_links ts'
  | _ => true
  end.
(** mpoalgs.cc:34-107.  With one site lA(1) reads an Index of an empty IndexSet (indexset.h:203-209,
    checked in debug mode only).  res.orthogonalize() is called without arguments. *)
Definition nmultMPO (d : disk tensor) (A B : mps tensor) (xs ys : list (msite N)) : outcome (mps tensor * list (msite N)) :=
  if negb (mN A =? mN B)%Z then Err
  else if mdo A || mdo B then Err
  else
    let! (d1, A1) := position (orthL r0 radd rmul svdl) (orthR r0 radd rmul svdr) d A 1 in
    let! (d2, B1) := position (orthL r0 radd rmul svdl) (orthR r0 radd rmul svdr) d1 B 1 in
    let! ta := collect (mA A1) 1 (Z.to_nat (mN A1)) in
    let! tb := collect (mA B1) 1 (Z.to_nat (mN B1)) in
    if negb (all_links ta && all_links tb) then Err
    else
      let! os := unique_sites xs ys in
      match zip ta tb os xs ys with
      | [] => UB
      | p :: ps =>
          let! (d3, res0) := modify d2 A1 1 (fun t => t) in
          let! (d4, res1) := nloop d3 res0 1 (clust1 p) ps in
          let! res2 := orthogonalize r0 radd rmul conj diag None res1 in
          Ok (res2, product_sites os xs ys)
      end.
End Nmult.
