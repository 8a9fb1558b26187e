(** Model of diagonal tensors and their products with dense tensors: itensor/itdata/diag.h,
    itensor/itdata/diag.cc (GetElt, Mult, Contract), itensor/tensor/contract.h
    (contractDiagPartial, contractDiagFull), itensor/indexset_impl.h (contractISReplaceIndex),
    itensor/itensor.cc (delta, operator*=), itensor/itensor_impl.h (diagITensor).

    Simplifications: one number type (exact numbers); no QNs; no scale factor.  The offsets
    [astarts] of contractDiagPartial and contractDiagFull are their default, zero: only QDiag
    passes others. *)
From Coq Require Import List ZArith Lia Bool Arith.
From Verif Require Import Util RangeModel TensorModel ContractModel.
Import ListNotations.
Open Scope outcome_scope.

(** class Diag (diag.h:29-112): [dst] is store, [dv] is val, [dl] is length. *)
Record diag (R : Type) := Dg { dst : list R; dv : R; dl : nat }.
Arguments Dg {R}. Arguments dst {R}. Arguments dv {R}. Arguments dl {R}.

(** The storage of the result: Dense or Diag. *)
Inductive storage (R : Type) := SDense (d : list R) | SDiag (d : diag R).
Arguments SDense {R}. Arguments SDiag {R}.

Section Diag.
Context {R : Type} (r0 r1 : R) (radd rmul : R -> R -> R) (is1 : R -> bool).
Context {I : Type} (ieq : I -> I -> bool) (idim : I -> nat).

(** minDim (indexset.cc): the smallest dimension. *)
Fixpoint minDim (is : list I) : nat :=
  match is with [] => 1 | [x] => idim x | x :: is' => Nat.min (idim x) (minDim is') end.

(** delta(IndexSet) without QNs (itensor.cc:1593-1602), Diag(size_t,T) (diag.h:49-52). *)
Definition delta (is : list I) : diag R := Dg [] r1 (minDim is).

(** diagITensor(Container,IndexSet) (itensor_impl.h:606-640), Diag(InputIterator,InputIterator)
    (diag.h:60-64).  The DEBUG check of the container's size against minDim is not made in a
    release build. *)
Definition diagITensor (c : list R) : diag R := Dg c r0 (length c).

(** allSame (diag.h:88-89). *)
Definition allSame (d : diag R) : bool := match dst d with [] => true | _ => false end.

(** doTask(GetElt,Diag) (diag.cc:14-26): store.at throws outside the store. *)
Definition diag_elt (d : diag R) (inds : list nat) : outcome R :=
  let first := match inds with [] => 0 | i :: _ => i end in
  if forallb (Nat.eqb first) inds
  then if allSame d then Ok (dv d)
       else match nth_error (dst d) first with Some x => Ok x | None => Err end
  else Ok r0.

(** The diagonal as the contraction loops see it: UnifVecWrapper(val,length) (diag.cc:30-43) or
    makeVecRefc(data,size). *)
Definition diag_size (d : diag R) : nat := if allSame d then dl d else length (dst d).
Definition diag_at (d : diag R) (J : nat) : outcome R := if allSame d then Ok (dv d) else oget (dst d) J.

(** find_index(al,v) >= 0. *)
Definition has (al : labels) (v : Z) : bool := existsb (Z.eqb v) al.

(** b_cstride and c_cstride (contract.h:240-264): the sum of the strides of the positions whose
    label the diagonal tensor has. *)
Fixpoint cstride (al : labels) (r : range) (l : labels) : nat :=
  match r, l with
  | x :: r', v :: l' => (if has al v then str x else 0) + cstride al r' l'
  | _, _ => 0
  end.

(** contract.h:266-285: extent, stride in B and stride in C of every position of B with a
    positive label.  A label that C lacks reads the stride of position -1. *)
Fixpoint upositions (rC : range) (cl : labels) (rB : range) (bl : labels)
  : outcome (list (nat * nat * nat)) :=
  match rB, bl with
  | x :: rB', v :: bl' =>
      if (0 <? v)%Z then
        match find_pos Z.eqb v cl with
        | None => UB
        | Some ic => let! y := oget rC ic in
                     let! t := upositions rC cl rB' bl' in
                     Ok ((ext x, str x, str y) :: t)
        end
      else upositions rC cl rB' bl'
  | _, _ => Ok []
  end.

(** contract.h:290-297: boffset and coffset. *)
Fixpoint uoffsets (us : list (nat * nat * nat)) (iv : list Z) : nat * nat :=
  match us, iv with
  | (_, bs, cs) :: us', i :: iv' =>
      let (b, c) := uoffsets us' iv' in (Z.to_nat i * bs + b, Z.to_nat i * cs + c)
  | _, _ => (0, 0)
  end.

(** contract.h:298-301: the loop over the diagonal; [Js] are the values of J still to come. *)
Fixpoint diag_loop (d : diag R) (B : list R) (bcs ccs boff coff : nat) (Js : list nat) (C : list R)
  : outcome (list R) :=
  match Js with
  | [] => Ok C
  | J :: Js' =>
      let! a := diag_at d J in
      let! b := oget B (J * bcs + boff) in
      let! c := oget C (J * ccs + coff) in
      let! C' := oupd (J * ccs + coff) (radd c (rmul a b)) C in
      diag_loop d B bcs ccs boff coff Js' C'
  end.

(** contract.h:288-303: the loop over the uncontracted values of B. *)
Fixpoint visit_loop (d : diag R) (B : list R) (bcs ccs : nat) (us : list (nat * nat * nat))
    (visits : list (list Z * nat)) (C : list R) : outcome (list R) :=
  match visits with
  | [] => Ok C
  | (iv, _) :: visits' =>
      let (boff, coff) := uoffsets us iv in
      let! C' := diag_loop d B bcs ccs boff coff (seq 0 (diag_size d)) C in
      visit_loop d B bcs ccs us visits' C'
  end.

(** contractDiagPartial (contract.h:229-304).  The counter (detail::GCounter, modelled in
    RangeModel.v) has nbu positions, the number of labels of B the diagonal tensor lacks. *)
Definition contractDiagPartial (d : diag R) (al : labels) (rB : range) (B : list R) (bl : labels)
    (rC : range) (C : list R) (cl : labels) : outcome (list R) :=
  let bcs := cstride al rB bl in
  let ccs := cstride al rC cl in
  let nbu := length (filter (fun v => negb (has al v)) bl) in
  let! us := upositions rC cl rB bl in
  if negb (length us =? nbu) then UB else
  let rs := map (fun u : nat * nat * nat => (0%Z, (Z.of_nat (fst (fst u)) - 1)%Z)) us in
  let fuel := S (fold_right Nat.mul 1 (map (fun u : nat * nat * nat => fst (fst u)) us)) in
  let! visits := gc_loop fuel (gc_make rs) in
  match visits with
  | None => UB
  | Some vs => visit_loop d B bcs ccs us vs C
  end.

(** contractDiagFull (contract.h:309-346): one element of C takes everything, otherwise C[J]. *)
Definition contractDiagFull (d : diag R) (al : labels) (rB : range) (B : list R) (bl : labels)
    (C : list R) : outcome (list R) :=
  let bcs := cstride al rB bl in
  diag_loop d B bcs (if length C =? 1 then 0 else 1) 0 0 (seq 0 (diag_size d)) C.

(** contractDiagDense (diag.cc:45-126). *)
Definition contractDiagDense (d : diag R) (dis : list I) (dind : labels) (t : list R) (tis : list I)
    (tind : labels) (Nis : list I) (Nind : labels) : outcome (storage R) :=
  if existsb (fun v => (0 <=? v)%Z) tind then
    let rN := irange idim Nis in
    let! C := contractDiagPartial d dind (irange idim tis) t tind rN (repeat r0 (dim rN)) Nind in
    Ok (SDense C)
  else
    let nsize := if existsb (fun v => (0 <=? v)%Z) dind then dl d else 1 in
    let! n := contractDiagFull d dind (irange idim tis) t tind (repeat r0 nsize) in
    if length Nis =? 1 then Ok (SDense n)
    else if nsize =? 1 then let! v := oget n 0 in Ok (SDiag (Dg [] v 1))
    else Ok (SDiag (Dg n r0 (length n))).

(** isReplaceDelta (diag.cc:128-140). *)
Definition isReplaceDelta (d : diag R) (dis : list I) (l : labels) : bool :=
  match dis, l with
  | [a; b], [la; lb] =>
      allSame d && is1 (dv d) && (idim a =? idim b) && negb (Bool.eqb (la <? 0)%Z (lb <? 0)%Z)
  | _, _ => false
  end.

(** contractISReplaceIndex (indexset_impl.h:129-151): the delta tensor has two indices here. *)
Fixpoint replaceIndex (Lis : list I) (Lind : labels) (Ris : list I) (Rind : labels) : list I :=
  match Lis, Lind with
  | x :: Lis', v :: Lind' =>
      (if (v <? 0)%Z then
         match Ris, Rind with
         | a :: b :: _, ra :: _ => if (0 <=? ra)%Z then a else b
         | _, _ => x
         end
       else x) :: replaceIndex Lis' Lind' Ris Rind
  | _, _ => []
  end.

(** doTask(Contract,Dense,Diag) and doTask(Contract,Diag,Dense) (diag.cc:142-203); [dleft] is the
    second.  The order of the result's indices is contractIS with sortIndices = false. *)
Definition contract_diag (dleft : bool) (tis : list I) (t : list R) (dis : list I) (d : diag R)
  : outcome (list I * storage R) :=
  let! (tind, dind) :=
    if dleft then let! (dind, tind) := computeLabels ieq dis tis in Ok (tind, dind)
    else computeLabels ieq tis dis in
  if isReplaceDelta d dis dind then Ok (replaceIndex tis tind dis dind, SDense t)
  else
    let (Nis, Nind) := if dleft then contractIS dis dind tis tind else contractIS tis tind dis dind in
    let! st := contractDiagDense d dis dind t tis tind Nis Nind in
    Ok (Nis, st).

(** doTask(Mult,Diag) (diag.cc:276-290). *)
Definition mult_diag (z : R) (d : diag R) : diag R :=
  Dg (map (fun x => rmul x z) (dst d)) (rmul (dv d) z) (dl d).

(** ITensor::operator*= (itensor.cc:935-981) of a dense and a diagonal tensor: an order-0 operand
    is read with eltC and multiplies the other. *)
Definition times_diag (dleft : bool) (tis : list I) (t : list R) (dis : list I) (d : diag R)
  : outcome (list I * storage R) :=
  match tis, dis with
  | [], [] => let! a := oget t 0 in
              let! b := diag_elt d [] in
              if dleft then Ok ([], SDense (mult_dense rmul b t)) else Ok ([], SDiag (mult_diag a d))
  | [], _ => let! a := oget t 0 in Ok (dis, SDiag (mult_diag a d))
  | _, [] => let! b := diag_elt d [] in Ok (tis, SDense (mult_dense rmul b t))
  | _, _ => contract_diag dleft tis t dis d
  end.

(** doTask(GetElt) on either storage, positions in the order of the indices (dense.cc:19-30). *)
Definition store_elt (is : list I) (st : storage R) (inds : list nat) : outcome R :=
  match st with
  | SDense d => let! o := offset 0 (irange idim is) inds in oget d o
  | SDiag d => diag_elt d inds
  end.
End Diag.
