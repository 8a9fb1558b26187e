(** Model of element access, addition, index reordering and the non-contracting product of dense
    tensors: itensor/itensor.cc (set, eltC, permute, daxpy, operator+=, operator-=, operator/=),
    itensor/detail/algs.h (permute_map), itensor/itdata/dense.cc (GetElt, SetElt, PlusEQ, Order,
    NCProd), itensor/indexset_impl.h (ncprod), itensor/tensor/contract_impl.h (ncprod_impl).

    Simplifications: one number type (real and complex storage hold the same exact numbers, so
    the conversions of DenseReal to DenseCplx disappear); no scale factor (USESCALE off, the
    default); no QNs.  A tensor is its index list and its column-major storage. *)
From Coq Require Import List ZArith Lia Bool Arith.
From Verif Require Import Util RangeModel TensorModel ContractModel.
Import ListNotations.
Open Scope outcome_scope.

Section Access.
Context {R : Type} {I : Type} (ieq : I -> I -> bool) (idim : I -> nat).

(** detail::permute_map (algs.h:31-58) with the map iv -> iv.val-1: every given index is looked up
    among the tensor's indices; one that is not there throws. *)
Fixpoint permute_map (is : list I) (ivs : list (I * Z)) (r : list Z) : outcome (list Z) :=
  match ivs with
  | [] => Ok r
  | (x, v) :: ivs' => match find_pos ieq x is with
                      | None => Err
                      | Some i1 => let! r' := oupd i1 (v - 1)%Z r in permute_map is ivs' r'
                      end
  end.

(** offset (range.h:408-488) of signed values. *)
Fixpoint offset_z (r : range) (inds : list Z) : outcome Z :=
  match inds, r with
  | [], _ => Ok 0%Z
  | i :: inds', x :: r' => let! o := offset_z r' inds' in Ok (Z.of_nat (str x) * i + o)%Z
  | _ :: _, [] => UB
  end.

(** d[offset] on a vector: outside is undefined behaviour. *)
Definition zget (d : list R) (o : Z) : outcome R := if (o <? 0)%Z then UB else oget d (Z.to_nat o).
Definition zupd (o : Z) (x : R) (d : list R) : outcome (list R) := if (o <? 0)%Z then UB else oupd (Z.to_nat o) x d.

(** ITensor::set(vector<IndexVal>,Cplx) (itensor.cc:159-186; the storage is allocated). *)
Definition tset (is : list I) (d : list R) (ivs : list (I * Z)) (v : R) : outcome (list R) :=
  if negb (length ivs =? length is) then Err else
  let! inds := permute_map is ivs (repeat 0%Z (length is)) in
  let! o := offset_z (irange idim is) inds in
  zupd o v d.

(** ITensor::eltC(vector<IndexVal>) (itensor.cc:114-134); the array of positions starts with
    arbitrary contents [junk] (IntArray(size), infarray.h:70-86). *)
Definition telt (is : list I) (d : list R) (ivs : list (I * Z)) (junk : nat -> Z) : outcome R :=
  if negb (length ivs =? length is) then Err else
  let! inds := permute_map is ivs (map junk (seq 0 (length is))) in
  let! o := offset_z (irange idim is) inds in
  zget d o.
End Access.

Section Linear.
Context {R : Type} (radd rmul : R -> R -> R).
Context {I : Type} (ieq : I -> I -> bool) (idim : I -> nat).

(** daxpy_wrapper over the whole storage (dense.cc:382-386). *)
Fixpoint axpy (alpha : R) (d2 d1 : list R) : list R :=
  match d2, d1 with
  | y :: d2', x :: d1' => radd x (rmul alpha y) :: axpy alpha d2' d1'
  | _, _ => d1
  end.

(** daxpy (itensor.cc:1207-1251) with doTask(PlusEQ) / add (dense.cc:371-393):
    L += alpha*R.  Different orders or index sets are errors. *)
Definition daxpy (Lis : list I) (L : list R) (Ris : list I) (Rd : list R) (alpha : R) : outcome (list R) :=
  if negb (length Lis =? length Ris) then Err else
  let! P := calcPerm ieq Ris Lis in
  if isTrivial P then Ok (axpy alpha Rd L)
  else let! vR := permuteRange (irange idim Ris) P in
       transform (fun v2 v1 => radd v1 (rmul alpha v2)) vR Rd (irange idim Lis) L.

(** bind.setIndex(P.dest(i),Ais[i]) (itensor.cc:655-658): the permuted index set. *)
Definition permute_inds (P : perm) (Ais : list I) : outcome (list I) :=
  match Ais with
  | [] => Ok []
  | x :: _ => permute_loop P Ais (repeat x (length Ais))
  end.

(** ITensor::permute (itensor.cc:629-671), permuteDense (dense.cc:417-436): the storage is
    copied and then read through the permuted view. *)
Definition tpermute (Ais : list I) (A : list R) (iset : list I) : outcome (list I * list R) :=
  if negb (length Ais =? length iset) then Err else
  let! P := calcPerm ieq Ais iset in
  if isTrivial P then Ok (Ais, A) else
  let! Bis := permute_inds P Ais in
  let! vA := permuteRange (irange idim Ais) P in
  let! B := tassign vA A (irange idim Bis) A in
  Ok (Bis, B).

(** ncprod on index sets (indexset_impl.h:153-195): merged indices of L first, then the unique
    ones of L, then those of R. *)
Fixpoint merged (is : list I) (ind : labels) : list (I * Z) :=
  match is, ind with
  | x :: is', v :: ind' => if (v <? 0)%Z then (x, v) :: merged is' ind' else merged is' ind'
  | _, _ => []
  end.
Definition ncprodIS (Lis : list I) (Lind : labels) (Ris : list I) (Rind : labels) : list I * labels :=
  let l := merged Lis Lind ++ uncontracted Lis Lind ++ uncontracted Ris Rind in
  (map fst l, map snd l).

(** ncprod_impl (contract_impl.h:62-107): aind[na] points at the iterator's value number nc;
    None is a null pointer. *)
Fixpoint set_ptrs (cl : labels) (nc : nat) (own : labels) (p : list (option nat)) : outcome (list (option nat)) :=
  match cl with
  | [] => Ok p
  | c :: cl' => match find_index own c with
                | None => set_ptrs cl' (S nc) own p
                | Some na => let! p' := oupd na (Some nc) p in set_ptrs cl' (S nc) own p'
                end
  end.

(** The values seen through the pointers when the iterator stands at [ind]. *)
Fixpoint deref (p : list (option nat)) (ind : list nat) : outcome (list nat) :=
  match p with
  | [] => Ok []
  | None :: _ => UB
  | Some n :: p' => let! i := oget ind n in let! r := deref p' ind in Ok (i :: r)
  end.

(** contract_impl.h:103-106: the loop over the elements of C. *)
Fixpoint ncprod_loop (its : list (list nat * nat)) (pa pb : list (option nat)) (rA : range) (A : list R)
    (rB : range) (B C : list R) : outcome (list R) :=
  match its with
  | [] => Ok C
  | (ind, off) :: its' =>
      let! ia := deref pa ind in
      let! ib := deref pb ind in
      let! oa := offset 0 rA ia in
      let! ob := offset 0 rB ib in
      let! a := oget A oa in
      let! b := oget B ob in
      let! C' := oupd off (rmul a b) C in
      ncprod_loop its' pa pb rA A rB B C'
  end.

(** A loop that does not end is UB here. *)
Definition ncprod_impl (rA : range) (A : list R) (ai : labels) (rB : range) (B : list R) (bi : labels)
    (rC : range) (C : list R) (ci : labels) : outcome (list R) :=
  let! pa := set_ptrs ci 0 ai (repeat None (length rA)) in
  let! pb := set_ptrs ci 0 bi (repeat None (length rB)) in
  let! its := riter_loop (S (dim rC)) 0 rC (riter_begin 0 rC) in
  match its with
  | None => UB
  | Some its => ncprod_loop its pa pb rA A rB B C
  end.

(** operator/=(ITensor) (itensor.cc:1040-1066), doTask(NCProd) (dense.cc:332-356). *)
Definition slash (Lis : list I) (L : list R) (Ris : list I) (Rd : list R) (junk : nat -> R)
  : outcome (list I * list R) :=
  let! (Lind, Rind) := computeLabels ieq Lis Ris in
  let (Nis, Nind) := ncprodIS Lis Lind Ris Rind in
  let rN := irange idim Nis in
  let! d := ncprod_impl (irange idim Lis) L Lind (irange idim Ris) Rd Rind rN (map junk (seq 0 (dim rN))) Nind in
  Ok (Nis, d).
End Linear.

Section PlusEq.
Context {R : Type} (r0 r1 : R) (radd rmul : R -> R -> R) (neg1 : R).
Context {I : Type} (ieq : I -> I -> bool) (idim : I -> nat).

(** operator+= and operator-= (itensor.cc:1253-1279) on allocated tensors; [same] tells
    whether both operands are the same object. *)
Definition plus_eq (same : bool) (Lis : list I) (L : list R) (Ris : list I) (Rd : list R) : outcome (list R) :=
  if same then Ok (mult_dense rmul (radd r1 r1) L) else daxpy radd rmul ieq idim Lis L Ris Rd r1.
Definition minus_eq (same : bool) (Lis : list I) (L : list R) (Ris : list I) (Rd : list R) : outcome (list R) :=
  if same then Ok (mult_dense rmul r0 L) else daxpy radd rmul ieq idim Lis L Ris Rd neg1.
End PlusEq.
