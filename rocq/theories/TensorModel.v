(** Model of strided tensor views, element-wise transformation, permutation of
    views, matrix views and matrix multiplication:
    itensor/tensor/ten_impl.h, slicerange.h, sliceten.h, matrange.h, gemm.cc,
    lapack_wrap.cc.

    Simplifications: element arithmetic is that of an arbitrary structure
    with zero, sum and product, so floating-point rounding is not modelled; size_t is nat;
    the external BLAS routine dgemm is modelled by its documented result. *)
From Coq Require Import List ZArith Lia Bool Arith.
From Verif Require Import Util RangeModel.
Import ListNotations.
Open Scope outcome_scope.

(** permuteRange (slicerange.h:24-38): entry P.dest(n) of the new range gets extent and
    stride n of the old one.  RangeBuilder(r) starts from default entries (range.h:317-319). *)
Definition permuteRange (r : range) (P : perm) : outcome range :=
  permute_loop P r (repeat (IS 0 0) (length r)).

(** permuteExtents (slicerange.h:48-61): same extents, new contiguous strides. *)
Definition permuteExtents (r : range) (P : perm) : outcome range :=
  let! e := permute_loop P (map ext r) (repeat 0 (length r)) in Ok (range_init e).

(** ten_impl.h:128-136: position and size of the first largest extent. *)
Fixpoint bigind_loop (j : nat) (es : list nat) (bi bs : nat) : nat * nat :=
  match es with
  | [] => (bi, bs)
  | e :: es' => if bs <? e then bigind_loop (S j) es' j e else bigind_loop (S j) es' bi bs
  end.

Section Transform.
Context {T1 T2 : Type} (op : T1 -> T2 -> T2).

(** ten_impl.h:155-160: the inner loop over the largest index. *)
Fixpoint transform_inner (n pf sf pt st : nat) (from : list T1) (to : list T2) : outcome (list T2) :=
  match n with
  | O => Ok to
  | S n' => let! x := oget from pf in
            let! y := oget to pt in
            let! to' := oupd pt (op x y) to in
            transform_inner n' (pf + sf) sf (pt + st) st from to'
  end.

(** ten_impl.h:148-161: the loop over all other indices. *)
Fixpoint transform_outer (its : list (list nat * nat)) (rf rt : range) (bs sf st : nat)
    (from : list T1) (to : list T2) : outcome (list T2) :=
  match its with
  | [] => Ok to
  | (i, _) :: its' => let! ot := offset 0 rt i in
                      let! off := offset 0 rf i in
                      let! to' := transform_inner bs off sf ot st from to in
                      transform_outer its' rf rt bs sf st from to'
  end.

(** transform (ten_impl.h:107-162): to = op(from,to) element by element.
    Orders are assumed equal (only checked under DEBUG): different orders are UB here,
    and so is a loop that never ends (an extent 0). *)
Definition transform (rf : range) (from : list T1) (rt : range) (to : list T2) : outcome (list T2) :=
  if negb (length rf =? length rt) then UB else
  match rf with
  | [] => let! x := oget from 0 in let! y := oget to 0 in oupd 0 (op x y) to
  | f0 :: rf' =>
      let (bi, bs) := bigind_loop 1 (map ext rf') 0 (ext f0) in
      let! xf := oget rf bi in
      let! xt := oget rt bi in
      let rb := range_init (upd bi 1 (map ext rf)) in
      let! its := riter_loop (S (dim rb)) 0 rb (riter_begin 0 rb) in
      match its with
      | None => UB
      | Some its => transform_outer its rf rt bs (str xf) (str xt) from to
      end
  end.
End Transform.

(** operator&= (ten_impl.h:164-168). *)
Definition tassign {T} := @transform T T (fun b _ => b).

(** struct MatRangeT (matrange.h:33-58): extents and strides of rows and columns. *)
Record matrange := MR { rn : nat; rs : nat; cn : nat; cs : nat }.
Definition mat_range (r c : nat) : matrange := MR r 1 c r.
(** transpose (matrange.h:122-127). *)
Definition mtranspose (m : matrange) : matrange := MR (cn m) (cs m) (rn m) (rs m).
(** isTransposed (matrange.h:169-171). *)
Definition isTransposed (m : matrange) : bool := (rs m =? cn m) && (cs m =? 1).

Section Gemm.
Context {R : Type} (r0 : R) (radd rmul : R -> R -> R).

Fixpoint sumn (n : nat) (f : nat -> R) : R :=
  match n with O => r0 | S n' => radd (sumn n' f) (f n') end.

(** gemm_wrapper (lapack_wrap.cc:116-161) calling BLAS dgemm with lda = m (k if A is transposed),
    ldb = k (n if B is transposed), ldc = m.  dgemm itself is external: its documented result. *)
Definition dgemm (transa transb : bool) (m n k : nat) (alpha : R) (A B : list R) (beta : R) (C : list R)
  : outcome (list R) :=
  if (length A <? m * k) || (length B <? k * n) || (length C <? m * n) then UB else
  let elA i l := nth (if transa then l + k * i else i + m * l) A r0 in
  let elB l j := nth (if transb then j + n * l else l + k * j) B r0 in
  Ok (map (fun p => let i := p mod m in let j := p / m in
             radd (rmul alpha (sumn k (fun l => rmul (elA i l) (elB l j)))) (rmul beta (nth p C r0)))
          (seq 0 (m * n)) ++ skipn (m * n) C).

(** gemm_impl for real matrices (gemm.cc:231-250). *)
Definition gemm_impl (mA : matrange) (A : list R) (mB : matrange) (B : list R) (mC : matrange) (C : list R)
    (alpha beta : R) : outcome (list R) :=
  dgemm (isTransposed mA) (isTransposed mB) (rn mA) (cn mB) (cn mA) alpha A B beta C.

(** gemm (gemm.cc:252-288): C = alpha*A*B + beta*C. *)
Definition gemm (mA : matrange) (A : list R) (mB : matrange) (B : list R) (mC : matrange) (C : list R)
    (alpha beta : R) : outcome (list R) :=
  if isTransposed mC
  then gemm_impl (mtranspose mB) B (mtranspose mA) A (mtranspose mC) C alpha beta
  else gemm_impl mA A mB B mC C alpha beta.
End Gemm.
