(** Product states: the MPS built from an InitState (itensor/mps/mps.cc), its link
    quantum numbers, its elements, and totalQN (itensor/mps/mpsalgs.cc). *)
From Coq Require Import List ZArith Bool Arith.
From Verif Require Import Util QnModel BigSum MpsModel MpsTensor.
Import ListNotations.
Local Open Scope outcome_scope.

(** A QN Index: arrow and blocks (QN, size) (index.cc:470-500). *)
Record qindex := mkQI { qdir : Arrow; qblocks : list (QN * nat) }.
Definition qdim (I : qindex) : nat := list_sum (map snd (qblocks I)).
(** index.cc:433-441, sectorInfo, on an IndexVal whose value counts from 1; past the
    last block blocksize(i) reads outside the block list. *)
Fixpoint sector (bs : list (QN * nat)) (v : nat) : outcome QN :=
  match bs with
  | [] => UB
  | (q, n) :: bs' => if Nat.ltb n v then sector bs' (v - n) else Ok q
  end.
(** index.cc:443-448, IndexVal::qn(). *)
Definition ival := (qindex * nat)%type.
Definition iv_qn (iv : ival) : outcome QN := sector (qblocks (fst iv)) (snd iv).

Fixpoint omap {A B} (f : A -> outcome B) (l : list A) : outcome (list B) :=
  match l with [] => Ok [] | x :: l' => let! y := f x in let! ys := omap f l' in Ok (y :: ys) end.

(** mps.cc:563-564: qa[0] -= qn(initState(i))*In for i = 1..N. *)
Definition qa0 (qs : list QN) : QN := fold_left (fun acc q => qn_sub acc (qn_mul q ArrIn)) qs qn0.
(** mps.cc:567-571: qa[1], qa[2], ..., qa[N] from qa[i-1]. *)
Fixpoint qa_rest (q : QN) (qs : list QN) : list QN :=
  match qs with
  | [] => []
  | s :: qs' =>
      let q' := qn_mul (qn_sub (qn_mul (qn_neg q) ArrIn) s) ArrOut in
      q' :: qa_rest q' qs'
  end.

(** An IndexVal of a tensor in the chain. *)
(** mps.cc:572: Index(qa[i],1,...): one block of size 1, arrow Out; [dag] turns it. *)
Definition link (q : QN) : qindex := mkQI ArrOut [(q, 1%nat)].
Definition qi_dag (I : qindex) : qindex := mkQI (arrow_neg (qdir I)) (qblocks I).

(** itensor_impl.h:461-502, setElt(iv1,...): the tensor with these indices whose only
    nonzero element, 1, is at these values. *)
Definition elt_tensor := list ival.
(** mps.cc:579-584, for N >= 2 (for N = 1 the last line overwrites A_[1] with a tensor
    that also has a default Index). [qa] is qa[i-1]. *)
Fixpoint build_rest (ivs : list ival) (q : QN) (qas : list QN) : list elt_tensor :=
  match ivs, qas with
  | [iv], _ => [[(qi_dag (link q), 1%nat); iv]]
  | iv :: ivs', q' :: qas' => [(qi_dag (link q), 1%nat); iv; (link q', 1%nat)] :: build_rest ivs' q' qas'
  | _, _ => []
  end.
Definition build (ivs : list ival) (qas : list QN) : list elt_tensor :=
  match ivs, qas with
  | iv :: ivs', q :: qas' => [iv; (link q, 1%nat)] :: build_rest ivs' q qas'
  | _, _ => []
  end.
(** mps.cc:556-585, MPS(InitState): the tensors, with leftLim 0 and rightLim 2
    (mps.cc:106-116). *)
Definition product_mps (ivs : list ival) : outcome (list elt_tensor * Z * Z) :=
  let! qs := omap iv_qn ivs in
  if Nat.ltb (length ivs) 2 then UB else
  Ok (build ivs (qa_rest (qa0 qs) qs), 0%Z, 2%Z).

(** qdense.cc:86-93, calcDiv on the block of the stored element. *)
Fixpoint calc_div (acc : QN) (t : elt_tensor) : outcome QN :=
  match t with
  | [] => Ok acc
  | iv :: t' => let! q := iv_qn iv in calc_div (qn_add acc (qn_mul q (qdir (fst iv)))) t'
  end.
Definition flux (t : elt_tensor) : outcome QN := calc_div qn0 t.

(** mpsalgs.cc:241-252, totalQN: the tensors from leftLim+1 to rightLim-1. *)
Fixpoint sum_flux (acc : QN) (ts : list elt_tensor) : outcome QN :=
  match ts with [] => Ok acc | t :: ts' => let! q := flux t in sum_flux (qn_add acc q) ts' end.
Definition totalQN (m : list elt_tensor * Z * Z) : outcome QN :=
  let '(ts, l, r) := m in
  sum_flux qn0 (firstn (Z.to_nat (r - 1 - l)) (skipn (Z.to_nat l) ts)).

(** The entries of the same tensors, as tensors of the chain with a left and a right
    link of dimension 1. *)
Section Entries.
Context {R : Type} (r0 r1 : R).
Definition site_of (t : elt_tensor) (first : bool) : option ival :=
  match t with
  | iv :: rest => if first then Some iv else match rest with iv' :: _ => Some iv' | [] => None end
  | [] => None
  end.
Definition entries (t : elt_tensor) (first last : bool) : @tensor R :=
  match site_of t first with
  | Some iv => mkT 1 (qdim (fst iv)) 1 (negb last)
      (fun a s b => if Nat.eqb a 0 && Nat.eqb (S s) (snd iv) && Nat.eqb b 0 then r1 else r0)
  | None => mkT 1 1 1 false (fun _ _ _ => r0)
  end.
Fixpoint entries_rest (ts : list elt_tensor) : list (@tensor R) :=
  match ts with
  | [] => []
  | t :: ts' => entries t false (match ts' with [] => true | _ => false end) :: entries_rest ts'
  end.
Definition all_entries (ts : list elt_tensor) : list (@tensor R) :=
  match ts with [] => [] | t :: ts' => entries t true (match ts' with [] => true | _ => false end) :: entries_rest ts' end.
End Entries.
