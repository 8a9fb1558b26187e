(** Model of multi-index ranges, their iterators and counters, and permutations:
    itensor/tensor/range.h, itensor/tensor/rangeiter.h, itensor/detail/gcounter.h,
    itensor/tensor/permutation.h.

    Simplifications: size_t and long are unbounded (nat, and Z for GCounter);
    index values are never below the range's start; the InfArray storage is a
    list (justified by property C28). *)
From Coq Require Import List ZArith Lia Bool Arith.
From Verif Require Import Util.
Import ListNotations.
Open Scope outcome_scope.

(** struct IndStr (range.h:54-77): extent and stride. *)
Record indstr := IS { ext : nat; str : nat }.
Definition range := list indstr.

(** RangeT::init / initImpl (range.h:211-258) and computeStrides (range.h:192-201). *)
Fixpoint with_strides (s : nat) (exts : list nat) : range :=
  match exts with
  | [] => []
  | e :: t => IS e s :: with_strides (s * e) t
  end.
Definition range_init (exts : list nat) : range := with_strides 1 exts.

(** RangeBuilderT::build after nextIndStr/setIndStr (range.h:328-392): the given strides are kept. *)
Definition range_build (es : list (nat * nat)) : range := map (fun p => IS (fst p) (snd p)) es.

(** normalRange (range.h:507-517). *)
Definition normalRange (r : range) : range := range_init (map ext r).

(** dim (range.h:491-503). *)
Fixpoint dim (r : range) : nat :=
  match r with [] => 1 | x :: t => ext x * dim t end.

(** offset / offsetImpl (range.h:408-488); [start] is 0 or 1.
    More values than indices read past the stride array. *)
Fixpoint offset (start : nat) (r : range) (inds : list nat) : outcome nat :=
  match inds, r with
  | [], _ => Ok 0
  | i :: inds', x :: r' => let! o := offset start r' inds' in Ok (str x * (i - start) + o)
  | _ :: _, [] => UB
  end.

(** isContiguous (range.h:535-548).  extent-1 is size_t arithmetic: extents are at least 1. *)
Fixpoint max_offset (r : range) : nat :=
  match r with [] => 0 | x :: t => str x * (ext x - 1) + max_offset t end.
Definition isContiguous (r : range) : bool := Nat.eqb (1 + max_offset r) (dim r).

(** RangeIter (rangeiter.h:24-145).  [None] is the "done" offset
    numeric_limits<size_t>::max() (rangeiter.h:75-78, 132). *)
Record riter := RI { it_off : option nat; it_ind : list nat }.

(** rangeiter.h:44-48. *)
Definition riter_begin (start : nat) (r : range) : riter :=
  RI (Some 0) (repeat start (length r)).

(** rangeiter.h:120-132: the carry loop, from position n on; [prev] is the
    index entry n-1, whose current value is [pv].  Returns the values from position n-1 on. *)
Fixpoint carry (start : nat) (prev : indstr) (pv : nat) (r : range) (ind : list nat) (off : nat)
  : list nat * option nat :=
  match r, ind with
  | x :: r', i :: ind' =>
      let off' := off - ext prev * str prev + str x in
      let i' := i + 1 in
      if i' - start <? ext x then (start :: i' :: ind', Some off')
      else let (l, o) := carry start x i' r' ind' off' in (start :: l, o)
  | _, _ => (pv :: ind, None)
  end.

(** RangeIter::increment (rangeiter.h:108-134).  An order-0 range is read and
    written outside its storage. *)
Definition riter_next (start : nat) (r : range) (it : riter) : outcome riter :=
  match r, it_ind it, it_off it with
  | x :: r', i :: ind', Some off =>
      let i' := i + 1 in
      let off' := off + str x in
      if i' - start =? ext x
      then let (l, o) := carry start x i' r' ind' off' in Ok (RI o l)
      else Ok (RI (Some off') (i' :: ind'))
  | _, _, _ => UB
  end.

(** operator++(int) (rangeiter.h:84): the returned value and the state of the iterator afterwards. *)
Definition riter_postinc (start : nat) (r : range) (it : riter) : outcome (riter * riter) :=
  let! ct := riter_next start r it in Ok (ct, it).

(** for(auto it = r.begin(); it != r.end(); ++it) visiting (index values, offset).
    [None] means the loop has not ended after [fuel] steps. *)
Fixpoint riter_loop (fuel : nat) (start : nat) (r : range) (it : riter)
  : outcome (option (list (list nat * nat))) :=
  match fuel with
  | O => Ok None
  | S f => match it_off it with
           | None => Ok (Some [])
           | Some off =>
               let! it' := riter_next start r it in
               let! rest := riter_loop f start r it' in
               Ok (option_map (cons (it_ind it, off)) rest)
           end
  end.

(** GCounter (gcounter.h:31-108): for every position its first and last value
    (setRange, gcounter.h:64-71) and the current values. *)
Record gcounter := GC { gc_range : list (Z * Z); gc_i : list Z; gc_ind : nat }.

(** GCounter(nind) followed by setRange on every position (gcounter.h:45-71). *)
Definition gc_make (rs : list (Z * Z)) : gcounter := GC rs (map fst rs) 0.

(** gcounter.h:87-92: the carry loop; [pf] is first[j-1], [pv] the value at j-1. *)
Fixpoint gc_carry (pf pv : Z) (rs : list (Z * Z)) (i : list Z) : list Z * bool :=
  match rs, i with
  | (f, l) :: rs', v :: i' =>
      let v' := (v + 1)%Z in
      if (v' <=? l)%Z then (pf :: v' :: i', true)
      else let (t, b) := gc_carry f v' rs' i' in (pf :: t, b)
  | _, _ => (pv :: i, false)
  end.

(** operator++ (gcounter.h:80-97).  Without positions it writes outside the vector. *)
Definition gc_next (g : gcounter) : outcome gcounter :=
  match gc_range g, gc_i g with
  | (f, l) :: rs, v :: i =>
      let v' := (v + 1)%Z in
      if (l <? v')%Z
      then let (t, b) := gc_carry f v' rs i in
           if b then Ok (GC (gc_range g) t (S (gc_ind g)))
           else match t with
                | _ :: t' => Ok (GC (gc_range g) ((f - 1)%Z :: t') (S (gc_ind g)))
                | [] => UB
                end
      else Ok (GC (gc_range g) (v' :: i) (S (gc_ind g)))
  | _, _ => UB
  end.

(** notDone (gcounter.h:102-105). *)
Definition gc_notDone (g : gcounter) : outcome bool :=
  match gc_range g, gc_i g with
  | (f, _) :: _, v :: _ => Ok (f <=? v)%Z
  | _, _ => UB
  end.

(** for(; g.notDone(); ++g) visiting (current values, ind). *)
Fixpoint gc_loop (fuel : nat) (g : gcounter) : outcome (option (list (list Z * nat))) :=
  match fuel with
  | O => Ok None
  | S f => let! nd := gc_notDone g in
           if nd then
             let! g' := gc_next g in
             let! rest := gc_loop f g' in
             Ok (option_map (cons (gc_i g, gc_ind g)) rest)
           else Ok (Some [])
  end.

(** struct Permutation (permutation.h:27-67): dest(j) is entry j. *)
Definition perm := list nat.

(** Permutation(size) (permutation.h:70-76). *)
Definition perm_id (n : nat) : perm := seq 0 n.

(** inverse (permutation.h:79-86). *)
Fixpoint inverse_loop (P : perm) (n : nat) (inv : perm) : outcome perm :=
  match P with
  | [] => Ok inv
  | d :: P' => let! inv' := oupd d n inv in inverse_loop P' (S n) inv'
  end.
Definition inverse (P : perm) : outcome perm := inverse_loop P 0 (perm_id (length P)).

(** isTrivial (permutation.h:88-96). *)
Fixpoint isTrivial_from (n : nat) (P : perm) : bool :=
  match P with [] => true | d :: P' => if Nat.eqb d n then isTrivial_from (S n) P' else false end.
Definition isTrivial (P : perm) : bool := isTrivial_from 0 P.

(** permute (permutation.h:98-108): to[P.dest(i)] = from[i]. *)
Fixpoint permute_loop {T} (P : perm) (from : list T) (to : list T) : outcome (list T) :=
  match from, P with
  | [], _ => Ok to
  | x :: from', d :: P' => let! to' := oupd d x to in permute_loop P' from' to'
  | _ :: _, [] => UB
  end.

Section CalcPerm.
Context {T : Type} (teq : T -> T -> bool).

(** permutation.h:121-130: first position of s1 equal to v2. *)
Fixpoint find_pos (v2 : T) (s1 : list T) : option nat :=
  match s1 with
  | [] => None
  | v1 :: s1' => if teq v2 v1 then Some 0 else option_map S (find_pos v2 s1')
  end.

(** calcPerm (permutation.h:111-148). *)
Fixpoint calcPerm_loop (s1 s2 : list T) (i2 : nat) (P : perm) : outcome perm :=
  match s2 with
  | [] => Ok P
  | v2 :: s2' => match find_pos v2 s1 with
                 | None => Err
                 | Some i1 => let! P' := oupd i1 i2 P in calcPerm_loop s1 s2' (S i2) P'
                 end
  end.
Definition calcPerm (s1 s2 : list T) : outcome perm :=
  calcPerm_loop s1 s2 0 (perm_id (length s1)).
End CalcPerm.
