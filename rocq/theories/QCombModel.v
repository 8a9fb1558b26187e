(** Model of combiner tensors on tensors with quantum numbers: itensor/itensor.cc (combiner),
    itensor/itdata/qcombiner.h, itensor/itdata/qcombiner.cc (combine, uncombine, doTask(Contract)),
    itensor/tensor/slicerange.h (groupIndsRange), itensor/tensor/sliceten.h (subIndex, groupInds).
    Same conventions as QdModel.v; a loop over blocks that never ends is UB here. *)
From Coq Require Import List ZArith Lia Bool Arith.
From Verif Require Import Util RangeModel TensorModel ContractModel DenseModel QnModel QdModel CombinerModel.
Import ListNotations.
Open Scope outcome_scope.

(** groupIndsRange (slicerange.h:63-80): indices istart..iend-1 become one; a range that is not
    contiguous is an error. *)
Definition groupIndsRange (r : range) (istart iend : nat) : outcome range :=
  if isContiguous r
  then let e := map ext r in
       Ok (range_init (firstn istart e ++ [fold_left Nat.mul (firstn (iend - istart) (skipn istart e)) 1] ++ skipn iend e))
  else Err.

(** subIndex (sliceten.h:90-106): the range of the view; the view's data start stride(ind)*start
    elements later. *)
Definition subIndexRange (r : range) (ind start stop : nat) : outcome range :=
  let! x := oget r ind in Ok (upd ind (IS (stop - start) (str x)) r).
Definition subIndexStart (r : range) (ind start : nat) : outcome nat :=
  let! x := oget r ind in Ok (str x * start).

(** vector::at (throws). *)
Definition at_get {A} (l : list A) (i : nat) : outcome A := match nth_error l i with Some x => Ok x | None => Err end.
Definition at_set {A} (i : nat) (x : A) (l : list A) : outcome (list A) := if i <? length l then Ok (upd i x l) else Err.

(** QCombiner::BlockRange (qcombiner.h:24-34): block, start, extent. *)
Notation brange := (nat * nat * nat)%type.

Section QComb.
Context {R : Type} (r0 : R) {I : Type} (ieq : I -> I -> bool) (bs : I -> list nat) (qns : I -> list QN).

(** cdir (itensor.cc:1491-1509); forced is the argument "IndexDir". *)
Fixpoint all_in (dir : I -> Arrow) (cs : list I) : bool :=
  match cs with [] => true | x :: cs' => match dir x with ArrIn => all_in dir cs' | _ => false end end.
Definition comb_dir (dir : I -> Arrow) (forced : option Arrow) (cs : list I) : Arrow :=
  match forced with Some a => a | None => if all_in dir cs then ArrIn else ArrOut end.

(** qm.q and qm.m for one combination of blocks (itensor.cc:1527-1531). *)
Fixpoint sector_qn (dir : I -> Arrow) (cdir : Arrow) (acc : QN) (cs : list I) (b : block) : outcome QN :=
  match cs, b with
  | [], _ => Ok acc
  | x :: cs', i :: b' => let! q := oget (qns x) i in
                         sector_qn dir cdir (qn_add acc (qn_mul (qn_mul q (dir x)) cdir)) cs' b'
  | _ :: _, [] => UB
  end.
Fixpoint sector_size (m : nat) (cs : list I) (b : block) : outcome nat :=
  match cs, b with
  | [], _ => Ok m
  | x :: cs', i :: b' => let! n := oget (bs x) i in sector_size (m * n) cs' b'
  | _ :: _, [] => UB
  end.
(** itensor.cc:1533-1534. *)
Fixpoint find_sector (q : QN) (qms : list (QN * nat)) : nat :=
  match qms with [] => 0 | x :: l => if qn_eqb (fst x) q then 0 else S (find_sector q l) end.
(** The loop over the combinations of blocks (itensor.cc:1521-1545) with setBlockRange (qcombiner.h:84-94). *)
Fixpoint build_loop (dir : I -> Arrow) (cdir : Arrow) (cs : list I) (its : list (list nat * nat))
    (qms : list (QN * nat)) (tab : list brange) : outcome (list (QN * nat) * list brange) :=
  match its with
  | [] => Ok (qms, tab)
  | (b, o) :: its' =>
      let! q := sector_qn dir cdir qn0 cs b in
      let! m := sector_size 1 cs b in
      let n := find_sector q qms in
      if n <? length qms
      then let! x := oget qms n in
           let! tab' := at_set o (n, snd x, m) tab in
           let! qms' := oupd n (fst x, snd x + m) qms in
           build_loop dir cdir cs its' qms' tab'
      else let! tab' := at_set o (n, 0, m) tab in
           build_loop dir cdir cs its' (qms ++ [(q, m)]) tab'
  end.
(** combiner with QNs (itensor.cc:1487-1551), QCombiner(inds) (qcombiner.h:60-72): the quantum numbers
    and sizes of the blocks of the combined index, and the table. *)
Definition qcombiner (dir : I -> Arrow) (cdir : Arrow) (cs : list I) : outcome (list (QN * nat) * list brange) :=
  match cs with
  | [] => Err
  | _ => let rg := range_init (map (fun x => length (bs x)) cs) in
         let! its := riter_loop (S (dim rg)) 0 rg (riter_begin 0 rg) in
         match its with
         | None => UB
         | Some l => build_loop dir cdir cs l [] (repeat (0, 0, 0) (dim rg))
         end
  end.

(** cblock and nblock[1..] (qcombiner.cc:187-192). *)
Fixpoint split_block (P : perm) (ncomb : nat) (b cb nb : block) : outcome (block * block) :=
  match P, b with
  | [], _ => Ok (cb, nb)
  | p :: P', i :: b' => if p <? ncomb
                        then let! cb' := oupd p i cb in split_block P' ncomb b' cb' nb
                        else split_block P' ncomb b' cb (nb ++ [i])
  | _ :: _, [] => UB
  end.

(** The loop over the stored blocks in combine (qcombiner.cc:173-212).  [D] is the new storage as
    allocated (its block list does not change), [dst] its elements. *)
Fixpoint combine_blocks (dis cs N : list I) (P : perm) (tab : list brange) (d D : qd R) (l : list blof) (dst : list R)
  : outcome (list R) :=
  match l with
  | [] => Ok dst
  | (b, o) :: l' =>
      let! dd := bdims bs dis b in
      let! sd := segment o (prod dd) (store d) in
      let! v := permuteRange (range_init dd) P in
      let rp := range_init (map ext v) in
      let! pd := tassign v sd rp (repeat r0 (dim rp)) in
      let! g := groupIndsRange rp 0 (length cs) in
      let! (cb, nb) := split_block P (length cs) b (repeat 0 (length cs)) [] in
      let! k := offset 0 (range_init (map (fun x => length (bs x)) cs)) cb in
      let! (n, st, ex) := at_get tab k in
      let! nd := bdims bs N (n :: nb) in
      let! ob := getBlock D (n :: nb) in
      match ob with
      | None => UB
      | Some bo =>
          let nr := range_init nd in
          let! sub := subIndexRange nr 0 st (st + ex) in
          let! sh := subIndexStart nr 0 st in
          let! sn := segment (bo + sh) (prod nd - sh) dst in
          let! sn' := tassign g pd sub sn in
          combine_blocks dis cs N P tab d D l' (put_seg (bo + sh) sn' dst)
      end
  end.

(** combine (qcombiner.cc:124-213): c is Cis[0], which dis does not have.  Without the DEBUG check a
    missing index leaves more indices than the new IndexSet was made for (nr, 149 and 163-165): UB. *)
Definition qcombine (debug : bool) (dirL dirN : I -> Arrow) (dis : list I) (d : qd R) (c : I) (cs : list I) (tab : list brange)
  : outcome (list I * qd R) :=
  if negb (forallb (fun x => match find_pos ieq x dis with Some _ => true | None => false end) cs)
  then (if debug then Err else UB)
  else
    let (P, rem) := rest dis (map (fun x => find_pos ieq x cs) dis) (length cs) in
    let N := c :: rem in
    let! q := calcDiv qns dirL dis d in
    let! D := qmake r0 bs qns dirN N q in
    match D with
    | None => UB
    | Some D => let! s := combine_blocks dis cs N P tab d D (offs d) (store D) in Ok (N, mkQD (offs D) s)
    end.

(** qcombiner.cc:267-272: the offset o as block numbers of the combined indices. *)
Fixpoint digits (cs : list I) (o : nat) : block :=
  match cs with
  | [] => []
  | [_] => [o]
  | x :: cs' => let n := length (bs x) in o mod n :: digits cs' ((o - o mod n) / n)
  end.

(** The loop over the table (qcombiner.cc:255-298) for block b of d at o; k counts. *)
Fixpoint uncombine_table (dis cs N : list I) (jc : nat) (d D : qd R) (b : block) (o n : nat) (tab : list brange) (k : nat)
    (dst : list R) : outcome (list R) :=
  match tab with
  | [] => Ok dst
  | (blk, st, ex) :: tab' =>
      if negb (blk =? n) then uncombine_table dis cs N jc d D b o n tab' (S k) dst
      else
        let nb := firstn jc b ++ digits cs k ++ skipn (S jc) b in
        let! dd := bdims bs dis b in
        let dr := range_init dd in
        let! sub := subIndexRange dr jc st (st + ex) in
        let! sh := subIndexStart dr jc st in
        let! sd := segment (o + sh) (prod dd - sh) (store d) in
        let! nd := bdims bs N nb in
        let! ob := getBlock D nb in
        match ob with
        | None => UB
        | Some bo =>
            let! g := groupIndsRange (range_init nd) jc (jc + length cs) in
            let! sn := segment bo (prod nd) dst in
            let! sn' := tassign sub sd g sn in
            uncombine_table dis cs N jc d D b o n tab' (S k) (put_seg bo sn' dst)
        end
  end.
(** The loop over the stored blocks (qcombiner.cc:247-299). *)
Fixpoint uncombine_blocks (dis cs N : list I) (jc : nat) (tab : list brange) (d D : qd R) (l : list blof) (dst : list R)
  : outcome (list R) :=
  match l with
  | [] => Ok dst
  | (b, o) :: l' =>
      let! n := oget b jc in
      let! dst' := uncombine_table dis cs N jc d D b o n tab 0 dst in
      uncombine_blocks dis cs N jc tab d D l' dst'
  end.
(** uncombine (qcombiner.cc:216-301); jc is the position of Cis[0]. *)
Definition quncombine (dirL dirN : I -> Arrow) (dis : list I) (d : qd R) (jc : nat) (cs : list I) (tab : list brange)
  : outcome (list I * qd R) :=
  let N := replace_at 0 jc dis cs in
  let! q := calcDiv qns dirL dis d in
  let! D := qmake r0 bs qns dirN N q in
  match D with
  | None => UB
  | Some D => let! s := uncombine_blocks dis cs N jc tab d D (offs d) (store D) in Ok (N, mkQD (offs D) s)
  end.

(** operator* of a tensor (arrows dirL) and a combiner (arrows dirR), in either order
    (itensor.cc:926-981, qcombiner.cc:303-338).  The indices of the result are copies of the
    tensor's and of the combiner's. *)
Definition times_qcombiner (debug : bool) (dirL dirR : I -> Arrow) (dis : list I) (d : qd R) (c : I) (cs : list I) (tab : list brange)
  : outcome (list I * qd R) :=
  let! _ := checkArrows ieq dirL dirR dis (c :: cs) false in
  let dirN := dirC ieq dirL dirR dis in
  let! (N, e) := match find_pos ieq c dis with
                 | Some jc => quncombine dirL dirN dis d jc cs tab
                 | None => qcombine debug dirL dirN dis d c cs tab
                 end in
  if debug && has_dup ieq N then Err else Ok (N, e).
End QComb.
