(** Model of block-sparse (QN) storage: itensor/itdata/qdense.h, itensor/itdata/qdense.cc,
    itensor/itdata/qutil.h, and of the ITensor operations on it (itensor/itensor.cc: set, eltC,
    operator*=, daxpy, removeQNs, permute).

    An index is an element of a type I; [bs x] lists the sizes of its blocks, [qns x] their
    quantum numbers.  Blocks and values count from 0.  Simplifications: int, long and size_t are
    unbounded; one exact number type for real and complex storage; no scale factor (USESCALE off,
    the default); the elements of a block handed to the dense kernels are exactly those of the
    block (in the code the range goes on to the end of the storage, so an access past the block
    is undefined behaviour here even if it stays inside the storage); Block::operator==
    (qdense.cc:47-55) only ever compares blocks of equal length; std::sort is any function
    [srt] that returns a sorted permutation. *)
From Coq Require Import List ZArith Lia Bool Arith.
From Verif Require Import Util RangeModel TensorModel ContractModel DenseModel QnModel.
Import ListNotations.
Open Scope outcome_scope.

(** using Block = InfArray<long,..>, struct BlOf (qdense.h, qdense.cc:37-45). *)
Definition block := list nat.
Definition blof := (block * nat)%type.

(** std::lexicographical_compare and operator< on blocks (qdense.cc:60-65): last index first. *)
Fixpoint lexlt (a b : list nat) : bool :=
  match a, b with
  | _, [] => false
  | [], _ :: _ => true
  | x :: a', y :: b' => if x <? y then true else if y <? x then false else lexlt a' b'
  end.
Definition block_lt (a b : block) : bool := lexlt (rev a) (rev b).
(** operator== (qdense.cc:47-55), operator> (qdense.cc:67-68). *)
Fixpoint block_eqb (a b : block) : bool :=
  match a, b with
  | [], [] => true
  | x :: a', y :: b' => (x =? y) && block_eqb a' b'
  | _, _ => false
  end.
Definition block_gt (a b : block) : bool := negb (block_lt a b) && negb (block_eqb a b).

(** std::lower_bound and std::upper_bound by halving; the fuel (the length) never runs out. *)
Fixpoint lb (fuel : nat) (l : list blof) (b : block) (first len : nat) : outcome nat :=
  match len with
  | O => Ok first
  | _ => match fuel with
         | O => UB
         | S f => let half := len / 2 in
                  let! m := oget l (first + half) in
                  if block_lt (fst m) b then lb f l b (first + half + 1) (len - half - 1) else lb f l b first half
         end
  end.
Fixpoint ub (fuel : nat) (l : list blof) (b : block) (first len : nat) : outcome nat :=
  match len with
  | O => Ok first
  | _ => match fuel with
         | O => UB
         | S f => let half := len / 2 in
                  let! m := oget l (first + half) in
                  if block_lt b (fst m) then ub f l b first half else ub f l b (first + half + 1) (len - half - 1)
         end
  end.
(** offsetOfLoc (qdense.cc:228-235). *)
Definition offsetOfLoc (l : list blof) (b : block) : outcome nat := lb (length l) l b 0 (length l).
(** detail::binaryFind (detail/algs.h:124-131) with std::equal_range, offsetOf (qdense.cc:218-226);
    None is -1. *)
Definition offsetOf (l : list blof) (b : block) : outcome (option nat) :=
  let! f := offsetOfLoc l b in
  let! e := ub (length l) l b 0 (length l) in
  if f =? e then Ok None else let! x := oget l f in Ok (Some (snd x)).

(** Elements o..o+n-1 of a vector (makeDataRange, makeTenRef), and writing them back. *)
Definition segment {A} (o n : nat) (l : list A) : outcome (list A) :=
  if o + n <=? length l then Ok (firstn n (skipn o l)) else UB.
Definition put_seg {A} (o : nat) (s l : list A) : list A := firstn o l ++ s ++ skipn (o + length s) l.

(** for(i : range(r)) out[i] = b[P.dest(i)] (qdense.cc:530-531, 588-589). *)
Fixpoint gather (P : perm) (b : block) : outcome block :=
  match P with [] => Ok [] | p :: P' => let! x := oget b p in let! t := gather P' b in Ok (x :: t) end.

(** for(i) if(m[i] != -1) c[m[i]] = b[i] (qutil.h:154-155, 174-175). *)
Fixpoint scatter (m : list (option nat)) (b c : block) : outcome block :=
  match m, b with
  | [], _ => Ok c
  | None :: m', _ :: b' => scatter m' b' c
  | Some j :: m', x :: b' => let! c' := oupd j x c in scatter m' b' c'
  | _ :: _, [] => UB
  end.

(** do_blocks_contract (qutil.h:159-170). *)
Fixpoint bmatch (m : list (option nat)) (ab bb : block) : outcome bool :=
  match m, ab with
  | [], _ => Ok true
  | None :: m', _ :: ab' => bmatch m' ab' bb
  | Some j :: m', x :: ab' => let! y := oget bb j in if x =? y then bmatch m' ab' bb else Ok false
  | _ :: _, [] => UB
  end.

(** std::unique on block sizes (qutil.h:216-220): keeps the first of a run. *)
Fixpoint uniq_from (p : blof) (l : list blof) : list blof :=
  match l with
  | [] => [p]
  | x :: l' => if block_eqb (fst p) (fst x) then uniq_from p l' else p :: uniq_from x l'
  end.
Definition uniq (l : list blof) : list blof := match l with [] => [] | p :: l' => uniq_from p l' end.

(** qutil.h:222-230: sizes replaced by offsets; also the total size. *)
Fixpoint accum (o : nat) (l : list blof) : list blof * nat :=
  match l with
  | [] => ([], o)
  | (b, n) :: l' => let (r, t) := accum (o + n) l' in ((b, o) :: r, t)
  end.

(** The merge of qdense.cc:595-630. *)
Fixpoint bmerge (a : list block) : list block -> list block :=
  match a with
  | [] => fun b => b
  | x :: a' =>
      fix inner (b : list block) : list block :=
      match b with
      | [] => x :: a'
      | y :: b' => if block_lt y x then y :: inner b'
                   else if block_lt x y then x :: bmerge a' (y :: b')
                   else x :: bmerge a' b'
      end
  end.

(** offset and nrepeat of the contraction plan (qutil.h:294-312). *)
Definition triple := (block * block * block)%type.
Fixpoint plan (prev : triple) (l : list triple) (i nb : nat) (off rep : list nat) : outcome (list nat * list nat) :=
  match l with
  | [] => Ok (off, rep)
  | t :: l' =>
      if block_eqb (snd t) (snd prev)
      then let! n := oget rep nb in let! rep' := oupd nb (n + 1) rep in plan t l' (S i) nb off rep'
      else let! off' := oupd (nb + 1) i off in plan t l' (S i) (nb + 1) off' rep
  end.

Section QDense.
Context {R : Type} (r0 r1 : R) (radd rmul : R -> R -> R) (is0 : R -> bool).
Context {I : Type} (ieq : I -> I -> bool) (bs : I -> list nat).
Context (srt : forall X : Type, (X -> X -> bool) -> list X -> list X).

(** class QDense (qdense.h:34-60): block offsets and contiguous storage. *)
Record qd := mkQD { offs : list blof; store : list R }.

(** The dimensions of a block: make_indexdim (qutil.h:32-60), blocksize0 (index.cc:494, 636-648). *)
Fixpoint bdims (is : list I) (b : block) : outcome (list nat) :=
  match is, b with
  | [], _ => Ok []
  | x :: is', i :: b' => let! n := oget (bs x) i in let! t := bdims is' b' in Ok (n :: t)
  | _ :: _, [] => UB
  end.
Definition prod (l : list nat) : nat := fold_right Nat.mul 1 l.
Definition bsize (is : list I) (b : block) : outcome nat := omap prod (bdims is b).

(** The while loop of getEltBlockOffset (qdense.h:473-478): block, position and size of the block
    of a value; past the last block it reads outside the list of blocks. *)
Fixpoint locate (l : list nat) (v : nat) : outcome (nat * nat * nat) :=
  match l with
  | [] => UB
  | n :: l' => if n <=? v then let! (b, i, m) := locate l' (v - n) in Ok (S b, i, m) else Ok (0, v, n)
  end.
(** qdense.h:465-482. *)
Fixpoint elt_loc (is : list I) (ind : list nat) (estr : nat) : outcome (block * nat) :=
  match ind, is with
  | [], _ => Ok ([], 0)
  | v :: ind', x :: is' =>
      let! (b, i, m) := locate (bs x) v in
      let! (bl, e) := elt_loc is' ind' (estr * m) in
      Ok (b :: bl, i * estr + e)
  | _ :: _, [] => UB
  end.

(** getEltBlockOffset (qdense.h:450-495): position in the storage (None is nullptr; data() of an
    empty vector is nullptr), block, position in the block. *)
Definition getEltBlockOffset (is : list I) (d : qd) (ind : list nat) : outcome (option nat * block * nat) :=
  match ind with
  | [] => Ok (match store d with [] => None | _ => Some 0 end, [], 0)
  | _ => let! (b, e) := elt_loc is ind 1 in
         let! o := offsetOf (offs d) b in
         Ok (option_map (fun o => o + e) o, b, e)
  end.

(** doTask(GetElt) (qdense.cc:237-250). *)
Definition qget (is : list I) (d : qd) (ind : list nat) : outcome R :=
  let! (p, _, _) := getEltBlockOffset is d ind in
  match p with None => Ok r0 | Some k => oget (store d) k end.

(** insertBlock (qdense.h:497-535), val = 0. *)
Fixpoint insert_loc (b : block) (l : list blof) : nat :=
  match l with [] => 0 | x :: l' => if block_gt b (fst x) then S (insert_loc b l') else 0 end.
Definition insertBlock (is : list I) (d : qd) (b : block) : outcome (qd * nat) :=
  let! n := bsize is b in
  let loc := insert_loc b (offs d) in
  let! o := if length (offs d) <=? loc then Ok (length (store d)) else omap snd (oget (offs d) loc) in
  if length (store d) <? o then UB else
  Ok (mkQD (firstn loc (offs d) ++ (b, o) :: map (fun x => (fst x, snd x + n)) (skipn loc (offs d)))
           (firstn o (store d) ++ repeat r0 n ++ skipn o (store d)), o).

(** setEltImpl (qdense.cc:252-275). *)
Definition qset_elt (is : list I) (d : qd) (ind : list nat) (v : R) : outcome qd :=
  let! (p, b, e) := getEltBlockOffset is d ind in
  match p with
  | Some k => let! s := oupd k v (store d) in Ok (mkQD (offs d) s)
  | None => let! (d', o) := insertBlock is d b in
            let! s := oupd (o + e) v (store d') in Ok (mkQD (offs d') s)
  end.

Section Flux.
Context (qns : I -> list QN) (dir : I -> Arrow).

(** The QN of a block as accumulated in getBlockOffsets (qdense.cc:152-157): qn*dir. *)
Fixpoint block_qn (acc : QN) (is : list I) (b : block) : outcome QN :=
  match is, b with
  | [], _ => Ok acc
  | x :: is', i :: b' => let! q := oget (qns x) i in block_qn (qn_add acc (qn_mul q (dir x))) is' b'
  | _ :: _, [] => UB
  end.

(** qdense.cc:150-174: the blocks visited, first index fastest. *)
Fixpoint offsets_loop (is : list I) (div : QN) (its : list (list nat * nat)) (total : nat) : outcome (list blof * nat) :=
  match its with
  | [] => Ok ([], total)
  | (b, _) :: its' =>
      let! q := block_qn qn0 is b in
      if qn_eqb q div
      then let! n := bsize is b in
           let! (r, t) := offsets_loop is div its' (total + n) in Ok ((b, total) :: r, t)
      else offsets_loop is div its' total
  end.

(** getBlockOffsets (qdense.cc:133-175). [None]: the loop over the blocks has not ended. *)
Definition getBlockOffsets (is : list I) (div : QN) : outcome (option (list blof * nat)) :=
  match is with
  | [] => Ok (Some ([([], 0)], 1))
  | _ => let rg := range_init (map (fun x => length (bs x)) is) in
         let! its := riter_loop (S (dim rg)) 0 rg (riter_begin 0 rg) in
         match its with
         | None => Ok None
         | Some l => let! r := offsets_loop is div l 0 in Ok (Some r)
         end
  end.

(** QDense(is,div) (qdense.cc:107-117): storage filled with 0. *)
Definition qmake (is : list I) (div : QN) : outcome (option qd) :=
  let! o := getBlockOffsets is div in
  Ok (option_map (fun r => mkQD (fst r) (repeat r0 (snd r))) o).

(** calcDiv (qdense.cc:86-93), doTask(CalcDiv) (qdense.cc:95-105): the first block's QN. *)
Definition calcDiv (is : list I) (d : qd) : outcome QN :=
  match is, offs d with
  | [], _ => Ok qn0
  | _, [] => Ok qn0
  | _, x :: _ => block_qn qn0 is (fst x)
  end.
End Flux.

(** updateOffsets(is,blocks) (qdense.cc:185-215) and QDense(is,blocks) (qdense.cc:119-131). *)
Fixpoint updateOffsets_loop (is : list I) (bl : list block) (total : nat) : outcome (list blof * nat) :=
  match bl with
  | [] => Ok ([], total)
  | b :: bl' => let! n := bsize is b in
                let! (r, t) := updateOffsets_loop is bl' (total + n) in Ok ((b, total) :: r, t)
  end.
Definition qmake_blocks (is : list I) (bl : list block) : outcome qd :=
  match is with
  | [] => Ok (mkQD [([], 0)] [r0])
  | _ => let! (o, n) := updateOffsets_loop is bl 0 in Ok (mkQD o (repeat r0 n))
  end.

(** getBlock (qutil.h:74-94): where the block's elements start; None is a null range. *)
Definition getBlock (d : qd) (b : block) : outcome (option nat) :=
  match b with [] => Ok (Some 0) | _ => offsetOf (offs d) b end.

(** struct Adder (qdense.cc:506-513) and add (qdense.cc:515-545) for order > 0. *)
Fixpoint add_blocks (P : perm) (alpha : R) (is1 is2 : list I) (B : qd) (aoffs : list blof) (A : list R) : outcome (list R) :=
  match aoffs with
  | [] => Ok A
  | (ab, ao) :: aoffs' =>
      let! bb := gather P ab in
      let! ob := getBlock B bb in
      match ob with
      | None => add_blocks P alpha is1 is2 B aoffs' A
      | Some bo =>
          let! da := bdims is1 ab in
          let! db := bdims is2 bb in
          let! sa := segment ao (prod da) A in
          let! sb := segment bo (prod db) (store B) in
          let! vb := permuteRange (range_init db) P in
          let! sa' := transform (fun v2 v1 => radd v1 (rmul alpha v2)) vb sb (range_init da) sa in
          add_blocks P alpha is1 is2 B aoffs' (put_seg ao sa' A)
      end
  end.
(** add (qdense.cc:515-545); at order 0 daxpy over the elements of A. *)
Definition qadd (P : perm) (alpha : R) (is1 is2 : list I) (A B : qd) : outcome qd :=
  match is1 with
  | [] => let! sb := segment 0 (length (store A)) (store B) in
          Ok (mkQD (offs A) (axpy radd rmul alpha sb (store A)))
  | _ => let! s := add_blocks P alpha is1 is2 B (offs A) (store A) in Ok (mkQD (offs A) s)
  end.

(** doTask(PlusEQ) (qdense.cc:547-660). *)
Fixpoint gather_all (P : perm) (l : list blof) : outcome (list block) :=
  match l with [] => Ok [] | x :: l' => let! b := gather P (fst x) in let! t := gather_all P l' in Ok (b :: t) end.
Definition plusEq (P : perm) (alpha : R) (is1 is2 : list I) (A B : qd) : outcome qd :=
  match store B with
  | [] => Ok A
  | _ =>
    match is1 with
    | [] => qadd P alpha is1 is2 A B
    | _ =>
      let! Q := inverse P in
      let! bp0 := gather_all Q (offs B) in
      let bp := srt _ block_lt bp0 in
      let cb := bmerge (map fst (offs A)) bp in
      if length (offs A) <? length cb
      then let! n := qmake_blocks is1 cb in
           let! n' := qadd (perm_id (length is1)) r1 is1 is1 n A in
           qadd P alpha is1 is2 n' B
      else qadd P alpha is1 is2 A B
    end
  end.

(** checkArrows (itensor.cc:890-917): every index in both sets has equal (should = true) or
    different (should = false) arrows.  The two tensors hold their own copies of a shared index,
    whose arrows need not be the same: one function of arrows per tensor. *)
Definition arrow_eqb (a b : Arrow) : bool :=
  match a, b with ArrIn, ArrIn | ArrOut, ArrOut | ArrNeither, ArrNeither => true | _, _ => false end.
Definition checkArrows (dirL dirR : I -> Arrow) (Lis Ris : list I) (should : bool) : outcome unit :=
  if existsb (fun x => existsb (fun y => ieq x y && xorb should (arrow_eqb (dirL x) (dirR y))) Ris) Lis then Err else Ok tt.

(** daxpy (itensor.cc:1207-1251) on two tensors with QNs: L += alpha*R.  hasQNs is false for a
    tensor without indices, whose nnzblocks counts as 1 (itensor.cc:292-298). *)
Definition qdaxpy (qns : I -> list QN) (dirL dirR : I -> Arrow) (Lis : list I) (L : qd) (Ris : list I) (Rd : qd) (alpha : R)
  : outcome qd :=
  if negb (length Lis =? length Ris) then Err else
  match Ris, offs Rd with
  | _ :: _, [] => Ok L
  | _, _ =>
    let! ql := calcDiv qns dirL Lis L in
    let! qr := calcDiv qns dirR Ris Rd in
    if negb (qn_eqb ql qr) then Err else
    let! P := calcPerm ieq Ris Lis in
    let! _ := checkArrows dirL dirR Lis Ris true in
    plusEq P alpha Lis Ris L Rd
  end.

(** AtoC, BtoC, AtoB (qutil.h:107-134); None is -1. *)
Fixpoint cmaps (Ais Bis Cis : list I) (ic : nat) (AtoC BtoC : list (option nat))
  : outcome (list (option nat) * list (option nat)) :=
  match Cis with
  | [] => Ok (AtoC, BtoC)
  | c :: Cis' =>
      match find_pos ieq c Ais with
      | Some j => let! m := oupd j (Some ic) AtoC in cmaps Ais Bis Cis' (S ic) m BtoC
      | None => match find_pos ieq c Bis with
                | Some j => let! m := oupd j (Some ic) BtoC in cmaps Ais Bis Cis' (S ic) AtoC m
                | None => UB
                end
      end
  end.
Definition abmap (Ais Bis : list I) : list (option nat) := map (fun a => find_pos ieq a Bis) Ais.

(** The loop over the blocks of B for one block of A (qutil.h:157-194): the contractions found,
    with the size of the block of C, and the state of Cblockind. *)
Definition entry := (triple * nat)%type.
Fixpoint row (AtoB BtoC : list (option nat)) (Cis : list I) (ab : block) (boffs : list blof) (cb : block)
  : outcome (list entry * block) :=
  match boffs with
  | [] => Ok ([], cb)
  | (bb, _) :: boffs' =>
      let! m := bmatch AtoB ab bb in
      if m : bool then
        let! cb' := scatter BtoC bb cb in
        let! n := bsize Cis cb' in
        let! (es, cb'') := row AtoB BtoC Cis ab boffs' cb' in
        Ok ((ab, bb, cb', n) :: es, cb'')
      else row AtoB BtoC Cis ab boffs' cb
  end.
(** The loop over (the given) blocks of A (qutil.h:149-196), run by one thread with its own Cblockind. *)
Fixpoint rows (AtoB AtoC BtoC : list (option nat)) (Cis : list I) (aoffs boffs : list blof) (cb : block)
  : outcome (list entry) :=
  match aoffs with
  | [] => Ok []
  | (ab, _) :: aoffs' =>
      let! cb1 := scatter AtoC ab cb in
      let! (es, cb2) := row AtoB BtoC Cis ab boffs cb1 in
      let! r := rows AtoB AtoC BtoC Cis aoffs' boffs cb2 in
      Ok (es ++ r)
  end.

(** Sorting, removing duplicates, offsets (qutil.h:212-232). *)
Definition entry_bs (es : list entry) : list blof := map (fun e => (snd (fst e), snd e)) es.
Definition coffsets (es : list entry) : list blof * nat :=
  accum 0 (uniq (srt _ (fun a b : blof => block_lt (fst a) (fst b)) (entry_bs es))).

(** getContractedOffsets without threads (qutil.h:96-237). *)
Definition contracted_serial (Ais Bis Cis : list I) (A B : qd) : outcome (list entry) :=
  let! (AtoC, BtoC) := cmaps Ais Bis Cis 0 (repeat None (length Ais)) (repeat None (length Bis)) in
  rows (abmap Ais Bis) AtoC BtoC Cis (offs A) (offs B) (repeat 0 (length Cis)).

(** With threads: [sched] lists for every thread the loop iterations (blocks of A) it was given;
    the threads' results are then concatenated (qutil.h:199-210). *)
Fixpoint select {A} (l : list A) (is : list nat) : outcome (list A) :=
  match is with [] => Ok [] | i :: is' => let! x := oget l i in let! t := select l is' in Ok (x :: t) end.
Fixpoint threads (AtoB AtoC BtoC : list (option nat)) (Cis : list I) (A B : qd) (sched : list (list nat)) : outcome (list entry) :=
  match sched with
  | [] => Ok []
  | th :: sched' =>
      let! ao := select (offs A) th in
      let! es := rows AtoB AtoC BtoC Cis ao (offs B) (repeat 0 (length Cis)) in
      let! r := threads AtoB AtoC BtoC Cis A B sched' in
      Ok (es ++ r)
  end.
Definition contracted_omp (sched : list (list nat)) (Ais Bis Cis : list I) (A B : qd) : outcome (list entry) :=
  let! (AtoC, BtoC) := cmaps Ais Bis Cis 0 (repeat None (length Ais)) (repeat None (length Bis)) in
  threads (abmap Ais Bis) AtoC BtoC Cis A B sched.

(** What one contraction needs besides the state: labels and index sets (qdense.cc:673-694). *)
Record cctx := mkC { cA : qd; cB : qd; cLis : list I; cRis : list I; cNis : list I;
                     cLind : labels; cRind : labels; cCind : labels; cOffs : list blof;
                     cjunk : triple -> nat -> R }.

(** The state the contractions work on: storage of C, and betas (qdense.cc:696-703). *)
Definition cstate := (list R * list R)%type.

(** getBlock / getBlockLoc and do_contract (qutil.h:258-270, qdense.cc:705-735). A null block is
    dereferenced by contract. *)
Definition do_contract (c : cctx) (st : cstate) (t : triple) : outcome cstate :=
  let '(ab, bb, cb) := t in
  let! oa := getBlock (cA c) ab in
  let! ob := getBlock (cB c) bb in
  let! oc := getBlock (mkQD (cOffs c) (fst st)) cb in
  let! loc := offsetOfLoc (cOffs c) cb in
  let! da := bdims (cLis c) ab in
  let! db := bdims (cRis c) bb in
  let! dc := bdims (cNis c) cb in
  match oa, ob, oc with
  | Some oa, Some ob, Some oc =>
      let! sa := segment oa (prod da) (store (cA c)) in
      let! sb := segment ob (prod db) (store (cB c)) in
      let! sc := segment oc (prod dc) (fst st) in
      let! beta := oget (snd st) loc in
      let! sc' := contract r0 radd rmul is0 (range_init da) sa (cLind c) (range_init db) sb (cRind c)
                           (range_init dc) sc (cCind c) r1 beta (cjunk c t) in
      let! betas := oupd loc r1 (snd st) in
      Ok (put_seg oc sc' (fst st), betas)
  | _, _, _ => UB
  end.

(** _loopContractedBlocks (qutil.h:239-272). *)
Fixpoint loop_serial (c : cctx) (ts : list triple) (st : cstate) : outcome cstate :=
  match ts with
  | [] => Ok st
  | t :: ts' => let! st' := do_contract c st t in loop_serial c ts' st'
  end.

(** The tasks of _loopContractedBlocksOMP (qutil.h:283-312, 330-338): for every block of C its
    contractions, in the order of the sorted list. *)
Fixpoint tasks_of (sorted : list triple) (off rep : list nat) : outcome (list (list triple)) :=
  match off, rep with
  | o :: off', n :: rep' => let! t := select sorted (seq o n) in let! r := tasks_of sorted off' rep' in Ok (t :: r)
  | _, _ => Ok []
  end.
Definition omp_tasks (nnz : nat) (ts : list triple) : outcome (list (list triple)) :=
  let sorted := srt _ (fun a b : triple => block_lt (snd a) (snd b)) ts in
  let! (off, rep) := match sorted with
                     | [] => Ok (repeat 0 nnz, repeat 1 nnz)
                     | t :: l => plan t l 1 0 (repeat 0 nnz) (repeat 1 nnz)
                     end in
  tasks_of sorted off rep.

(** The parallel loop (qutil.h:329-347): any thread may take the next contraction of any task. *)
Inductive par (c : cctx) : list (list triple) -> cstate -> outcome cstate -> Prop :=
| par_done ts st : Forall (fun t => t = []) ts -> par c ts st (Ok st)
| par_step pre t ts post st st' o :
    do_contract c st t = Ok st' -> par c (pre ++ ts :: post) st' o -> par c (pre ++ (t :: ts) :: post) st o
| par_err pre t ts post st :
    do_contract c st t = Err -> par c (pre ++ (t :: ts) :: post) st Err
| par_ub pre t ts post st :
    do_contract c st t = UB -> par c (pre ++ (t :: ts) :: post) st UB.

(** doTask(Contract,QDense,QDense) (qdense.cc:662-740) up to the loop: the index set of the
    result and everything the contractions work with.  [entries] is getContractedOffsets' list;
    [junk] is uninitialised memory. *)
Definition setup (entries : list I -> outcome (list entry)) (Lis : list I) (A : qd) (Ris : list I) (B : qd)
    (junk : nat -> R) (cj : triple -> nat -> R) : outcome (cctx * list triple * cstate) :=
  let! (Lind, Rind) := computeLabels ieq Lis Ris in
  let (Nis, Cind) := contractIS Lis Lind Ris Rind in
  let! es := entries Nis in
  let (co, n) := coffsets es in
  Ok (mkC A B Lis Ris Nis Lind Rind Cind co cj, map fst es, (map junk (seq 0 n), repeat r0 (length co))).

(** Contraction in a build without OpenMP. *)
Definition qcontract (Lis : list I) (A : qd) (Ris : list I) (B : qd) (junk : nat -> R) (cj : triple -> nat -> R)
  : outcome (list I * qd) :=
  let! (c, ts, st) := setup (fun Nis => contracted_serial Lis Ris Nis A B) Lis A Ris B junk cj in
  let! st' := loop_serial c ts st in
  Ok (cNis c, mkQD (cOffs c) (fst st')).

(** operator*= (itensor.cc:935-981), both operands with QNs or without indices. *)
Definition qmult (z : R) (d : qd) : qd := mkQD (offs d) (map (fun x => rmul x z) (store d)).
Definition qtimes (dirL dirR : I -> Arrow) (Lis : list I) (A : qd) (Ris : list I) (B : qd) (junk : nat -> R) (cj : triple -> nat -> R)
  : outcome (list I * qd) :=
  match Lis, Ris with
  | [], _ => let! z := qget [] A [] in Ok (Ris, qmult z B)
  | _, [] => let! z := qget [] B [] in Ok (Lis, qmult z A)
  | _, _ => let! _ := checkArrows dirL dirR Lis Ris false in qcontract Lis A Ris B junk cj
  end.
(** The arrows of the result: its indices are copies of L's and of R's (contractIS, indexset_impl.h). *)
Definition dirC (dirL dirR : I -> Arrow) (Lis : list I) (x : I) : Arrow := if existsb (ieq x) Lis then dirL x else dirR x.

(** Contraction in a build with OpenMP: [sched] is the division of the first loop, [par] any
    interleaving of the second. *)
Definition omp_setup (sched : list (list nat)) (Lis : list I) (A : qd) (Ris : list I) (B : qd)
    (junk : nat -> R) (cj : triple -> nat -> R) : outcome (cctx * list (list triple) * cstate) :=
  let! (c, ts, st) := setup (fun Nis => contracted_omp sched Lis Ris Nis A B) Lis A Ris B junk cj in
  let! tasks := omp_tasks (length (cOffs c)) ts in
  Ok (c, tasks, st).

(** RemoveQNs (qdense.cc:915-945), for one block: the counter runs over the block's values. *)
Fixpoint block_bounds (is : list I) (b : block) : outcome (list (Z * Z)) :=
  match is, b with
  | [], _ => Ok []
  | x :: is', i :: b' =>
      let! before := select (bs x) (seq 0 i) in
      let! n := oget (bs x) i in
      let! t := block_bounds is' b' in
      let s := Z.of_nat (list_sum before) in
      Ok ((s, (s + Z.of_nat n - 1)%Z) :: t)
  | _ :: _, [] => UB
  end.
Definition idim (x : I) : nat := list_sum (bs x).
Fixpoint copy_elts (is : list I) (pd : list R) (o : nat) (its : list (list Z * nat)) (pn : list R) : outcome (list R) :=
  match its with
  | [] => Ok pn
  | (i, ind) :: its' =>
      let! k := offset_z (irange idim is) i in
      let! x := oget pd (o + ind) in
      let! pn' := zupd k x pn in
      copy_elts is pd o its' pn'
  end.
Fixpoint copy_blocks (is : list I) (pd : list R) (l : list blof) (pn : list R) : outcome (option (list R)) :=
  match l with
  | [] => Ok (Some pn)
  | (b, o) :: l' =>
      let! rs := block_bounds is b in
      let! n := bsize is b in
      let! its := gc_loop (S n) (gc_make rs) in
      match its with
      | None => Ok None
      | Some its => let! pn' := copy_elts is pd o its pn in copy_blocks is pd l' pn'
      end
  end.
(** removeQNs (itensor.cc:1005-1013): a tensor without indices has no QNs and is returned as it is. *)
Definition removeQNs (is : list I) (d : qd) : outcome (option (list R)) :=
  copy_blocks is (store d) (offs d) (repeat r0 (fold_right Nat.mul 1 (map idim is))).
End QDense.
Arguments qd R : clear implicits.
