(** Model of totalQN, checkQNs (itensor/mps/mpsalgs.cc:170-252) and findCenter (itensor/mps/mps.cc:1392-1415),
    for MPS kept in memory whose indices all have quantum numbers.  A state: the tensors 1..N, leftLim, rightLim. *)
From Coq Require Import List ZArith Arith Bool.
From Verif Require Import Util SmallStringModel QnModel QdModel QdAdd TqSpec.
Import ListNotations.
Local Open Scope outcome_scope.

Section Tq.
Context {R : Type} {I : Type} (ieq : I -> I -> bool) (qns : I -> list QN).
Notation qt := (qt R I).

(** operator bool (itensor.h:95). *)
Definition alloc (t : qt) : bool := match qis t, qst t with [], None => false | _, _ => true end.
(** div and flux (itensor.cc:1645-1657); hasQNs (indexset.cc:529-534) is false without indices, and a task on storage
    that is not allocated throws (itdata/dotask.h:476-485). *)
Definition qdiv (t : qt) : outcome QN :=
  match qis t, qst t with
  | [], _ => Err
  | _, None => Err
  | is, Some d => calcDiv qns (qdir t) is d
  end.
(** psi(i) (mps.cc:295-301): A_ has N+2 entries, the first and last null. *)
Definition at_site (ts : list qt) (i : nat) : outcome qt :=
  match i with
  | 0 => Ok (mkQt [] (fun _ => ArrOut) None)
  | S k => match nth_error ts k with
           | Some t => Ok t
           | None => if k =? length ts then Ok (mkQt [] (fun _ => ArrOut) None) else Err
           end
  end.

(** mpsalgs.cc:241-252: j = leftLim+1 .. rightLim-1. *)
Fixpoint total_loop (ts : list qt) (n j : nat) (tq : QN) : outcome QN :=
  match n with
  | 0 => Ok tq
  | S n' => let! t := at_site ts j in let! q := qdiv t in total_loop ts n' (S j) (qn_add tq q)
  end.
Definition totalQN (ts : list qt) (l r : nat) : outcome QN := total_loop ts (r - 1 - l) (l + 1) qn0.

(** mps.cc:1399-1409: are all arrows that of the first index? *)
Definition all_same (t : qt) : bool :=
  match qis t with [] => true | x :: is => forallb (fun y => arrow_eqb (qdir t y) (qdir t x)) is end.
(** mps.cc:1392-1415; None for -1. *)
Fixpoint findCenter_from (ts : list qt) (j : nat) : outcome (option nat) :=
  match ts with
  | [] => Ok None
  | t :: ts' => match qis t with
                | [] => Err
                | _ => if all_same t then Ok (Some j) else findCenter_from ts' (S j)
                end
  end.
Definition findCenter (ts : list qt) : outcome (option nat) := findCenter_from ts 1.

(** dir(commonIndex(A,B)) (itensor.cc:459-464, indexset.cc:565-571, 591-600); Index() has the arrow Out (index.h:91). *)
Definition common_dir (A B : qt) : outcome Arrow :=
  match filter (fun x => existsb (ieq x) (qis B)) (qis A) with
  | [] => Ok ArrOut
  | [x] => Ok (qdir A x)
  | _ => Err
  end.
(** dir(rightLinkIndex(psi,i)), dir(leftLinkIndex(psi,i)) (mps.cc:1228-1247). *)
Definition right_dir (ts : list qt) (i : nat) : outcome Arrow :=
  if i =? length ts then Ok ArrOut else let! A := at_site ts i in let! B := at_site ts (i + 1) in common_dir A B.
Definition left_dir (ts : list qt) (i : nat) : outcome Arrow :=
  if i =? 1 then Ok ArrOut else let! A := at_site ts i in let! B := at_site ts (i - 1) in common_dir A B.

(** A loop over the sites whose body may return false. *)
Fixpoint every (js : list nat) (body : nat -> outcome bool) : outcome bool :=
  match js with [] => Ok true | j :: js' => let! b := body j in if b then every js' body else Ok false end.

(** mpsalgs.cc:186-201. *)
Definition zero_div (ts : list qt) (center i : nat) : outcome bool :=
  if i =? center then Ok true
  else let! t := at_site ts i in
       if negb (alloc t) then Ok false else let! q := qdiv t in Ok (qn_eqb q qn0).
(** mpsalgs.cc:204-219. *)
Definition left_arrows (ts : list qt) (i : nat) : outcome bool :=
  let! d := right_dir ts i in
  if negb (arrow_eqb d ArrIn) then Ok false
  else if 1 <? i then let! d' := left_dir ts i in Ok (arrow_eqb d' ArrOut)
  else Ok true.
(** mpsalgs.cc:222-235. *)
Definition right_arrows (ts : list qt) (i : nat) : outcome bool :=
  let! ok := (if i <? length ts then let! d := right_dir ts i in Ok (arrow_eqb d ArrOut) else Ok true) in
  if ok : bool then let! d' := left_dir ts i in Ok (arrow_eqb d' ArrIn) else Ok false.
(** mpsalgs.cc:170-239. *)
Definition checkQNs (ts : list qt) : outcome bool :=
  let! c := findCenter ts in
  match c with
  | None => Ok false
  | Some c =>
      let! z := every (seq 1 (length ts)) (zero_div ts c) in
      if z : bool then
        let! a := every (seq 1 (c - 1)) (left_arrows ts) in
        if a : bool then every (rev (seq (c + 1) (length ts - c))) (right_arrows ts) else Ok false
      else Ok false
  end.
End Tq.
