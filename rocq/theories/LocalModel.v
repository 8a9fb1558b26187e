(** LocalMPO: the environments of an MPO (or MPS) projected by an MPS, with paging to
    disk (itensor/mps/localmpo.h). *)
From Coq Require Import ZArith List Bool.
From Verif Require Import Util.
Import ListNotations.
Local Open Scope Z_scope.
Local Open Scope outcome_scope.

Section LocalModel.
(** E: edge tensors; T: the tensors of psi.  [stepL j e t] is the left edge tensor one
    site further: e*t*Op(j)*dag(prime(t)), with no e factor when e is a null tensor;
    [stepR] the mirror image. *)
Context {E T : Type} (stepL stepR : Z -> option E -> T -> E).

(** The data members (localmpo.h:222-238).  [lop] says whether Op_ is set, otherwise
    the object was built from an MPS.  [lfile] are the files PH_%03d of its own
    directory. *)
Record lmpo := mkL { lN : Z; lop : bool; lPH : Z -> option E; lL : Z; lR : Z; lnc : Z;
  lwr : bool; lfile : Z -> option E }.
(** localmpo.h:270-300, 321-341: constructors from an MPO or MPS, with boundary tensors
    (null when not given).  localmpo.h:356-377: with positions l and r. *)
Definition make (n : Z) (op : bool) (bl br : option E) (l r : Z) : lmpo :=
  mkL n op (fun k => if k =? r then br else if k =? l then bl else None) l r 2 false (fun _ => None).

Definition withPH (s : lmpo) k e := mkL (lN s) (lop s) (fun k' => if k' =? k then e else lPH s k') (lL s) (lR s) (lnc s) (lwr s) (lfile s).
Definition withL (s : lmpo) v := mkL (lN s) (lop s) (lPH s) v (lR s) (lnc s) (lwr s) (lfile s).
Definition withR (s : lmpo) v := mkL (lN s) (lop s) (lPH s) (lL s) v (lnc s) (lwr s) (lfile s).
Definition withFile (s : lmpo) k e := mkL (lN s) (lop s) (lPH s) (lL s) (lR s) (lnc s) (lwr s) (fun k' => if k' =? k then Some e else lfile s k').
(** PH_.at(k): PH_ has N+2 elements. *)
Definition at_ok (s : lmpo) (k : Z) : bool := (0 <=? k) && (k <=? lN s + 1).
(** localmpo.h:622-631, 651-660: the element left behind is written and dropped. *)
Definition page_out (s : lmpo) (k v : Z) : outcome lmpo :=
  if k =? v then Ok s else
  if at_ok s k then
    match lPH s k with
    | Some e => Ok (withPH (withFile s k e) k None)
    | None => Ok s
    end
  else Err.
(** readFromFile throws when the file is missing (readwrite.h:335-358). *)
Definition page_in (s : lmpo) (k : Z) : outcome lmpo :=
  match lPH s k with
  | Some _ => Ok s
  | None => match lfile s k with Some e => Ok (withPH s k (Some e)) | None => Err end
  end.
(** localmpo.h:614-644 *)
Definition setLHlim (s : lmpo) (v : Z) : outcome lmpo :=
  if negb (lwr s) then Ok (withL s v) else
  let! s1 := page_out s (lL s) v in
  let s2 := withL s1 v in
  if negb (at_ok s2 v) then Err else
  if v <? 1 then Ok (withPH s2 v None) else page_in s2 v.
(** localmpo.h:646-676 *)
Definition setRHlim (s : lmpo) (v : Z) : outcome lmpo :=
  if negb (lwr s) then Ok (withR s v) else
  let! s1 := page_out s (lR s) v in
  let s2 := withR s1 v in
  if negb (at_ok s2 v) then Err else
  if lN s <? v then Ok (withPH s2 v None) else page_in s2 v.

(** localmpo.h:528-566, makeL(psi,k): the loop while LHlim_ < k. [psi] gives A_[j]. *)
Fixpoint makeL_loop (n : nat) (psi : Z -> T) (s : lmpo) : outcome lmpo :=
  match n with
  | O => Ok s
  | S n' =>
      let ll := lL s in
      if at_ok s ll && at_ok s (ll + 1) then
        let s1 := withPH s (ll + 1) (Some (stepL (ll + 1) (lPH s ll) (psi (ll + 1)))) in
        let! s2 := setLHlim s1 (ll + 1) in makeL_loop n' psi s2
      else Err
  end.
Definition makeL (psi : Z -> T) (s : lmpo) (k : Z) : outcome lmpo := makeL_loop (Z.to_nat (k - lL s)) psi s.
(** localmpo.h:568-612, makeR. *)
Fixpoint makeR_loop (n : nat) (psi : Z -> T) (s : lmpo) : outcome lmpo :=
  match n with
  | O => Ok s
  | S n' =>
      let rl := lR s in
      if at_ok s rl && at_ok s (rl - 1) then
        let s1 := withPH s (rl - 1) (Some (stepR (rl - 1) (lPH s rl) (psi (rl - 1)))) in
        let! s2 := setRHlim s1 (rl - 1) in makeR_loop n' psi s2
      else Err
  end.
Definition makeR (psi : Z -> T) (s : lmpo) (k : Z) : outcome lmpo := makeR_loop (Z.to_nat (lR s - k)) psi s.

(** localmpo.h:442-473, position(b,psi). *)
Definition position (psi : Z -> T) (s : lmpo) (b : Z) : outcome lmpo :=
  let! s1 := makeL psi s (b - 1) in
  let! s2 := makeR psi s1 (b + lnc s) in
  let! s3 := setLHlim s2 (b - 1) in
  setRHlim s3 (b + lnc s).
(** localmpo.h:162-172, L() and R(): unchecked access. *)
Definition getL (s : lmpo) : option E := lPH s (lL s).
Definition getR (s : lmpo) : option E := lPH s (lR s).
(** localmpo.h:152-157, reset(): reads Op_->length(). *)
Definition reset (s : lmpo) : outcome lmpo := if lop s then Ok (withR (withL s 0) (lN s + 1)) else UB.
(** localmpo.h:187-193 *)
Definition numCenter (s : lmpo) (v : Z) : outcome lmpo :=
  if (v <? 0) || (2 <? v) then Err
  else Ok (mkL (lN s) (lop s) (lPH s) (lL s) (lR s) v (lwr s) (lfile s)).
(** localmpo.h:200-211 *)
Definition doWrite (s : lmpo) (v : bool) : outcome lmpo :=
  if negb (lop s) then Err else
  let fresh := negb (lwr s) && v in
  Ok (mkL (lN s) (lop s) (lPH s) (lL s) (lR s) (lnc s) v (if fresh then fun _ => None else lfile s)).
(** localmpo.h:475-484 *)
Definition position_of (s : lmpo) : outcome Z :=
  if lR s - lL s =? lnc s + 1 then Ok (lL s + 1) else Err.
(** localmpo.h:486-526, shift(j,dir,A); a null E in E*A is an error (itensor.cc:940). *)
Definition shift (s : lmpo) (j : Z) (fromleft : bool) (A : T) : outcome lmpo :=
  if negb (lop s) then UB else
  if fromleft then
    if negb (j - 1 =? lL s) then Err else
    if at_ok s (lL s) && at_ok s j then
      match lPH s (lL s) with
      | None => Err
      | Some e =>
          let s1 := withPH s j (Some (stepL j (Some e) A)) in
          let! s2 := setLHlim s1 j in setRHlim s2 (j + lnc s + 1)
      end
    else Err
  else
    if negb (j + 1 =? lL s) then Err else
    if at_ok s (lR s) && at_ok s j then
      match lPH s (lR s) with
      | None => Err
      | Some e =>
          let s1 := withPH s j (Some (stepR j (Some e) A)) in
          let! s2 := setLHlim s1 (j - lnc s - 1) in setRHlim s2 j
      end
    else Err.
(** localop.h:188-192, 324-366: LocalOp::product refuses to work when both edges are null. *)
Definition product_allowed (s : lmpo) : bool :=
  match getL s, getR s with None, None => false | _, _ => true end.
End LocalModel.
Arguments lmpo E : clear implicits.
