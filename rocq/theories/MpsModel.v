(** Matrix product states: the vector of tensors, the orthogonality limits, and
    the paging of tensors to disk (itensor/mps/mps.h, itensor/mps/mps.cc).

    The tensor type [T] and the numerical factorisations are parameters here;
    MpsTensor.v gives the tensors their entries. *)
From Coq Require Import ZArith List Bool Lia.
From Verif Require Import Util.
Import ListNotations.
Local Open Scope Z_scope.
Local Open Scope outcome_scope.

Section Mps.
Context {T : Type}.

(** mps.h:24-38, class MPS.  [A_] is a std::vector<ITensor> of size N_+2; it is a
    map from positions here and every [.at] below checks 0 <= i <= N_+1.  [None]
    is a default constructed ITensor.  [mdir] stands for [writedir_]. *)
Record mps := mkMps {
  mN : Z; mA : Z -> option T; ml : Z; mr : Z; matb : Z; mdo : bool; mdir : nat }.

(** The file system: directory, then tensor number (AFName, mps.cc:397-408),
    then the tensor last written, if the file exists. *)
Definition disk := nat -> Z -> option (option T).

Definition setA (A : Z -> option T) (j : Z) (x : option T) : Z -> option T :=
  fun k => if k =? j then x else A k.
Definition withA (s : mps) (A : Z -> option T) : mps :=
  mkMps (mN s) A (ml s) (mr s) (matb s) (mdo s) (mdir s).
Definition withatb (s : mps) (b : Z) : mps :=
  mkMps (mN s) (mA s) (ml s) (mr s) b (mdo s) (mdir s).
Definition withlims (s : mps) (l r : Z) : mps :=
  mkMps (mN s) (mA s) l r (matb s) (mdo s) (mdir s).

(** writeToFile(AFName(j),..), readwrite.h:361-370. *)
Definition wfile (d : disk) (dir : nat) (j : Z) (x : option T) : disk :=
  fun dir' k => if Nat.eqb dir' dir && (k =? j) then Some x else d dir' k.

(** std::vector::at throws when out of range. *)
Definition inrange (s : mps) (j : Z) : bool := (0 <=? j) && (j <=? mN s + 1).

(** mps.cc:65-76, MPS(int N): N+2 default tensors, limits 0 and N+1. *)
Definition mps_new (n : Z) : mps := mkMps n (fun _ => None) 0 (n + 1) 1 false 0%nat.

(** if(A_.at(j)) { writeToFile(AFName(j),A_.at(j)); A_.at(j) = ITensor(); }, the
    block repeated in setBond (mps.cc:429-454); [drop] says whether the last
    statement runs. *)
Definition spill (d : disk) (s : mps) (j : Z) (drop : bool) : outcome (disk * mps) :=
  if inrange s j then
    match mA s j with
    | Some t => Ok (wfile d (mdir s) j (Some t), if drop then withA s (setA (mA s) j None) else s)
    | None => Ok (d, s)
    end
  else Err.

(** mps.cc:429-440, one turn of the first while loop of setBond. *)
Definition page_up (b : Z) (d : disk) (s : mps) : outcome (disk * mps) :=
  let a := matb s in
  let! (d1, s1) := spill d s a true in
  let! (d2, s2) := spill d1 s1 (a + 1) (negb (a + 1 =? b)) in
  Ok (d2, withatb s2 (a + 1)).

(** mps.cc:442-454, one turn of the second while loop of setBond. *)
Definition page_down (b : Z) (d : disk) (s : mps) : outcome (disk * mps) :=
  let a := matb s in
  let! (d1, s1) := spill d s a (negb (a =? b + 1)) in
  let! (d2, s2) := spill d1 s1 (a + 1) true in
  Ok (d2, withatb s2 (a - 1)).

Fixpoint iter_page (f : disk -> mps -> outcome (disk * mps)) (n : nat) (d : disk) (s : mps)
  : outcome (disk * mps) :=
  match n with
  | O => Ok (d, s)
  | S n' => let! (d1, s1) := f d s in iter_page f n' d1 s1
  end.

(** readFromFile(AFName(j),A_.at(j)), readwrite.h:335-344: a missing file throws. *)
Definition load (d : disk) (s : mps) (j : Z) : outcome mps :=
  if inrange s j then
    match mA s j with
    | Some _ => Ok s
    | None => match d (mdir s) j with
              | Some x => Ok (withA s (setA (mA s) j x))
              | None => Err
              end
    end
  else Err.

(** mps.cc:410-469, MPS::setBond.  The while loops run |b - atb_| times. *)
Definition setBond (d : disk) (s : mps) (b : Z) : outcome (disk * mps) :=
  if b =? matb s then Ok (d, s)
  else if negb (mdo s) then Ok (d, withatb s b)
  else if (b <? 1) || (mN s <=? b) then Ok (d, s)
  else
    let! (d1, s1) := iter_page (page_up b) (Z.to_nat (b - matb s)) d s in
    let! (d2, s2) := iter_page (page_down b) (Z.to_nat (matb s1 - b)) d1 s1 in
    let! s3 := load d2 s2 b in
    let! s4 := load d2 s3 (b + 1) in
    Ok (d2, s4).

(** mps.cc:480-507, MPS::setSite. *)
Definition setSite (d : disk) (s : mps) (j : Z) : outcome (disk * mps) :=
  if negb (mdo s) then Ok (d, withatb s (if matb s <? j then j - 1 else j))
  else if (j <? 1) || (mN s <? j) then Ok (d, s)
  else if j <? matb s then setBond d s j
  else if matb s + 1 <? j then setBond d s (j - 1)
  else Ok (d, s).

(** Negative positions count from the end (mps.cc:298, 306). *)
Definition wrap (s : mps) (i : Z) : Z := if i <? 0 then mN s + i + 1 else i.

(** mps.cc:295-301, operator()(int) const; the tensor read through the returned
    reference immediately.  A failing [.at] throws after setSite has moved
    atb_; the model returns [Err] without a state. *)
Definition get (d : disk) (s : mps) (i0 : Z) : outcome (disk * mps * option T) :=
  let i := wrap s i0 in
  let! (d1, s1) := setSite d s i in
  if inrange s1 i then Ok (d1, s1, mA s1 i) else Err.

(** mps.cc:306-308, the limits kept by ref. *)
Definition ref_lims (s : mps) (i : Z) : mps :=
  let l := if i <=? ml s then i - 1 else ml s in
  let r := if mr s <=? i then i + 1 else mr s in
  withlims s l r.

(** mps.cc:303-311, ref(int): the state in which the reference is handed out. *)
Definition ref (d : disk) (s : mps) (i0 : Z) : outcome (disk * mps) :=
  let i := wrap s i0 in
  let! (d1, s1) := setSite d s i in
  let s2 := ref_lims s1 i in
  if inrange s2 i then Ok (d1, s2) else Err.

(** mps.h:97-101, set(i,A): ref(i) = A.  Also any single statement that assigns
    through ref(i), with [f] the new value as a function of the old one. *)
Definition modify (d : disk) (s : mps) (i0 : Z) (f : option T -> option T)
  : outcome (disk * mps) :=
  let! (d1, s1) := ref d s i0 in
  Ok (d1, withA s1 (setA (mA s1) (wrap s i0) (f (mA s1 (wrap s i0))))).

(** mps.cc:174-178, operator*= and operator/=: the tensor at leftLim()+1. *)
Definition scale (d : disk) (s : mps) (f : option T -> option T) : outcome (disk * mps) :=
  modify d s (ml s + 1) f.

(** mps.cc:904-933, initWrite: null tensors get a file at once; with WriteAll
    every other tensor does too, and those not at atb_, atb_+1 leave memory.
    [dir] is the fresh directory made by mkTempDir. *)
Definition initWrite (d : disk) (s : mps) (all : bool) (dir : nat) : disk * mps :=
  if mdo s then (d, s) else
  let d1 : disk := fun dir' j =>
    if Nat.eqb dir' dir && inrange s j then
      match mA s j with
      | None => Some None
      | Some t => if all then Some (Some t) else d dir' j
      end
    else d dir' j in
  let A1 : Z -> option T := fun j =>
    if all && inrange s j && ((j <? matb s) || (matb s + 1 <? j)) then None else mA s j in
  (d1, mkMps (mN s) A1 (ml s) (mr s) (matb s) true dir).

(** mps.cc:382-394, read(dirname): reset the limits, load every tensor. *)
Fixpoint read_all (d : disk) (s : mps) (js : list Z) : outcome mps :=
  match js with
  | [] => Ok s
  | j :: js' => match d (mdir s) j with
                | Some x => read_all d (withA s (setA (mA s) j x)) js'
                | None => Err
                end
  end.
Definition slots (s : mps) : list Z := map Z.of_nat (seq 0 (Z.to_nat (mN s + 2))).
Definition readDir (d : disk) (s : mps) : outcome mps :=
  read_all d (withlims s 0 (mN s + 1)) (slots s).

(** mps.cc:950-960, cleanupWrite: the directory is removed. *)
Definition cleanup (d : disk) (s : mps) : disk * mps :=
  if mdo s then
    (fun dir' j => if Nat.eqb dir' (mdir s) then None else d dir' j,
     mkMps (mN s) (mA s) (ml s) (mr s) (matb s) false (mdir s))
  else (d, s).

(** mps.cc:335-349, doWrite(val). *)
Definition doWrite (d : disk) (s : mps) (val all : bool) (dir : nat) : outcome (disk * mps) :=
  if Bool.eqb val (mdo s) then Ok (d, s)
  else if val then Ok (initWrite d s all dir)
  else let! s1 := readDir d s in Ok (cleanup d s1).

(** mps.cc:118-149, 935-948, copy constructor and assignment with copyWriteDir:
    fields are copied; in disk mode the files are copied to a fresh directory. *)
Definition copy (d : disk) (s : mps) (dir : nat) : disk * mps :=
  if mdo s then
    (fun dir' j => if Nat.eqb dir' dir then d (mdir s) j else d dir' j,
     mkMps (mN s) (mA s) (ml s) (mr s) (matb s) true dir)
  else (d, s).

(** mps.cc:1023-1034. *)
Definition isOrtho (s : mps) : bool := ml s + 1 =? mr s - 1.
Definition orthoCenter (s : mps) : outcome Z :=
  if isOrtho s then Ok (ml s + 1) else Err.

(** mps.h:113-118, MPS::dag(): conjugates A_[1..N] in place, without setSite. *)
Definition dag_all (f : T -> T) (s : mps) : mps :=
  withA s (fun j => if (1 <=? j) && (j <=? mN s) then option_map f (mA s j) else mA s j).

(** Two references taken in one expression, psi(i) * psi(j), both read after
    the second call (mps.cc:295-301 returns a reference into A_). *)
Definition get2 (d : disk) (s : mps) (i j : Z) : outcome (disk * mps * (option T * option T)) :=
  let! (d1, s1, _) := get d s i in
  let! (d2, s2, x) := get d1 s1 j in
  Ok (d2, s2, (mA s2 (wrap s i), x)).

Section Position.
(** orthMPS(A1,A2,Fromleft/Fromright) on two tensors (mps.cc:643-668) and the
    factorisation of svdBond (mps_impl.h:50-84); [W] is the type of two-site
    tensors. *)
Context {W : Type}.
Variable orthL orthR : T -> T -> outcome (T * T).
Variable splitL splitR : W -> outcome (T * T).
(** psi(b)*psi(b+1). *)
Variable pair : T -> T -> W.

(** Tensors that are default constructed share no index, and orthMPS returns at once. *)
Definition orth (o : T -> T -> outcome (T * T)) (s : mps) (b : Z) : outcome mps :=
  match mA s b, mA s (b + 1) with
  | Some x, Some y =>
      let! (x', y') := o x y in
      Ok (withA s (setA (setA (mA s) b (Some x')) (b + 1) (Some y')))
  | _, _ => Ok s
  end.

(** mps.cc:693-709: one turn of the first while loop of position. *)
Definition pos_left (d : disk) (s0 : mps) : outcome (disk * mps) :=
  let s := withlims s0 (if ml s0 <? 0 then 0 else ml s0) (mr s0) in
  let b := ml s + 1 in
  let! (d1, s1) := setBond d s b in
  let! (d2, s2) := ref d1 s1 b in
  let! (d3, s3) := ref d2 s2 (b + 1) in
  let! s4 := orth orthL s3 b in
  let l := ml s4 + 1 in
  Ok (d3, withlims s4 l (if mr s4 <? l + 2 then l + 2 else mr s4)).

(** mps.cc:710-733: one turn of the second while loop. *)
Definition pos_right (d : disk) (s0 : mps) : outcome (disk * mps) :=
  let s := withlims s0 (ml s0) (if mN s0 + 1 <? mr s0 then mN s0 + 1 else mr s0) in
  let b := mr s - 2 in
  let! (d1, s1) := setBond d s b in
  let! (d2, s2) := ref d1 s1 b in
  let! (d3, s3) := ref d2 s2 (b + 1) in
  let! s4 := orth orthR s3 b in
  let r := mr s4 - 1 in
  Ok (d3, withlims s4 (if r - 2 <? ml s4 then r - 2 else ml s4) r).

(** A while loop run at most [n] times; running out is reported as [UB]. *)
Fixpoint while (n : nat) (c : mps -> bool) (f : disk -> mps -> outcome (disk * mps))
  (d : disk) (s : mps) : outcome (disk * mps) :=
  if c s then
    match n with
    | O => UB
    | S n' => let! (d1, s1) := f d s in while n' c f d1 s1
    end
  else Ok (d, s).

(** mps.cc:671-737, position(i) without DoSVDBond.  [operator bool] is false for a
    default constructed MPS only (N_ = 0, empty A_).  Loop bounds are generous:
    C38_total shows they are never reached. *)
Definition position (d : disk) (s : mps) (i : Z) : outcome (disk * mps) :=
  if mN s =? 0 then Err else
  let! (d1, s1) := while (Z.to_nat (mN s + 2)) (fun s => ml s <? i - 1) pos_left d s in
  while (Z.to_nat (mN s + 2)) (fun s => i + 1 <? mr s) pos_right d1 s1.

(** mps_impl.h:21-98, svdBond; the error checks on the limits come after setBond.
    A_[b], A_[b+1] are assigned directly, not through ref. *)
Definition svdBond (d : disk) (s : mps) (b : Z) (AA : W) (fromleft : bool)
  : outcome (disk * mps) :=
  let! (d1, s1) := setBond d s b in
  if fromleft && (ml s1 <? b - 1) then Err
  else if negb fromleft && (b + 2 <? mr s1) then Err
  else
    let! (x, y) := (if fromleft then splitL AA else splitR AA) in
    let s2 := withA s1 (setA (setA (mA s1) b (Some x)) (b + 1) (Some y)) in
    if fromleft
    then Ok (d1, withlims s2 b (if mr s2 <? b + 2 then b + 2 else mr s2))
    else Ok (d1, withlims s2 (if b - 1 <? ml s2 then b - 1 else ml s2) (b + 1)).

(** mps.cc:676-691: the turns of the two loops when DoSVDBond is set. *)
Definition svd_left (d : disk) (s0 : mps) : outcome (disk * mps) :=
  let s := withlims s0 (if ml s0 <? 0 then 0 else ml s0) (mr s0) in
  let b := ml s + 1 in
  let! (d1, s1) := setBond d s b in
  let! (d2, s2, x) := get d1 s1 b in
  let! (d3, s3, y) := get d2 s2 (b + 1) in
  match x, y with
  | Some x, Some y => svdBond d3 s3 b (pair x y) true
  | _, _ => Err
  end.
Definition svd_right (d : disk) (s0 : mps) : outcome (disk * mps) :=
  let s := withlims s0 (ml s0) (if mN s0 + 1 <? mr s0 then mN s0 + 1 else mr s0) in
  let b := mr s - 2 in
  let! (d1, s1) := setBond d s b in
  let! (d2, s2, x) := get d1 s1 b in
  let! (d3, s3, y) := get d2 s2 (b + 1) in
  match x, y with
  | Some x, Some y => svdBond d3 s3 b (pair x y) false
  | _, _ => Err
  end.
Definition position_svd (d : disk) (s : mps) (i : Z) : outcome (disk * mps) :=
  if mN s =? 0 then Err else
  let! (d1, s1) := while (Z.to_nat (mN s + 2)) (fun s => ml s <? i - 1) svd_left d s in
  while (Z.to_nat (mN s + 2)) (fun s => i + 1 <? mr s) svd_right d1 s1.

End Position.
End Mps.
Arguments mps : clear implicits.
Arguments disk : clear implicits.
