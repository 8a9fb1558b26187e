(** Model of the shared storage of tensors: itensor/itdata/itdata.h (PData, ManageStore),
    itensor/itdata/dotask.h (doTask), itensor/itensor.h (the member store_).

    An ITensor object holds a shared_ptr (PData) to its storage.  Here objects are numbered, [env]
    gives the pointer of each, and [heap] the storages; a storage whose last pointer goes away is
    freed.  Simplifications: the contents of a storage are an abstract value (V), so Real/Cplx
    storages, dense, diagonal and block storages are values of one type; the index set and scale of
    an ITensor, which are ordinary members copied by value, are left out; lazy storage (ITLazy) is
    left out; one thread. *)
From Coq Require Import List Bool Arith Lia.
From Verif Require Import Util.
Import ListNotations.
Open Scope outcome_scope.

Section Cow.
Context {V : Type}.

Record st := mkst { env : list (option nat); heap : list (option V) }.

(** n default constructed ITensors (itensor.h:47: store_ is null). *)
Definition init (n : nat) : st := mkst (repeat None n) [].

Definition ptr_eqb (p q : option nat) : bool :=
  match p, q with Some a, Some b => a =? b | None, None => true | _, _ => false end.
Definition pointer (s : st) (x : nat) : option nat := nth x (env s) None.
(** shared_ptr::use_count. *)
Definition use_count (s : st) (l : nat) : nat := length (filter (ptr_eqb (Some l)) (env s)).
(** shared_ptr's deleter: the storage goes when no pointer is left. *)
Definition release (p : option nat) (s : st) : st :=
  match p with
  | None => s
  | Some l => if use_count s l =? 0 then mkst (env s) (upd l None (heap s)) else s
  end.
(** Assignment to the shared_ptr of object x. *)
Definition assign (x : nat) (p : option nat) (s : st) : st :=
  release (pointer s x) (mkst (upd x p (env s)) (heap s)).
(** std::make_shared: the new storage is given to object x (newITData, dotask.h:636-642). *)
Definition make (x : nat) (v : V) (s : st) : st :=
  assign x (Some (length (heap s))) (mkst (env s) (heap s ++ [Some v])).
(** Using the storage at a location: undefined if it was freed. *)
Definition deref (s : st) (l : nat) : outcome V :=
  match nth_error (heap s) l with Some (Some v) => Ok v | _ => UB end.
Definition store (s : st) (l : nat) (v : V) : st := mkst (env s) (upd l (Some v) (heap s)).

(** ManageStore::modifyData(d) (itdata.h:315-328): a private copy unless the pointer is unique. *)
Definition modifyData (s : st) (x : nat) : outcome (st * nat) :=
  match pointer s x with
  | None => UB
  | Some l =>
      if use_count s l =? 1 then Ok (s, l)
      else let! v := deref s l in Ok (make x v s, length (heap s))
  end.

(** What the overload of doTask chosen for the storage at hand does with it.  Each in-place change
    is a list of steps, each of which reads the storage and writes it; an exception inside a doTask
    leaves a shorter list.  [Replace]: makeNewData (itdata.h:264-274) - the new storage is assigned
    to the first argument when the ManageStore goes (updateArg1, 290-306), also after an
    exception. *)
Inductive action :=
| Look                              (* const doTask: GetElt, NormNoScale, VisitIT ... *)
| Modify (ws : list (V -> V))       (* non-const doTask, or modifyData: SetElt, Mult, Conj ... *)
| Replace (f : V -> V).             (* makeNewData: Fill, TakeReal, SetElt<Cplx> on Real ... *)
Inductive action2 :=
| Look2
| Modify2 (ws : list (V -> V -> V)) (* modifyData on the first argument: PlusEQ *)
| Replace2 (f : V -> V -> V)        (* makeNewData: Contract, NCProd, PlusEQ Real += Cplx *)
| Share2.                           (* assignPointerRtoL (itdata.h:276-281): combiner * dense *)

Fixpoint writes (s : st) (l : nat) (ws : list (V -> V)) : outcome st :=
  match ws with
  | [] => Ok s
  | w :: ws' => let! v := deref s l in writes (store s l (w v)) l ws'
  end.
Fixpoint writes2 (s : st) (l r : nat) (ws : list (V -> V -> V)) : outcome st :=
  match ws with
  | [] => Ok s
  | w :: ws' => let! v := deref s l in let! u := deref s r in writes2 (store s l (w v u)) l r ws'
  end.

(** detail::check in a DEBUG build; without it a null pointer is dereferenced (dotask.h:476-485,669). *)
Definition null_arg {A : Type} (debug : bool) : outcome A := if debug then Err else UB.

(** doTask(t, PData&) (dotask.h:660-674) and OneArg::call (508-538). *)
Definition doTask1 (debug : bool) (x : nat) (t : V -> action) (s : st) : outcome st :=
  match pointer s x with
  | None => null_arg debug
  | Some l =>
      let! v := deref s l in
      match t v with
      | Look => Ok s
      | Modify ws => let! (s', l') := modifyData s x in writes s' l' ws
      | Replace f => Ok (make x (f v) s)
      end
  end.

(** doTask(t, PData&, CPData) (dotask.h:694-710), CallWrap::applyToImpl (549-627). *)
Definition doTask2 (debug : bool) (x y : nat) (t : V -> V -> action2) (s : st) : outcome st :=
  match pointer s x, pointer s y with
  | Some l, Some r =>
      let! v := deref s l in
      let! u := deref s r in
      match t v u with
      | Look2 => Ok s
      | Modify2 ws => let! (s', l') := modifyData s x in writes2 s' l' r ws
      | Replace2 f => Ok (make x (f v u) s)
      | Share2 => Ok (assign x (Some r) s)
      end
  | _, _ => null_arg debug
  end.

(** What a program does with its ITensor objects. *)
Inductive cmd :=
| CNew (x : nat) (v : V)                        (* an object made with new storage *)
| CCopy (x y : nat)                             (* x = y *)
| CMove (x y : nat)                             (* x = std::move(y) *)
| CSwap (x y : nat)                             (* x.swap(y) *)
| CDrop (x : nat)                               (* the object goes, or x = ITensor() *)
| CTask (x : nat) (t : V -> action)             (* doTask(t,x.store()) *)
| CTask2 (x y : nat) (t : V -> V -> action2)    (* doTask(t,x.store(),y.store()) *)
| CGet (x : nat).                               (* the program looks at x *)

(** Copy and move of shared_ptr members (implicit members of ITensor, itensor.h:37-39); swap
    (itensor.cc:381-387).  Self-move of a shared_ptr empties nothing. *)
Definition exec1 (debug : bool) (s : st) (c : cmd) : outcome (st * list V) :=
  match c with
  | CNew x v => Ok (make x v s, [])
  | CCopy x y => Ok (assign x (pointer s y) s, [])
  | CMove x y =>
      if x =? y then Ok (s, [])
      else Ok (release (pointer s x) (mkst (upd y None (upd x (pointer s y) (env s))) (heap s)), [])
  | CSwap x y => Ok (mkst (upd y (pointer s x) (upd x (pointer s y) (env s))) (heap s), [])
  | CDrop x => Ok (assign x None s, [])
  | CTask x t => let! s' := doTask1 debug x t s in Ok (s', [])
  | CTask2 x y t => let! s' := doTask2 debug x y t s in Ok (s', [])
  | CGet x =>
      match pointer s x with
      | None => null_arg debug
      | Some l => let! v := deref s l in Ok (s, [v])
      end
  end.

Fixpoint exec (debug : bool) (s : st) (cs : list cmd) : outcome (st * list V) :=
  match cs with
  | [] => Ok (s, [])
  | c :: cs' =>
      let! (s', o) := exec1 debug s c in
      let! (s'', o') := exec debug s' cs' in
      Ok (s'', o ++ o')
  end.

(** ITensor::operator+= (itensor.cc:1253-1262): nothing stored yet: assignment; the same object:
    doubled in place; else daxpy (PlusEQ: dense.cc:394-411). *)
Definition plusEq (s : st) (x y : nat) (dbl : V -> V) (promotes : V -> V -> bool) (f : V -> V -> V)
    (steps : V -> V -> list (V -> V -> V)) : cmd :=
  match pointer s x with
  | None => CCopy x y
  | Some _ =>
      if x =? y then CTask x (fun _ => Modify [dbl])
      else CTask2 x y (fun v u => if promotes v u then Replace2 f else Modify2 (steps v u))
  end.

(** getBlock(T,block) (itensor_impl.h:636-656): a private copy if need be, then a raw reference
    into the storage (doTask(GetBlock,QDense&), qdense.cc:895-907), through which the program
    writes. *)
Definition view (s : st) (x : nat) : outcome (st * nat) := modifyData s x.
Definition write_view (s : st) (l : nat) (w : V -> V) : outcome st := writes s l [w].
End Cow.
Arguments st : clear implicits.
Arguments action : clear implicits.
Arguments action2 : clear implicits.
Arguments cmd : clear implicits.
