(** What a list-like container does. Elements nobody has written are unspecified (None). *)
From Coq Require Import List Arith Bool.
From Verif Require Import Util InfArrayModel.
Import ListNotations.

Inductive ia_op (T : Type) :=
| OPush (v : T) | OErase (i : nat) | OResize (n : nat) | OAssign (n : nat) (v : T)
| OFill (v : T) | OClear | OSet (i : nat) (v : T)
| OCopy      (* go on with a copy of the array *)
| OMove.     (* go on with the array it was moved into *)
Arguments OPush {T}. Arguments OErase {T}. Arguments OResize {T}. Arguments OAssign {T}.
Arguments OFill {T}. Arguments OClear {T}. Arguments OSet {T}. Arguments OCopy {T}. Arguments OMove {T}.

(** The list. None: the operation is not allowed (erase or set outside the array). *)
Definition list_step {T} (op : ia_op T) (l : list (option T)) : option (list (option T)) :=
  match op with
  | OPush v => Some (l ++ [Some v])
  | OErase i => if i <? length l then Some (firstn i l ++ skipn (S i) l) else None
  | OResize n => Some (firstn n l ++ repeat None (n - length l))
  | OAssign n v => Some (repeat (Some v) n)
  | OFill v => Some (repeat (Some v) (length l))
  | OClear => Some []
  | OSet i v => if i <? length l then Some (upd i (Some v) l) else None
  | OCopy | OMove => Some l
  end.
Fixpoint list_steps {T} (ops : list (ia_op T)) (l : list (option T)) : option (list (option T)) :=
  match ops with
  | [] => Some l
  | op :: r => match list_step op l with Some l' => list_steps r l' | None => None end
  end.

(** The same history run on the code. *)
Definition run_ia {T} (A : nat) (d : T) (junk : list T) (op : ia_op T) (s : IA T) : outcome (IA T) :=
  match op with
  | OPush v => ia_push A d v s
  | OErase i => ia_erase A i s
  | OResize n => Ok (ia_resize A d n s)
  | OAssign n v => ia_assign A d n v s
  | OFill v => ia_fill v s
  | OClear => Ok (ia_clear s)
  | OSet i v => ia_set s i v
  | OCopy => Ok (ia_copy A s)
  | OMove => Ok (fst (ia_move A junk s))
  end.
Fixpoint run_ias {T} (A : nat) (d : T) (junk : list T) (ops : list (ia_op T)) (s : IA T) : outcome (IA T) :=
  match ops with
  | [] => Ok s
  | op :: r => obind (run_ia A d junk op s) (run_ias A d junk r)
  end.

(** The array shows the list: same size, and every specified element reads back. *)
Definition shows {T} (s : IA T) (l : list (option T)) : Prop :=
  ia_size s = length l /\ forall i x, nth_error l i = Some (Some x) -> ia_get s i = Ok x.

(** The trouble spot: an erase takes the array from A+1 elements to A, and the next
    operation that is not a plain write is something other than clear or assign.
    [danger] = "the last size-changing operation was such an erase". *)
Definition is_write {T} (op : ia_op T) : bool := match op with OFill _ | OSet _ _ => true | _ => false end.
Definition is_reset {T} (op : ia_op T) : bool := match op with OClear | OAssign _ _ => true | _ => false end.
Fixpoint avoids {T} (A : nat) (danger : bool) (ops : list (ia_op T)) (l : list (option T)) : Prop :=
  match ops with
  | [] => True
  | op :: r =>
    match list_step op l with
    | None => True
    | Some l' =>
      (danger = true -> is_write op = true \/ is_reset op = true) /\
      avoids A (match op with OErase _ => length l =? S A | OFill _ | OSet _ _ => danger | _ => false end) r l'
    end
  end.
