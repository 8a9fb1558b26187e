(** What a program sees when every ITensor object owns its value: copies copy. *)
From Coq Require Import List Bool Arith.
From Verif Require Import Util CowModel.
Import ListNotations.
Open Scope outcome_scope.

Section Spec.
Context {V : Type}.

Definition after (a : action V) (v : V) : V :=
  match a with Look => v | Modify ws => fold_left (fun v w => w v) ws v | Replace f => f v end.
Definition after2 (a : action2 V) (v u : V) : V :=
  match a with
  | Look2 => v | Modify2 ws => fold_left (fun v w => w v u) ws v | Replace2 f => f v u | Share2 => u
  end.

(** The values of all objects; None: default constructed. *)
Definition value (vs : list (option V)) (x : nat) : option V := nth x vs None.
Definition by_value1 (debug : bool) (vs : list (option V)) (c : cmd V) : outcome (list (option V) * list V) :=
  let null := if debug then Err else UB in
  match c with
  | CNew x v => Ok (upd x (Some v) vs, [])
  | CCopy x y => Ok (upd x (value vs y) vs, [])
  | CMove x y => if x =? y then Ok (vs, []) else Ok (upd y None (upd x (value vs y) vs), [])
  | CSwap x y => Ok (upd y (value vs x) (upd x (value vs y) vs), [])
  | CDrop x => Ok (upd x None vs, [])
  | CTask x t => match value vs x with Some v => Ok (upd x (Some (after (t v) v)) vs, []) | None => null end
  | CTask2 x y t =>
      match value vs x, value vs y with
      | Some v, Some u => Ok (upd x (Some (after2 (t v u) v u)) vs, [])
      | _, _ => null
      end
  | CGet x => match value vs x with Some v => Ok (vs, [v]) | None => null end
  end.
Fixpoint by_value (debug : bool) (vs : list (option V)) (cs : list (cmd V)) : outcome (list (option V) * list V) :=
  match cs with
  | [] => Ok (vs, [])
  | c :: cs' => let! (vs', o) := by_value1 debug vs c in let! (vs'', o') := by_value debug vs' cs' in Ok (vs'', o ++ o')
  end.

(** The objects a command may change. *)
Definition targets (c : cmd V) : list nat :=
  match c with
  | CNew x _ | CCopy x _ | CDrop x | CTask x _ | CTask2 x _ _ => [x]
  | CMove x y | CSwap x y => [x; y]
  | CGet _ => []
  end.
(** A two-argument task that changes its first argument in place is not given the same object twice
    (operator+= checks this). *)
Definition no_self (c : cmd V) : Prop :=
  match c with CTask2 x y t => x = y -> forall v u, match t v u with Modify2 _ => False | _ => True end | _ => True end.
End Spec.
