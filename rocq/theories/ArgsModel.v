(** Named arguments. itensor/util/args.h, itensor/util/args.cc *)
From Coq Require Import List Arith Bool Ascii QArith Qround.
From Verif Require Import Util InfArrayModel.
Import ListNotations.
Local Open Scope nat_scope.

Definition str := list ascii.
Definition ceqb : ascii -> ascii -> bool := Ascii.eqb.
Fixpoint seqb (a b : str) : bool :=
  match a, b with
  | [], [] => true
  | x :: a', y :: b' => ceqb x y && seqb a' b'
  | _, _ => false
  end.

(** args.cc:29-46, on the reversed string *)
Fixpoint chop_rev (r : str) : str :=
  match r with
  | c :: r' => if ceqb c "="%char || ceqb c " "%char then chop_rev r' else r
  | [] => []
  end.
Definition chopSpaceEq (name : str) : str := rev (chop_rev (rev name)).

(** args.h:225-300: Val::Type with sval_/rval_. A Real is a rational number (NaN never
    stored under type Numeric by the constructors from integers; a NaN passed as Real is
    not modelled). *)
Inductive aval := ABool (b : bool) | ANum (q : Q) | AStr (s : str) | ANone.
Record Val := mkVal { vname : str; vval : aval }.

(** args.cc:49-55 *)
Definition val_null : Val := mkVal ["N"; "u"; "l"; "l"]%char ANone.
(** args.cc:57-138: every named constructor chops the name *)
Definition val_make (name : str) (v : aval) : Val := mkVal (chopSpaceEq name) v.
(** args.h: valid() *)
Definition val_valid (v : Val) : bool := match vval v with ANone => false | _ => true end.

(** args.h:55: storage_type = InfArray<Val,7ul> *)
Definition ACap : nat := 7.
Definition Args := IA Val.
Definition junk0 : list Val := repeat val_null ACap.
(** args.cc:196-198 *)
Definition args_new : Args := ia_new ACap val_null junk0 0.

(** The loops "for(auto& x : vals_) if(x.name() == name)" of args.cc:258-261, 273-278,
    286-292, 307-310: position of the first match; [k] elements left from position [i]. *)
Fixpoint args_find (k i : nat) (name : str) (s : Args) : outcome (option nat) :=
  match k with
  | O => Ok None
  | S k' => obind (ia_get s i) (fun x =>
              if seqb (vname x) name then Ok (Some i) else args_find k' (S i) name s)
  end.
Definition args_pos (name : str) (s : Args) : outcome (option nat) := args_find (ia_size s) 0 name s.

(** args.cc:282-295 *)
Definition args_add (s : Args) (v : Val) : outcome Args :=
  if negb (val_valid v) then Ok s
  else obind (args_pos (vname v) s) (fun p =>
    match p with
    | Some i => ia_set s i v
    | None => ia_push ACap val_null v s
    end).

(** args.cc:269-279 *)
Definition args_remove (s : Args) (name : str) : outcome Args :=
  obind (args_pos name s) (fun p =>
    match p with
    | Some i => ia_erase ACap i s
    | None => Ok s
    end).

(** args.cc:212-217 for a source that is not the global object; for the global one the copy
    is empty *)
Definition args_copy (isGlobal : bool) (s : Args) : Args :=
  if isGlobal then args_new else ia_copy ACap s.
(** args.cc:226-232: assignment *)
Definition args_assign (dst : Args) (isGlobal : bool) (s : Args) : Args :=
  if isGlobal then dst else ia_copy ACap s.

(** args.cc:446-454 *)
Fixpoint merge_loop (k i : nat) (t s : Args) : outcome Args :=
  match k with
  | O => Ok s
  | S k' => obind (ia_get t i) (fun x => obind (args_add s x) (fun s' => merge_loop k' (S i) t s'))
  end.
Definition args_merge (s t : Args) : outcome Args := merge_loop (ia_size t) 0 t s.

(** args.cc:255-267, 304-317: own entry, else the global one's (global.get throws) *)
Definition args_own (s : Args) (name : str) : outcome (option aval) :=
  obind (args_pos name s) (fun p =>
    match p with
    | Some i => obind (ia_get s i) (fun x => Ok (Some (vval x)))
    | None => Ok None
    end).
Definition args_lookup (s global : Args) (name : str) : outcome (option aval) :=
  obind (args_own s name) (fun r => match r with Some v => Ok (Some v) | None => args_own global name end).
Definition args_defined (s global : Args) (name : str) : outcome bool :=
  obind (args_lookup s global name) (fun r => Ok (match r with Some _ => true | None => false end)).

(** args.cc:319-383; a value of the wrong type throws (args.cc:162-167) *)
Definition as_bool (v : aval) : outcome bool := match v with ABool b => Ok b | _ => Err end.
Definition as_str (v : aval) : outcome str := match v with AStr x => Ok x | _ => Err end.
Definition as_num (v : aval) : outcome Q := match v with ANum x => Ok x | _ => Err end.
(** long(rval_) truncates towards zero; the range of long is not modelled *)
Definition Qtrunc (q : Q) : Z := Z.quot (Qnum q) (Zpos (Qden q)).
Definition as_int (v : aval) : outcome Z := match v with ANum x => Ok (Qtrunc x) | _ => Err end.
Definition getter {X} (conv : aval -> outcome X) (s global : Args) (name : str) (def : option X) : outcome X :=
  obind (args_lookup s global name) (fun r =>
    match r with
    | Some v => conv v
    | None => match def with Some x => Ok x | None => Err end
    end).

(** std::string::find_first_of(c) and the two substr *)
Fixpoint split_at (c : ascii) (s : str) : option (str * str) :=
  match s with
  | [] => None
  | x :: s' => if ceqb x c then Some ([], s')
               else match split_at c s' with
                    | Some (a, b) => Some (x :: a, b)
                    | None => None
                    end
  end.

Definition is_digit (c : ascii) : bool :=
  let n := nat_of_ascii c in (48 <=? n) && (n <=? 57).

Section Strings.
(** strtod: any function from text to a number; None is errno == ERANGE. *)
Variable strtod : str -> option Q.

Definition s_true : str := ["t"; "r"; "u"; "e"]%char.
Definition s_false : str := ["f"; "a"; "l"; "s"; "e"]%char.

(** args.cc:401-444 *)
Definition addByString (s : Args) (o : str) : outcome Args :=
  match o with
  | [] => Ok s
  | _ =>
    match split_at "="%char o with
    | None => args_add s (val_make o (ABool true))
    | Some (name, val) =>
      match name, val with
      | [], _ => Ok s
      | _, [] => Ok s
      | _, f :: _ =>
        if ceqb f "1"%char || ceqb f "-"%char || is_digit f || ceqb f "+"%char then
          match strtod val with
          | None => Err
          | Some d => args_add s (val_make name (ANum d))
          end
        else if seqb val s_false then args_add s (val_make name (ABool false))
        else if seqb val s_true then args_add s (val_make name (ABool true))
        else args_add s (val_make name (AStr val))
      end
    end
  end.

(** args.cc:385-399; the fuel is the length of the text (each round drops a comma) *)
Fixpoint process_loop (fuel : nat) (s : Args) (o : str) : outcome Args :=
  match fuel with
  | O => addByString s o
  | S f =>
    match split_at ","%char o with
    | Some (a, b) => obind (addByString s a) (fun s' => process_loop f s' b)
    | None => addByString s o
    end
  end.
Definition processString (s : Args) (o : str) : outcome Args :=
  let o' := filter (fun c => negb (ceqb c " "%char)) o in
  process_loop (length o') s o'.
End Strings.
