(** Model of the input file reader: itensor/util/input.cc, itensor/util/input.h.

    A file is its list of characters; reading from it removes the front.  Simplifications: the
    stream's state bits are left out (once a read fails the file is exhausted and every later read
    fails too; open() starts afresh); isalpha, isdigit, isspace are those of the "C" locale, and
    false for bytes above 127; getReal is left out.  error() stops the program: [Err].  A variable
    read before it was given a value is [junk], an arbitrary character.  Loops that may not end
    take fuel; [None] means the loop is still running. *)
From Coq Require Import List ZArith Lia Bool Arith Ascii String.
From Verif Require Import Util.
Import ListNotations.
Open Scope outcome_scope.
Local Open Scope char_scope.

Definition code (c : ascii) : nat := nat_of_ascii c.
Definition between (a b n : nat) : bool := (a <=? n)%nat && (n <=? b)%nat.
(** <cctype>. *)
Definition isspace (c : ascii) : bool := (code c =? 32)%nat || between 9 13 (code c).
Definition isdigit (c : ascii) : bool := between 48 57 (code c).
Definition isalpha (c : ascii) : bool := between 65 90 (code c) || between 97 122 (code c).
Definition tolower (c : ascii) : ascii := if between 65 90 (code c) then ascii_of_nat (code c + 32) else c.
Definition newline : ascii := ascii_of_nat 10.

Definition text := list ascii.
Definition text_eqb (a b : text) : bool := if list_eq_dec ascii_dec a b then true else false.

(** eatwhite (input.cc:62-73). *)
Fixpoint eatwhite (s : text) : text :=
  match s with [] => [] | c :: s' => if isspace c then eatwhite s' else s end.

(** matchbracket (input.cc:75-90); operator>> skips white space. *)
Fixpoint matchbracket (nest : nat) (s : text) : outcome text :=
  match s with
  | [] => Err
  | c :: s' =>
      if isspace c then matchbracket nest s'
      else
        let nest' := if Ascii.eqb c "{" then S nest else if Ascii.eqb c "}" then nest - 1 else nest in
        if (nest' =? 0)%nat then Ok s' else matchbracket nest' s'
  end.

(** The loop of gettoken (input.cc:96-118): i characters have been stored in c[512].  A token of 512
    characters leaves c without a terminator and "s = c" reads on: undefined. *)
Fixpoint token_loop (i : nat) (acc : text) (s : text) : outcome (option (text * text)) :=
  if (i =? 512)%nat then UB
  else
    match s with
    | [] => Ok None
    | ch :: s' =>
        if isalpha ch || Ascii.eqb ch "_" || (negb (i =? 0)%nat && isdigit ch) then token_loop (S i) (acc ++ [ch]) s'
        else if (i =? 0)%nat then Ok (Some ((if (code ch =? 0)%nat then [] else [ch]), s'))
        else Ok (Some (acc, s))
    end.
(** gettoken (input.cc:92-119): None is the return value 0. *)
Definition gettoken (s : text) : outcome (option (text * text)) := token_loop 0 [] (eatwhite s).

(** The inner loop of GotoGroup (input.cc:198-209).  At the end of the file get(c) fails and leaves c
    as it is. *)
Fixpoint skip_line (fuel : nat) (junk : ascii) (s : text) : option (outcome text) :=
  match fuel with
  | 0 => None
  | S f =>
      let c := match s with [] => junk | c :: _ => c end in
      let s' := match s with [] => [] | _ :: s' => s' end in
      match (if Ascii.eqb c "{" then matchbracket 1 s' else Ok s') with
      | Ok s'' => if Ascii.eqb c newline then Some (Ok (eatwhite s'')) else skip_line f junk s''
      | Err => Some Err
      | UB => Some UB
      end
  end.

(** s[0] of a std::string; '\0' if it is empty. *)
Definition front (t : text) : ascii := match t with [] => ascii_of_nat 0 | c :: _ => c end.

(** The outer loop of GotoGroup (input.cc:175-211). *)
Fixpoint group_loop (fuel : nat) (junk : ascii) (name : text) (s : text) : option (outcome (bool * text)) :=
  match fuel with
  | 0 => None
  | S f =>
      match gettoken s with
      | UB => Some UB
      | Err => Some Err
      | Ok None => Some (Ok (false, []))
      | Ok (Some (t, s1)) =>
          if text_eqb t name then
            let s2 := eatwhite s1 in
            let c := match s2 with [] => junk | c :: _ => c end in
            let s3 := match s2 with [] => [] | _ :: s3 => s3 end in
            if Ascii.eqb c "{" then Some (Ok (true, eatwhite s3)) else Some Err
          else
            match (if Ascii.eqb (front t) "{" then matchbracket 1 s1 else Ok s1) with
            | Ok s2 =>
                match skip_line f junk s2 with
                | None => None
                | Some (Ok s3) => group_loop f junk name s3
                | Some Err => Some Err
                | Some UB => Some UB
                end
            | Err => Some Err
            | UB => Some UB
            end
      end
  end.

(** InputGroup::GotoGroup (input.cc:168-212).  [path]: the names of the outermost parent first; the
    return value of the parent's GotoGroup is not looked at. *)
Fixpoint GotoGroup (fuel : nat) (junk : ascii) (path : list text) (s : text) : option (outcome (bool * text)) :=
  match path with
  | [] => Some (Ok (true, s))
  | name :: rest =>
      match group_loop fuel junk name (eatwhite s) with
      | Some (Ok (found, s')) =>
          match rest with [] => Some (Ok (found, s')) | _ => GotoGroup fuel junk rest s' end
      | Some Err => Some Err
      | Some UB => Some UB
      | None => None
      end
  end.

(** The inner loop of GotoToken (input.cc:242-253); None: the end of the file. *)
Fixpoint skip_item (fuel : nat) (s : text) : option (outcome (option text)) :=
  match fuel with
  | 0 => None
  | S f =>
      match s with
      | [] => Some (Ok None)
      | c :: s' =>
          if Ascii.eqb c newline || Ascii.eqb c "," || Ascii.eqb c ";" then Some (Ok (Some (eatwhite s')))
          else if Ascii.eqb c "{" then
            match matchbracket 1 s' with Ok s'' => skip_item f s'' | Err => Some Err | UB => Some UB end
          else skip_item f s'
      end
  end.

(** The outer loop of GotoToken (input.cc:218-254). *)
Fixpoint token_search (fuel : nat) (key : text) (s : text) : option (outcome (bool * text)) :=
  match fuel with
  | 0 => None
  | S f =>
      match gettoken s with
      | UB => Some UB
      | Err => Some Err
      | Ok None => Some (Ok (false, []))
      | Ok (Some (t, s1)) =>
          if Ascii.eqb (front t) "}" then Some (Ok (false, s1))
          else if text_eqb t key then
            match eatwhite s1 with
            | [] => Some (Ok (false, []))
            | c :: s2 => if Ascii.eqb c "=" then Some (Ok (true, eatwhite s2)) else Some (Ok (false, s2))
            end
          else
            match (if Ascii.eqb (front t) "{" then matchbracket 1 s1 else Ok s1) with
            | Ok s2 =>
                match skip_item f s2 with
                | None => None
                | Some (Ok None) => Some (Ok (false, []))
                | Some (Ok (Some s3)) => token_search f key s3
                | Some Err => Some Err
                | Some UB => Some UB
                end
            | Err => Some Err
            | UB => Some UB
            end
      end
  end.

(** InputGroup::GotoToken (input.cc:214-255). *)
Definition GotoToken (fuel : nat) (junk : ascii) (path : list text) (key : text) (file : text) : option (outcome (bool * text)) :=
  match GotoGroup fuel junk path file with
  | Some (Ok (true, s)) => token_search fuel key s
  | r => r
  end.

(** std::istream >> std::string: leading white space skipped, then up to the next white space. *)
Fixpoint word (s : text) : text := match s with [] => [] | c :: s' => if isspace c then [] else c :: word s' end.
Definition read_string (s : text) : option text := match word (eatwhite s) with [] => None | w => Some w end.

(** std::istream >> int: an optional sign and digits; out of range fails. *)
Fixpoint digits (s : text) : text := match s with [] => [] | c :: s' => if isdigit c then c :: digits s' else [] end.
Definition decimal (s : text) : Z := fold_left (fun n c => 10 * n + Z.of_nat (code c - 48))%Z s 0%Z.
Definition read_int (s : text) : option Z :=
  let s := eatwhite s in
  let '(sign, s) := match s with
                    | c :: s' => if Ascii.eqb c "-" then ((-1)%Z, s') else if Ascii.eqb c "+" then (1%Z, s') else (1%Z, s)
                    | [] => (1%Z, []) end in
  match digits s with
  | [] => None
  | d => let v := (sign * decimal d)%Z in
         if ((-2147483648 <=? v) && (v <=? 2147483647))%Z then Some v else None
  end.

Definition get {A} (rd : text -> option A) (r : option (outcome (bool * text))) : option (outcome (option A)) :=
  match r with
  | None => None
  | Some (Ok (true, s)) => Some (Ok (rd s))
  | Some (Ok (false, _)) => Some (Ok None)
  | Some Err => Some Err
  | Some UB => Some UB
  end.
(** GetInt, GetString (input.cc:257-270, 302-315): None is the return value 0. *)
Definition GetInt fuel junk path key file := get read_int (GotoToken fuel junk path key file).
Definition GetString fuel junk path key file := get read_string (GotoToken fuel junk path key file).
Definition read_yesno (s : text) : option bool :=
  match read_string s with
  | None => None
  | Some w =>
      let w := map tolower w in
      if text_eqb w (list_ascii_of_string "yes") || text_eqb w (list_ascii_of_string "y") || text_eqb w (list_ascii_of_string "true") then Some true
      else if text_eqb w (list_ascii_of_string "no") || text_eqb w (list_ascii_of_string "n") || text_eqb w (list_ascii_of_string "false") then Some false
      else None
  end.
(** GetYesNo (input.cc:317-344). *)
Definition GetYesNo fuel junk path key file := get read_yesno (GotoToken fuel junk path key file).
(** GetYesNo(string,bool&) (input.cc:346-356): the value the caller's variable [yes] has afterwards,
    and the return value. *)
Definition GetYesNo_bool fuel junk path key file (yes : bool) : option (outcome (bool * bool)) :=
  match GetYesNo fuel junk path key file with
  | None => None
  | Some (Ok (Some b)) => Some (Ok (b, true))
  | Some (Ok None) => Some (Ok (false, false))
  | Some Err => Some Err
  | Some UB => Some UB
  end.
(** getInt(s,def), getString(s,def), getYesNo(s,def) (input.cc:366-400). *)
Definition or_default {A} (def : A) (r : option (outcome (option A))) : option (outcome A) :=
  match r with
  | None => None
  | Some (Ok (Some a)) => Some (Ok a)
  | Some (Ok None) => Some (Ok def)
  | Some Err => Some Err
  | Some UB => Some UB
  end.
Definition getInt fuel junk path key def file := or_default def (GetInt fuel junk path key file).
Definition getString fuel junk path key def file := or_default def (GetString fuel junk path key file).
Definition getYesNo fuel junk path key def file := or_default def (GetYesNo fuel junk path key file).
(** getInt(s), getString(s), getYesNo(s) and the mandatory GetIntM ... (input.cc:402-468): error() if absent. *)
Definition mandatory {A} (r : option (outcome (option A))) : option (outcome A) :=
  match r with
  | None => None
  | Some (Ok (Some a)) => Some (Ok a)
  | Some (Ok None) => Some Err
  | Some Err => Some Err
  | Some UB => Some UB
  end.

(** SkipLine (input.cc:358-364): [c] is the character read last. *)
Fixpoint skipline_loop (fuel : nat) (c : ascii) (s : text) : option text :=
  match fuel with
  | 0 => None
  | S f =>
      if Ascii.eqb c newline then Some (eatwhite s)
      else match s with [] => skipline_loop f c [] | c' :: s' => skipline_loop f c' s' end
  end.
Definition SkipLine (fuel : nat) (s : text) : option text := skipline_loop fuel (ascii_of_nat 0) s.
