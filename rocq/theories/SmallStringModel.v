(** SmallString: the fixed-size name/tag type. itensor/smallstring.h *)
From Coq Require Import List NArith Bool.
From Coq Require Import Init.Byte Strings.Byte.
Import ListNotations.

(** itensor/smallstring.h:34-45. [name_] is an array of 8 chars of which the last is
    always the terminating '\0' (asserted at lines 57 and 210), so seven free bytes. *)
Record SmallString := mkSS
  { c0 : byte; c1 : byte; c2 : byte; c3 : byte; c4 : byte; c5 : byte; c6 : byte }.

(** itensor/smallstring.h:186-190, default constructor: fill('\0'). *)
Definition ss_empty : SmallString := mkSS x00 x00 x00 x00 x00 x00 x00.

(** The bytes name_[0..6] in order. *)
Definition ss_bytes (s : SmallString) : list byte :=
  [c0 s; c1 s; c2 s; c3 s; c4 s; c5 s; c6 s].

(** Rebuild from a byte list: missing bytes are '\0', bytes past the seventh ignored. *)
Definition ss_of_bytes (l : list byte) : SmallString :=
  let b n := nth n l x00 in mkSS (b 0) (b 1) (b 2) (b 3) (b 4) (b 5) (b 6).

(** C string length: bytes before the first '\0' (std::strlen). *)
Fixpoint c_str (l : list byte) : list byte :=
  match l with
  | [] => []
  | b :: t => if Byte.eqb b x00 then [] else b :: c_str t
  end.

(** itensor/smallstring.h:192-211, SmallString(const char* name): copies
    min(strlen(name),7) characters (release build: the DEBUG-only warning and the
    DEBUG-only ',' check are not modelled). *)
Definition ss_make (name : list byte) : SmallString :=
  ss_of_bytes (firstn 7 (c_str name)).

(** itensor/smallstring.h:70-71, operator int64_t: the 8 bytes reinterpreted as a
    little-endian 64-bit integer. The top byte is '\0', so the value is
    non-negative and fits N. Simplification: little-endian hosts. *)
Definition ss_key (s : SmallString) : N :=
  fold_right (fun b acc => Byte.to_N b + 256 * acc)%N 0%N (ss_bytes s).

(** itensor/smallstring.h:91-97, operator==: compare the first seven chars. *)
Definition ss_eqb (s t : SmallString) : bool :=
  forallb (fun p => Byte.eqb (fst p) (snd p)) (combine (ss_bytes s) (ss_bytes t)).

(** itensor/smallstring.h:105-109, operator<: compare as integers. *)
Definition ss_ltb (s t : SmallString) : bool := (ss_key s <? ss_key t)%N.

(** itensor/smallstring.h:111-115 *)
Definition ss_gtb (s t : SmallString) : bool := ss_ltb t s.

(** std::isdigit in the C locale *)
Definition is_digit (b : byte) : bool :=
  let n := Byte.to_N b in (48 <=? n)%N && (n <=? 57)%N.

(** strtol(_, NULL, 10) restricted to a string that starts with a digit: the value of
    the longest prefix of digits. *)
Fixpoint digits_value (acc : N) (l : list byte) : N :=
  match l with
  | [] => acc
  | b :: t => if is_digit b then digits_value (10 * acc + (Byte.to_N b - 48)) t else acc
  end.

(** itensor/smallstring.h:81-89, toInt: -1 (here None) unless the first char is a digit
    and all later ones are digits or '\0'; strtol stops at the first '\0'. *)
Definition ss_toInt (s : SmallString) : option N :=
  match ss_bytes s with
  | b :: t =>
    if negb (is_digit b) then None
    else if forallb (fun c => is_digit c || Byte.eqb c x00) t
         then Some (digits_value 0 (b :: t))
         else None
  | [] => None
  end.
