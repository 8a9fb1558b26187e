(** Named arguments as maps from names to values, independently of how they are stored. *)
From Coq Require Import List Arith Bool Ascii QArith.
From Verif Require Import Util InfArrayModel ArgsModel.
Import ListNotations.
Local Open Scope nat_scope.

Definition amap := str -> option aval.
Definition amap_empty : amap := fun _ => None.
Definition amap_set (n : str) (v : aval) (m : amap) : amap := fun k => if seqb n k then Some v else m k.
Definition amap_del (n : str) (m : amap) : amap := fun k => if seqb n k then None else m k.
(** entries of the second map win *)
Definition amap_over (m m' : amap) : amap := fun k => match m' k with Some v => Some v | None => m k end.

Definition proper_name (n : str) : Prop :=
  forall c, last n "x"%char = c -> c <> "="%char /\ c <> " "%char.

(** Everything a program can do to Args objects; the map records what it should contain.
    Excluded: remove while exactly eight names are stored (see C27_remove_eighth_refuted). *)
Inductive built : Args -> amap -> Prop :=
| built_new : built args_new amap_empty
| built_add s m n v s' : built s m -> v <> ANone -> args_add s (val_make n v) = Ok s' ->
    built s' (amap_set (chopSpaceEq n) v m)
| built_remove s m n s' : built s m -> ia_size s <> 8 -> args_remove s n = Ok s' ->
    built s' (amap_del n m)
| built_copy s m : built s m -> built (args_copy false s) m
| built_assign s m t m' : built s m -> built t m' -> built (args_assign s false t) m'
| built_merge s m t m' s' : built s m -> built t m' -> args_merge s t = Ok s' ->
    built s' (amap_over m m').

(** The value written after '=' in an argument string. *)
Definition text_value (strtod : str -> option Q) (v : str) : option aval :=
  match v with
  | [] => None
  | f :: _ =>
    if is_digit f || ceqb f "-"%char || ceqb f "+"%char
    then match strtod v with Some d => Some (ANum d) | None => None end
    else if seqb v s_true then Some (ABool true)
    else if seqb v s_false then Some (ABool false)
    else Some (AStr v)
  end.
(** Plain text: non-empty, no space, comma or equals sign. *)
Definition plain (s : str) : Prop := s <> [] /\ ~ In " "%char s /\ ~ In ","%char s /\ ~ In "="%char s.
(** "n1=v1,n2=v2,...,nk=vk" *)
Fixpoint args_text (l : list (str * str)) : str :=
  match l with
  | [] => []
  | [(n, v)] => n ++ ["="%char] ++ v
  | (n, v) :: r => n ++ ["="%char] ++ v ++ [","%char] ++ args_text r
  end.
