(** Specification of tag sets: a mathematical set of tags with an optional integer. *)
From Coq Require Import List ZArith Bool.
From Coq Require Import Init.Byte.
From Verif Require Import Util SmallStringModel SmallStringProofs TagSetModel.
Import ListNotations.

(** Abstract value: a set of tags (as a predicate) and an integer level
    (negative = no integer tag). *)
Record ASet := mkA { a_mem : Tag -> Prop; a_lev : Z }.

(** What the user sees of a TagSet: [t] is one of its tags ... *)
Definition tag_in (ts : TagSet) (t : Tag) : Prop := exists i, i < ts_size ts /\ ts_at ts i = t.
(** ... and the abstract value it stands for. *)
Definition abs (ts : TagSet) : ASet := mkA (tag_in ts) (ts_plev ts).

Definition aeq (a b : ASet) : Prop := a_lev a = a_lev b /\ forall t, a_mem a t <-> a_mem b t.

(** A tag that is a number, e.g. "2", denotes a level; the empty tag denotes nothing. *)
Definition a_addTag (t : Tag) (a : ASet) : ASet :=
  match ss_toInt t with
  | Some n => mkA (a_mem a) (Z.of_N n)
  | None => mkA (fun x => a_mem a x \/ (x = t /\ t <> ss_empty)) (a_lev a)
  end.
Definition a_addTags (b : ASet) (a : ASet) : ASet := mkA (fun x => a_mem a x \/ a_mem b x) (a_lev a).
Definition a_removeTag (t : Tag) (a : ASet) : ASet := mkA (fun x => a_mem a x /\ x <> t) (a_lev a).
Definition a_removeTags (b : ASet) (a : ASet) : ASet := mkA (fun x => a_mem a x /\ ~ a_mem b x) (a_lev a).
Definition a_setTags (b : ASet) (a : ASet) : ASet := mkA (a_mem b) (Z.max 0 (a_lev b)).
Definition a_noTags (a : ASet) : ASet := mkA (fun _ => False) 0%Z.
Definition a_setPrime (p : Z) (a : ASet) : ASet := mkA (a_mem a) p.
Definition a_prime (n : Z) (a : ASet) : ASet := mkA (a_mem a) (a_lev a + n)%Z.
Definition a_incl (b a : ASet) : Prop :=
  (forall t, a_mem b t -> a_mem a t) /\ ((0 <= a_lev b)%Z -> a_lev a = a_lev b).

(** One call of the public interface. TagSet arguments are themselves TagSets built by
    the interface. *)
Inductive tag_op :=
| OAddTag (t : Tag) | OAddTags (ts : TagSet) | ORemoveTag (t : Tag) | ORemoveTags (ts : TagSet)
| OSetTags (ts : TagSet) | ONoTags | OReplace (r a : TagSet) | OSetPrime (p : Z) | OPrime (n : Z).

(** The code. *)
Definition run_op (o : tag_op) (T : TagSet) : outcome TagSet :=
  match o with
  | OAddTag t => addTag T t
  | OAddTags ts => addTags T ts
  | ORemoveTag t => removeTag T t
  | ORemoveTags ts => removeTags T ts
  | OSetTags ts => Ok (setTags T ts)
  | ONoTags => Ok (noTags T)
  | OReplace r a => replaceTags T r a
  | OSetPrime p => Ok (ts_setPrime T p)
  | OPrime n => Ok (ts_prime T n)
  end.
Fixpoint run_ops (l : list tag_op) (T : TagSet) : outcome TagSet :=
  match l with
  | [] => Ok T
  | o :: l' => obind (run_op o T) (run_ops l')
  end.

(** The meaning of one call on the abstract value (a relation because replaceTags depends
    on whether the removed tags are all present). *)
Inductive a_step : tag_op -> ASet -> ASet -> Prop :=
| as_add t a : a_step (OAddTag t) a (a_addTag t a)
| as_adds ts a : a_step (OAddTags ts) a (a_addTags (abs ts) a)
| as_rem t a : a_step (ORemoveTag t) a (a_removeTag t a)
| as_rems ts a : a_step (ORemoveTags ts) a (a_removeTags (abs ts) a)
| as_set ts a : a_step (OSetTags ts) a (a_setTags (abs ts) a)
| as_no a : a_step ONoTags a (a_noTags a)
| as_rep_yes r d a : a_incl (abs r) a ->
    a_step (OReplace r d) a
      (a_addTags (abs d) (a_removeTags (abs r)
         (if (0 <=? a_lev (abs r))%Z then a_setPrime (a_lev (abs d)) a else a)))
| as_rep_no r d a : ~ a_incl (abs r) a -> a_step (OReplace r d) a a
| as_setp p a : a_step (OSetPrime p) a (a_setPrime p a)
| as_prime n a : a_step (OPrime n) a (a_prime n a).

Inductive a_steps : list tag_op -> ASet -> ASet -> Prop :=
| ass_nil a : a_steps [] a a
| ass_cons o l a b c : a_step o a b -> a_steps l b c -> a_steps (o :: l) a c.

(** TagSets a program can hold: start from TagSet(), apply calls that return normally,
    with arguments of the same kind. *)
Inductive api_tagset : TagSet -> Prop :=
| api_new : api_tagset ts_new
| api_op o T T' : api_tagset T -> api_args o -> run_op o T = Ok T' -> api_tagset T'
with api_args : tag_op -> Prop :=
| aa_add t : api_args (OAddTag t)
| aa_adds ts : api_tagset ts -> api_args (OAddTags ts)
| aa_rem t : api_args (ORemoveTag t)
| aa_rems ts : api_tagset ts -> api_args (ORemoveTags ts)
| aa_set ts : api_tagset ts -> api_args (OSetTags ts)
| aa_no : api_args ONoTags
| aa_rep r a : api_tagset r -> api_tagset a -> api_args (OReplace r a)
| aa_setp p : api_args (OSetPrime p)
| aa_prime n : api_args (OPrime n).

(** Splitting of the text of a tag set: pieces between commas with the spaces dropped. *)
Fixpoint split_comma (s : list byte) : list (list byte) :=
  match s with
  | [] => [[]]
  | c :: s' => match split_comma s' with
               | [] => [[]]
               | p :: ps => if Byte.eqb c comma then [] :: p :: ps else (c :: p) :: ps
               end
  end.
Definition strip_spaces (p : list byte) : list byte := filter (fun c => negb (Byte.eqb c space)) p.
Definition text_tags (s : list byte) : list Tag := map (fun p => ss_of_bytes (strip_spaces p)) (split_comma s).
