(** Specification vocabulary for indices and index sets. *)
From Coq Require Import List ZArith Bool.
From Verif Require Import Util SmallStringModel TagSetModel TagSetSpec QnModel IndexModel.
Import ListNotations.

(** An index a program can hold: its tags were built through the TagSet interface. *)
Definition valid (J : index) : Prop := api_tagset (ix_tags J).

(** Two Index objects stand for the same index: same id, prime level and tags. *)
Definition same (a b : index) : Prop :=
  ix_id a = ix_id b /\ ix_level a = ix_level b /\ forall t, tag_in (ix_tags a) t <-> tag_in (ix_tags b) t.

(** [is] has an index that is the same as K. *)
Definition has (is : list index) (K : index) : Prop := exists J, In J is /\ same J K.

(** No two positions hold the same index. *)
Definition distinct (is : list index) : Prop :=
  forall m n a b, nth_error is m = Some a -> nth_error is n = Some b -> m <> n -> ~ same a b.

(** Same object up to the tags and prime level. *)
Definition same_object (a b : index) : Prop :=
  ix_id a = ix_id b /\ ix_dim a = ix_dim b /\ ix_dir a = ix_dir b /\ ix_qns a = ix_qns b.

(** A list obtained by leaving out elements, keeping the order. *)
Inductive sublist {A} : list A -> list A -> Prop :=
| sub_nil : sublist [] []
| sub_skip x l l' : sublist l l' -> sublist l (x :: l')
| sub_keep x l l' : sublist l l' -> sublist (x :: l) (x :: l').

(** Which indices an operation with this selector is meant to touch. *)
Definition selected (s : selector) (J : index) : Prop :=
  match s with
  | SAll => True
  | SInds sel => has sel J
  | STags ts => a_incl (abs ts) (abs (ix_tags J))
  end.
Definition valid_selector (s : selector) : Prop :=
  match s with
  | SAll => True
  | SInds sel => Forall valid sel /\ distinct sel
  | STags ts => api_tagset ts
  end.

(** The meaning of an operation on the tags and level of one index. *)
Definition a_iop (o : iop) (a a' : ASet) : Prop :=
  match o with
  | IAddTags ts => a_step (OAddTags ts) a a'
  | IRemoveTags ts => a_step (ORemoveTags ts) a a'
  | ISetTags ts => a_step (OSetTags ts) a a'
  | INoTags => a_step ONoTags a a'
  | IReplaceTags t1 t2 => a_step (OReplace t1 t2) a a'
  | ISetPrime p => a_step (OSetPrime p) a a'
  | IPrime n => a_step (OPrime n) a a'
  | IMapPrime p1 p2 => a' = (if (a_lev a =? p1)%Z then a_setPrime p2 a else a)
  end.
Definition effect (o : iop) (J J' : index) : Prop :=
  same_object J J' /\ valid J' /\ exists a', a_iop o (abs (ix_tags J)) a' /\ aeq (abs (ix_tags J')) a'.
Definition valid_iop (o : iop) : Prop :=
  match o with
  | IAddTags ts | IRemoveTags ts | ISetTags ts => api_tagset ts
  | IReplaceTags t1 t2 => api_tagset t1 /\ api_tagset t2
  | _ => True
  end.
