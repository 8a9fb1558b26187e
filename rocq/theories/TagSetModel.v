(** Tag sets. itensor/tagset.h, itensor/tagset.cc *)
From Coq Require Import List ZArith Bool.
From Coq Require Import Init.Byte.
From Verif Require Import Util SmallStringModel.
Import ListNotations.

(** itensor/tagset.h:24 *)
Definition Tag := SmallString.

(** itensor/global.h:63 *)
Definition MAX_TAGS : nat := 4.

(** itensor/tagset.h:32-43. [ts_tags] has MAX_TAGS slots (lemma [ts_wf]); only the first
    [ts_size] are in use, the others may hold stale tags. *)
Record TagSet := mkTS { ts_tags : list Tag; ts_plev : Z; ts_size : nat }.

(** itensor/tagset.h:39-43, TagSet() *)
Definition ts_new : TagSet := mkTS (repeat ss_empty MAX_TAGS) (-1)%Z 0.

(** itensor/tagset.h:53-58, ts[i] for i < MAX_TAGS *)
Definition ts_at (ts : TagSet) (i : nat) : Tag := nth i (ts_tags ts) ss_empty.

(** itensor/tagset.h:63-64 *)
Definition ts_setPrime (ts : TagSet) (p : Z) : TagSet := mkTS (ts_tags ts) p (ts_size ts).
(** itensor/tagset.h:66-67 *)
Definition ts_prime (ts : TagSet) (inc : Z) : TagSet := mkTS (ts_tags ts) (ts_plev ts + inc)%Z (ts_size ts).

(** itensor/tagset.cc:43-53, operator== *)
Definition ts_eqb (a b : TagSet) : bool :=
  Z.eqb (ts_plev a) (ts_plev b) && Nat.eqb (ts_size a) (ts_size b)
  && forallb (fun i => ss_eqb (ts_at a i) (ts_at b i)) (seq 0 (ts_size a)).

(** itensor/tagset.cc:90-98, tagPosition; None for -1 *)
Fixpoint pos_from (t : Tag) (k i : nat) (tags : list Tag) : option nat :=
  match k with
  | O => None
  | S k' => if ss_eqb t (nth i tags ss_empty) then Some i else pos_from t k' (S i) tags
  end.
Definition tagPosition (ts : TagSet) (t : Tag) : option nat :=
  pos_from t (ts_size ts) 0 (ts_tags ts).

(** itensor/tagset.cc:100-107, hasTags *)
Definition ts_hasTags (T ts : TagSet) : bool :=
  if (Z.leb 0 (ts_plev ts) && negb (Z.eqb (ts_plev T) (ts_plev ts)))%bool then false
  else forallb (fun i => match tagPosition T (ts_at ts i) with Some _ => true | None => false end)
         (seq 0 (ts_size ts)).

(** itensor/tagset.cc:131-137, the insertion loop: i counts down from size_ *)
Fixpoint insert_tag_loop (t : Tag) (i : nat) (tags : list Tag) : list Tag :=
  match i with
  | O => upd 0 t tags
  | S p => if ss_gtb t (nth p tags ss_empty) then upd i t tags
           else insert_tag_loop t p (upd i (nth p tags ss_empty) tags)
  end.

(** itensor/tagset.cc:117-141, addTag. [Err]: the exception of line 123 or the abort of
    line 128. *)
Definition addTag (ts : TagSet) (t : Tag) : outcome TagSet :=
  match ss_toInt t with
  | Some plev =>
    if Z.ltb 0 (ts_plev ts) then Err else Ok (mkTS (ts_tags ts) (Z.of_N plev) (ts_size ts))
  | None =>
    if Nat.eqb (ts_size ts) MAX_TAGS then Err
    else match tagPosition ts t with
         | Some _ => Ok ts
         | None =>
           if ss_eqb t ss_empty then Ok ts
           else Ok (mkTS (insert_tag_loop t (ts_size ts) (ts_tags ts)) (ts_plev ts) (S (ts_size ts)))
         end
  end.

(** loop "for i : range(ts.size()) this->addTag(ts[i])" of tagset.cc:147-148 and 217-218 *)
Fixpoint addTag_list (ts : TagSet) (l : list Tag) : outcome TagSet :=
  match l with
  | [] => Ok ts
  | t :: l' => obind (addTag ts t) (fun ts' => addTag_list ts' l')
  end.

(** The tags ts[0..size-1]. *)
Definition ts_list (ts : TagSet) : list Tag := map (ts_at ts) (seq 0 (ts_size ts)).

(** itensor/tagset.cc:143-149, addTags *)
Definition addTags (T ts : TagSet) : outcome TagSet :=
  if Z.leb 0 (ts_plev ts) then Err else addTag_list T (ts_list ts).

(** itensor/tagset.cc:164-165: for(i = loc; i < size_; ++i) tags_[i] = tags_[i+1].
    Reading tags_[MAX_TAGS] is outside the array: UB. [k] = iterations left. *)
Fixpoint remove_loop (k i : nat) (tags : list Tag) : outcome (list Tag) :=
  match k with
  | O => Ok tags
  | S k' => obind (oget tags (S i)) (fun t =>
            obind (oupd i t tags) (fun tags' => remove_loop k' (S i) tags'))
  end.

(** itensor/tagset.cc:158-168, removeTag *)
Definition removeTag (ts : TagSet) (t : Tag) : outcome TagSet :=
  match tagPosition ts t with
  | None => Ok ts
  | Some loc =>
    obind (remove_loop (ts_size ts - loc) loc (ts_tags ts)) (fun tags =>
    Ok (mkTS tags (ts_plev ts) (ts_size ts - 1)))
  end.

Fixpoint removeTag_list (ts : TagSet) (l : list Tag) : outcome TagSet :=
  match l with
  | [] => Ok ts
  | t :: l' => obind (removeTag ts t) (fun ts' => removeTag_list ts' l')
  end.

(** itensor/tagset.cc:170-176, removeTags *)
Definition removeTags (T ts : TagSet) : outcome TagSet :=
  if Z.leb 0 (ts_plev ts) then Err else removeTag_list T (ts_list ts).

(** itensor/tagset.cc:178-187, setTags: copies max(size_,ts.size()) slots *)
Definition setTags (T ts : TagSet) : TagSet :=
  let m := Nat.max (ts_size T) (ts_size ts) in
  mkTS (firstn m (ts_tags ts) ++ skipn m (ts_tags T))
       (if Z.ltb (ts_plev ts) 0 then 0%Z else ts_plev ts) (ts_size ts).

(** itensor/tagset.cc:189-194, noTags *)
Definition noTags (T : TagSet) : TagSet := mkTS (ts_tags T) 0%Z 0.

(** itensor/tagset.cc:203-219, replaceTags *)
Definition replaceTags (T tsremove tsadd : TagSet) : outcome TagSet :=
  let plremove := ts_plev tsremove in
  let pladd := ts_plev tsadd in
  if ((Z.leb 0 pladd && Z.ltb plremove 0) || (Z.ltb pladd 0 && Z.leb 0 plremove))%bool then Err
  else if negb (ts_hasTags T tsremove) then Ok T
  else
    let T1 := if Z.leb 0 plremove then mkTS (ts_tags T) pladd (ts_size T) else T in
    obind (removeTag_list T1 (ts_list tsremove)) (fun T2 => addTag_list T2 (ts_list tsadd)).

(** itensor/tagset.cc:61-88, TagSet(const char pointer): [cur] holds the characters of the tag
    being read (j = length cur). t.set(7,..) would overwrite the terminating '\0' (and
    j > 7 lies outside the array); both are modelled as UB (release build: the check of
    line 78 is DEBUG only). *)
Definition comma : byte := x2c.
Definition space : byte := x20.
Fixpoint parse_loop (ts : TagSet) (cur : list byte) (s : list byte) : outcome TagSet :=
  match s with
  | [] => addTag ts (ss_of_bytes cur)
  | c :: s' =>
    if Byte.eqb c comma then obind (addTag ts (ss_of_bytes cur)) (fun ts' => parse_loop ts' [] s')
    else if Byte.eqb c space then parse_loop ts cur s'
    else if Nat.leb 7 (length cur) then UB
    else parse_loop ts (cur ++ [c]) s'
  end.
Definition ts_parse (s : list byte) : outcome TagSet := parse_loop ts_new [] s.

(** itensor/tagset.cc:264-285: write emits all MAX_TAGS slots and the prime level; read
    adds each slot to the target and sets the prime level. Composition of the two
    (the byte encoding itself is in SerializeModel.v). *)
Definition ts_read_from (written : TagSet) (target : TagSet) : outcome TagSet :=
  obind (addTag_list target (ts_tags written)) (fun ts => Ok (ts_setPrime ts (ts_plev written))).
