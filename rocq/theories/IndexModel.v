(** Model of Index and IndexSet: itensor/index.h, index.cc, indexset.h, indexset_impl.h, indexset.cc,
    and of ITensor::replaceInds (itensor.cc) on index lists.

    Simplifications: an IndexSet is the list of its indices (extents and strides are functions of
    it); [dbg] says whether the library was built with DEBUG, which enables its checks; an
    operation that throws is [Err], whatever it changed before is not described (except for
    replaceInds); a null block pointer is the empty block list, as nblock() reports it. *)
From Coq Require Import List ZArith Bool Lia Arith.
From Coq Require Import Init.Byte.
From Verif Require Import Util SmallStringModel TagSetModel TagSetSpec QnModel.
Import ListNotations.
Open Scope outcome_scope.

(** index.h:84-105 *)
Record index := Ix { ix_id : N; ix_dim : Z; ix_dir : Arrow; ix_qns : list (QN * Z); ix_tags : TagSet }.

Definition with_tags (J : index) (ts : TagSet) : index := Ix (ix_id J) (ix_dim J) (ix_dir J) (ix_qns J) ts.
Definition with_dir (J : index) (d : Arrow) : index := Ix (ix_id J) (ix_dim J) d (ix_qns J) (ix_tags J).

(** Conversion of long to the 32-bit extent_type (index.h:94,100; index.cc:68). *)
Definition to_int (z : Z) : Z := (((z + 2147483648) mod 4294967296) - 2147483648)%Z.

(** if(primeLevel() < 0) setPrime(0) (index.cc:71 and the other constructors). *)
Definition fix_level (ts : TagSet) : TagSet := if (ts_plev ts <? 0)%Z then ts_setPrime ts 0 else ts.

(** Index(long,TagSet) (index.cc:64-72); [id] is the generated id. *)
Definition ix_new (id : N) (m : Z) (ts : TagSet) : index := Ix id (to_int m) ArrOut [] (fix_level ts).

(** totalM and Index(qnstorage,Arrow,TagSet) (index.cc:651-681). *)
Definition totalM (qs : list (QN * Z)) : Z := fold_left (fun tm q => (tm + snd q)%Z) qs 0%Z.
Definition ix_newQN (id : N) (qs : list (QN * Z)) (d : Arrow) (ts : TagSet) : index :=
  Ix id (to_int (totalM qs)) d qs (fix_level ts).

(** Index() (index.cc:54-62) and operator bool (index.cc:137-138). *)
Definition ix_default : index := Ix 0 1 ArrOut [] (ts_setPrime ts_new 0).
Definition ix_bool (J : index) : bool := negb (ix_id J =? 0)%N.

Definition ix_level (J : index) : Z := ts_plev (ix_tags J).

(** Index::setPrime, noPrime, prime (index.cc:99-134). *)
Definition level_check (dbg : bool) (J : index) : outcome index :=
  if dbg && (ix_level J <? 0)%Z then Err else Ok J.
Definition ix_setPrime (dbg : bool) (p : Z) (J : index) : outcome index :=
  level_check dbg (with_tags J (ts_setPrime (ix_tags J) p)).
Definition ix_noPrime (J : index) : index := with_tags J (ts_setPrime (ix_tags J) 0).
Definition ix_prime (dbg : bool) (n : Z) (J : index) : outcome index :=
  level_check dbg (with_tags J (ts_prime (ix_tags J) n)).

(** Index::addTags, removeTags, setTags, noTags, replaceTags (index.h:150-166). *)
Definition ix_addTags (ts : TagSet) (J : index) : outcome index := omap (with_tags J) (addTags (ix_tags J) ts).
Definition ix_removeTags (ts : TagSet) (J : index) : outcome index := omap (with_tags J) (removeTags (ix_tags J) ts).
Definition ix_setTags (ts : TagSet) (J : index) : outcome index := Ok (with_tags J (setTags (ix_tags J) ts)).
Definition ix_noTags (J : index) : outcome index := Ok (with_tags J (noTags (ix_tags J))).
Definition ix_replaceTags (t1 t2 : TagSet) (J : index) : outcome index := omap (with_tags J) (replaceTags (ix_tags J) t1 t2).

(** Index::dag (index.h:223-224), removeQNs (index.h:277), sim (index.h:229-235; [id] generated). *)
Definition ix_dag (J : index) : index := with_dir J (arrow_neg (ix_dir J)).
Definition ix_removeQNs (J : index) : index := Ix (ix_id J) (ix_dim J) (ix_dir J) [] (ix_tags J).
Definition ix_sim (id : N) (J : index) : index := Ix id (ix_dim J) (ix_dir J) (ix_qns J) (ix_tags J).

(** operator== and operator< (index.cc:151-155, 278-287). *)
Definition ix_eqb (a b : index) : bool := (ix_id a =? ix_id b)%N && ts_eqb (ix_tags a) (ix_tags b).
Definition ix_ltb (a b : index) : bool :=
  if (ix_dim a =? ix_dim b)%Z then
    if (ix_id a =? ix_id b)%N then (ix_level a <? ix_level b)%Z else (ix_id a <? ix_id b)%N
  else (ix_dim a <? ix_dim b)%Z.

(** hasTags(Index,TagSet) (index.cc:230-231). *)
Definition ix_hasTags (J : index) (ts : TagSet) : bool := ts_hasTags (ix_tags J) ts.

(** ** IndexSet *)

(** checkIndexSet (indexset.cc:20-31), called under DEBUG only. *)
Fixpoint has_dup (is : list index) : bool :=
  match is with [] => false | J :: is' => existsb (fun K => ix_eqb J K) is' || has_dup is' end.
Definition checked (dbg : bool) (is : list index) : outcome (list index) :=
  if dbg && has_dup is then Err else Ok is.

(** indexPosition (indexset.cc:383-391): None stands for -1. *)
Fixpoint indexPosition (is : list index) (K : index) : option nat :=
  match is with
  | [] => None
  | J :: is' => if ix_eqb J K then Some 0 else option_map S (indexPosition is' K)
  end.
(** checkIndexPositions (indexset.cc:33-42), indexPositions (indexset.cc:394-408). *)
Fixpoint dup_nat (l : list nat) : bool :=
  match l with [] => false | n :: l' => existsb (Nat.eqb n) l' || dup_nat l' end.
Definition positions (is sel : list index) : list nat :=
  flat_map (fun K => match indexPosition is K with Some p => [p] | None => [] end) sel.
Definition indexPositions (dbg : bool) (is sel : list index) : outcome (list nat) :=
  let l := positions is sel in if dbg && dup_nat l then Err else Ok l.

Section Selected.
Context (dbg : bool) (f : index -> outcome index).

(** for(auto& J : *this) f(J) *)
Fixpoint each (is : list index) : outcome (list index) :=
  match is with
  | [] => Ok []
  | J :: is' => let! J' := f J in let! r := each is' in Ok (J' :: r)
  end.
(** for(auto& J : *this) if(hasTags(J,tsmatch)) f(J) *)
Fixpoint each_tags (ts : TagSet) (is : list index) : outcome (list index) :=
  match is with
  | [] => Ok []
  | J :: is' => let! J' := (if ix_hasTags J ts then f J else Ok J) in
                let! r := each_tags ts is' in Ok (J' :: r)
  end.
(** for(auto i : ilocs) f(parent::index(i)) *)
Fixpoint each_pos (l : list nat) (is : list index) : outcome (list index) :=
  match l with
  | [] => Ok is
  | p :: l' => let! J := oget is p in let! J' := f J in let! is' := oupd p J' is in each_pos l' is'
  end.
End Selected.

(** The three overloads of every tag or prime operation (indexset.cc:78-340):
    on all indices, on those of an IndexSet, on those that have given tags. *)
Inductive selector := SAll | SInds (sel : list index) | STags (ts : TagSet).

(** What is done to a selected index; mapPrime is indexset.cc:276-310, the others act through Index. *)
Inductive iop :=
| IAddTags (ts : TagSet) | IRemoveTags (ts : TagSet) | ISetTags (ts : TagSet) | INoTags
| IReplaceTags (t1 t2 : TagSet) | ISetPrime (p : Z) | IPrime (n : Z) | IMapPrime (p1 p2 : Z).
Definition ix_op (dbg : bool) (o : iop) (J : index) : outcome index :=
  match o with
  | IAddTags ts => ix_addTags ts J
  | IRemoveTags ts => ix_removeTags ts J
  | ISetTags ts => ix_setTags ts J
  | INoTags => ix_noTags J
  | IReplaceTags t1 t2 => ix_replaceTags t1 t2 J
  | ISetPrime p => ix_setPrime dbg p J
  | IPrime n => ix_prime dbg n J
  | IMapPrime p1 p2 => if (ix_level J =? p1)%Z then ix_setPrime dbg p2 J else Ok J
  end.

(** e.g. IndexSet::addTags (indexset.cc:150-183), IndexSet::prime (indexset.cc:312-340). *)
Definition is_op (dbg : bool) (o : iop) (s : selector) (is : list index) : outcome (list index) :=
  let! r := match s with
            | SAll => each (ix_op dbg o) is
            | SInds sel => let! l := indexPositions dbg is sel in each_pos (ix_op dbg o) l is
            | STags ts => each_tags (ix_op dbg o) ts is
            end in
  checked dbg r.

(** The temporary tag "df4sd32" and level 431543 (indexset_impl.h:30, 35, 59). *)
Definition temp_tag : Tag := ss_make [x64; x66; x34; x73; x64; x33; x32].
Definition temp_level : Z := 431543.
Definition temp_ts (lev : bool) : TagSet :=
  mkTS (temp_tag :: repeat ss_empty 3) (if lev then temp_level else -1)%Z 1.

(** IndexSet::swapTags (indexset_impl.h:20-50). *)
Definition swapTags (dbg : bool) (t1 t2 : TagSet) (s : selector) (is : list index) : outcome (list index) :=
  let! tmp := (if (ts_plev t1 <? 0)%Z
               then if (0 <=? ts_plev t2)%Z then Err else Ok (temp_ts false)
               else if (ts_plev t2 <? 0)%Z then Err else Ok (temp_ts true)) in
  if dbg && existsb (fun J => ix_hasTags J tmp) is then Err else
  let! is1 := is_op dbg (IReplaceTags t1 tmp) s is in
  let! is2 := is_op dbg (IReplaceTags t2 t1) s is1 in
  is_op dbg (IReplaceTags tmp t2) SAll is2.

(** IndexSet::swapPrime (indexset_impl.h:52-74). *)
Definition swapPrime (dbg : bool) (p1 p2 : Z) (s : selector) (is : list index) : outcome (list index) :=
  if dbg && existsb (fun J => (ix_level J =? temp_level)%Z) is then Err else
  let! is1 := is_op dbg (IMapPrime p1 temp_level) s is in
  let! is2 := is_op dbg (IMapPrime p2 p1) s is1 in
  is_op dbg (IMapPrime temp_level p2) SAll is2.

(** hasIndex, hasInds, hasSameInds, equals (indexset.cc:410-446). *)
Definition hasIndex (is : list index) (K : index) : bool := existsb (fun J => ix_eqb J K) is.
Definition hasInds (is sel : list index) : bool := forallb (hasIndex is) sel.
Definition hasSameInds (is1 is2 : list index) : bool := (length is1 =? length is2) && hasInds is1 is2.
Fixpoint equals_loop (is1 is2 : list index) : bool :=
  match is1, is2 with
  | J :: is1', K :: is2' => if ix_eqb J K then equals_loop is1' is2' else false
  | _, _ => true
  end.
Definition equals (is1 is2 : list index) : bool :=
  if negb (length is2 =? length is1) then false else equals_loop is1 is2.

(** findInds, findIndsExcept, findIndex (indexset.cc:548-588). *)
Definition findInds (is : list index) (ts : TagSet) : list index := filter (fun J => ix_hasTags J ts) is.
Definition findIndsExcept (is : list index) (ts : TagSet) : list index := filter (fun J => negb (ix_hasTags J ts)) is.
Definition findIndex (is : list index) (ts : TagSet) : outcome index :=
  match findInds is ts with [] => Ok ix_default | [J] => Ok J | _ => Err end.

(** commonInds, unionInds, uniqueInds, noncommonInds (indexset.cc:590-676). *)
Definition commonInds (is1 is2 : list index) : list index := filter (hasIndex is2) is1.
Definition unionInds (is1 is2 : list index) : list index := is1 ++ filter (fun J => negb (hasIndex is1 J)) is2.
Definition unionInds_vec (iss : list (list index)) : list index := concat iss.
Definition unionInds_ind (J : index) (is : list index) : list index := J :: filter (fun K => negb (ix_eqb K J)) is.
Definition unionInds_last (is : list index) (J : index) : list index := filter (fun K => negb (ix_eqb K J)) is ++ [J].
Definition uniqueInds (is1 is2 : list index) : list index := filter (fun J => negb (hasIndex is2 J)) is1.
Definition uniqueInds_vec (is1 : list index) (iss : list (list index)) : list index := uniqueInds is1 (unionInds_vec iss).
Definition noncommonInds (is1 is2 : list index) : list index := unionInds (uniqueInds is1 is2) (uniqueInds is2 is1).

(** sim(IndexSet), sim(IndexSet,IndexSet), sim(IndexSet,TagSet) (indexset.cc:342-348, 474-494); [fresh] are
    the generated ids. *)
Fixpoint sim_where (sel : index -> bool) (fresh : list N) (is : list index) : list index :=
  match is with
  | [] => []
  | J :: is' => if sel J
                then match fresh with
                     | id :: fresh' => ix_sim id J :: sim_where sel fresh' is'
                     | [] => J :: sim_where sel [] is' (* not reached: one id per index *)
                     end
                else J :: sim_where sel fresh is'
  end.

(** ** ITensor::replaceInds (itensor.cc:681-721) on a dense tensor *)

Definition replace_temp : Z := 43218432.

(** T *= delta(J,Jnew) when exactly J is an index of T: isReplaceDelta (diag.cc:128-141) holds and
    contractISReplaceIndex (indexset_impl.h:130-153) puts Jnew in J's place; the storage is kept.
    Any other case is not modelled (UB). *)
Definition times_delta (is : list index) (J Jnew : index) : outcome (list index) :=
  if hasIndex is J && negb (hasIndex is Jnew)
  then Ok (map (fun K => if ix_eqb K J then Jnew else K) is) else UB.

(** The inner loop over i (itensor.cc:696-714): the first i with is1[i] == J.  Jnew's arrow is set
    opposite to that of dag(J). *)
Fixpoint replace_one (is1 is2p is2 : list index) (J : index) (cur : list index) : outcome (list index) :=
  match is1, is2p, is2 with
  | K :: is1', Kp :: is2p', K2 :: is2' =>
      if ix_bool K && ix_eqb J K then
        if negb (ix_dim J =? ix_dim K2)%Z then Err else
        let Jd := ix_dag J in
        let Jnew := if match ix_dir Jd, ix_dir Kp with
                       | ArrIn, ArrIn | ArrOut, ArrOut | ArrNeither, ArrNeither => true | _, _ => false end
                    then ix_dag Kp else Kp in
        times_delta cur Jd Jnew
      else replace_one is1' is2p' is2' J cur
  | _, _, _ => Ok cur
  end.
(** The outer loop (itensor.cc:694-715); the second component is the tensor's index list when the
    call stops with an error. *)
Fixpoint replace_loop (is1 is2p is2 isT cur : list index) : outcome (list index) * list index :=
  match isT with
  | [] => (Ok cur, cur)
  | J :: isT' => match replace_one is1 is2p is2 J cur with
                 | Ok cur' => replace_loop is1 is2p is2 isT' cur'
                 | o => (o, cur)
                 end
  end.
(** is2p's arrows changed in the loop do not matter for prime(-plev_temp,is2p), which compares with
    operator== (itensor.cc:716-719).  DEBUG off. *)
Definition replaceInds (is1 is2 is : list index) : outcome (list index) * list index :=
  let is2p := map (fun J => with_tags J (ts_prime (ix_tags J) replace_temp)) is2 in
  match replace_loop is1 is2p is2 is is with
  | (Ok cur, _) => let o := is_op false (IPrime (- replace_temp)) (SInds is2p) cur in
                   (o, match o with Ok r => r | _ => cur end)
  | (o, cur) => (o, cur)
  end.
(** swapInds (itensor.cc:732-742). *)
Definition swapInds (is1 is2 is : list index) : outcome (list index) * list index :=
  replaceInds (is1 ++ is2) (is2 ++ is1) is.
