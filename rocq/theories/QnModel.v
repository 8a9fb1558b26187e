(** Quantum numbers. itensor/qn.h, itensor/qn.cc, itensor/arrow.h *)
From Coq Require Import List ZArith Bool.
From Verif Require Import Util SmallStringModel.
Import ListNotations.
Local Open Scope Z_scope.

(** itensor/arrow.h:53 *)
(** (constructors renamed: [In] is list membership in Coq) *)
Inductive Arrow := ArrIn | ArrOut | ArrNeither.

(** static_cast<int>(dir), itensor/arrow.h:53 *)
Definition arrow_int (d : Arrow) : Z :=
  match d with ArrIn => -1 | ArrOut => 1 | ArrNeither => 0 end.

(** itensor/arrow.h:63-71, unary minus (release build: Neither maps to In, because only
    In maps to Out). *)
Definition arrow_neg (d : Arrow) : Arrow :=
  match d with ArrIn => ArrOut | ArrOut => ArrIn | ArrNeither => ArrIn end.

(** itensor/qn.h:48-92. [int] fields are modelled by Z; overflow is treated
    separately by [qset32]. *)
Record QNum := mkQNum { qn_name : SmallString; qn_val : Z; qn_mod : Z }.

(** itensor/qn.h:57, default constructed QNum: no name, value 0, mod 0. *)
Definition qnum0 : QNum := mkQNum ss_empty 0 0.

(** itensor/qn.cc:10-30, QNum::set. C++ % truncates: Z.rem. *)
Definition qset (mod_ v : Z) : Z :=
  let m := Z.abs mod_ in
  if 1 <? m then Z.rem (m * Z.abs v + v) m else v.

(** The same on 32-bit int, with None on signed overflow (undefined behaviour):
    std::abs(mod_), std::abs(v), the product and the sum must be representable. *)
Definition fits32 (z : Z) : bool := (- 2147483648 <=? z) && (z <=? 2147483647).
Definition qset32 (mod_ v : Z) : option Z :=
  let m := Z.abs mod_ in
  if negb (fits32 m) then None
  else if 1 <? m then
    let a := Z.abs v in
    if negb (fits32 a) then None
    else if negb (fits32 (m * a)) then None
    else if negb (fits32 (m * a + v)) then None
    else Some (Z.rem (m * a + v) m)
  else Some v.

(** itensor/qn.h:66, QNum(name,v,m) *)
Definition qnum_make (name : SmallString) (v m : Z) : QNum := mkQNum name (qset m v) m.

(** itensor/qn.h:62, QNum(name,v): mod 1 *)
Definition qnum_make1 (name : SmallString) (v : Z) : QNum := qnum_make name v 1.

(** itensor/qn.h:187-188 (and 91) *)
Definition isActive (q : QNum) : bool := negb (qn_mod q =? 0).

(** itensor/qn.h:184-185 *)
Definition isFermionic (q : QNum) : bool := qn_mod q <? 0.

(** itensor/qn.h:88-89, unary minus *)
Definition qnum_neg (q : QNum) : QNum := qnum_make (qn_name q) (- qn_val q) (qn_mod q).

(** itensor/qn.cc:50-56, QNum += (release build: checkCompatible is empty) *)
Definition qnum_add (a b : QNum) : QNum :=
  mkQNum (qn_name a) (qset (qn_mod a) (qn_val a + qn_val b)) (qn_mod a).

(** itensor/qn.cc:66-71, QNum *= Arrow *)
Definition qnum_mul (a : QNum) (d : Arrow) : QNum :=
  mkQNum (qn_name a) (qset (qn_mod a) (qn_val a * arrow_int d)) (qn_mod a).

(** itensor/qn.h:36-37 *)
Definition QNSize : nat := 4.

(** itensor/qn.h:98-109: a QN is an array of QNSize() QNums. Modelled as a list whose
    length is kept equal to 4 by every operation (lemma [wf_length]). *)
Definition QN := list QNum.
Definition qn0 : QN := [qnum0; qnum0; qnum0; qnum0].

(** qvs_[n] for 0 <= n < 4 *)
Definition slot (q : QN) (n : nat) : QNum := nth n q qnum0.

(** itensor/qn.cc:205-231, body of addNum after the capacity test: the while loop
    with counter n. *)
Fixpoint addNum_loop (n : nat) (q : QN) (qv : QNum) : outcome QN :=
  match n with
  | O => Ok (upd 0 qv q)
  | S p =>
    let s := slot q p in
    if isActive s then
      if ss_eqb (qn_name s) (qn_name qv) then Err
      else if ss_ltb (qn_name s) (qn_name qv) then Ok (upd n qv q)
      else addNum_loop p (upd n s q) qv
    else addNum_loop p q qv
  end.

(** itensor/qn.cc:200-232 *)
Definition addNum (q : QN) (qv : QNum) : outcome QN :=
  if isActive (slot q (QNSize - 1)) then Err else addNum_loop (QNSize - 1) q qv.

(** itensor/qn.h:114-127, QN(v0,v1,v2,v3): stops at the first inactive argument, but
    always adds v0. The argument list holds one to four QNums. *)
Fixpoint qn_make_rest (q : QN) (vs : list QNum) : outcome QN :=
  match vs with
  | [] => Ok q
  | v :: t => if isActive v then obind (addNum q v) (fun q' => qn_make_rest q' t) else Ok q
  end.
Definition qn_make (vs : list QNum) : outcome QN :=
  match vs with
  | [] => Ok qn0
  | v :: t => obind (addNum qn0 v) (fun q => qn_make_rest q t)
  end.

(** itensor/qn.cc:234-242, val(name): first slot with that name, else 0 *)
Fixpoint qn_val_of (q : QN) (name : SmallString) : Z :=
  match q with
  | [] => 0
  | v :: t => if ss_eqb (qn_name v) name then qn_val v else qn_val_of t name
  end.

(** itensor/qn.cc:244-252 *)
Fixpoint qn_mod_of (q : QN) (name : SmallString) : Z :=
  match q with
  | [] => 0
  | v :: t => if ss_eqb (qn_name v) name then qn_mod v else qn_mod_of t name
  end.

(** itensor/qn.cc:254-262, hasName *)
Definition qn_hasName (q : QN) (name : SmallString) : bool :=
  existsb (fun v => ss_eqb (qn_name v) name) q.

(** itensor/qn.cc:264-271, modAssign *)
Definition qn_modAssign (q qo : QN) : QN :=
  map (fun p => qnum_make (qn_name (fst p)) (qn_val (fst p)) (qn_mod (snd p))) (combine q qo).

(** itensor/qn.cc:300-313 (and 314-327 with the roles exchanged): every non-zero entry of
    the second argument must be found with the same value under the first slot of the
    same name in the first argument. *)
Fixpoint find_name (q : QN) (name : SmallString) : option QNum :=
  match q with
  | [] => None
  | v :: t => if ss_eqb (qn_name v) name then Some v else find_name t name
  end.
Definition covers (qa qb : QN) : bool :=
  forallb (fun bv =>
    if qn_val bv =? 0 then true
    else match find_name qa (qn_name bv) with
         | Some av => qn_val av =? qn_val bv
         | None => false
         end) qb.

(** itensor/qn.cc:297-329, operator== *)
Definition qn_eqb (qa qb : QN) : bool := covers qa qb && covers qb qa.

(** itensor/qn.cc:331-392, operator<, with a,b zero-based here (one-based in the code).
    Each iteration increments a or b, and both are at most 4, so fuel 8 is enough. *)
Fixpoint qn_ltb_loop (fuel a b : nat) (qa qb : QN) : bool :=
  match fuel with
  | O => false
  | S f =>
    if (Nat.ltb a QNSize && Nat.ltb b QNSize
        && (isActive (slot qa a) || isActive (slot qb b)))%bool then
      let va := slot qa a in
      let vb := slot qb b in
      if negb (isActive va) then
        if 0 =? qn_val vb then qn_ltb_loop f a (S b) qa qb else 0 <? qn_val vb
      else if negb (isActive vb) then
        if qn_val va =? 0 then qn_ltb_loop f (S a) b qa qb else qn_val va <? 0
      else if ss_ltb (qn_name va) (qn_name vb) then
        if qn_val va =? 0 then qn_ltb_loop f (S a) b qa qb else qn_val va <? 0
      else if ss_ltb (qn_name vb) (qn_name va) then
        if qn_val vb =? 0 then qn_ltb_loop f a (S b) qa qb else 0 <? qn_val vb
      else
        if qn_val va =? qn_val vb then qn_ltb_loop f (S a) (S b) qa qb
        else qn_val va <? qn_val vb
    else false
  end.
Definition qn_ltb (qa qb : QN) : bool := qn_ltb_loop 9 0 0 qa qb.

(** itensor/qn.cc:394-402, unary minus *)
Definition qn_neg (q : QN) : QN := map qnum_neg q.

(** itensor/qn.cc:436-439, shift avs[n..] one place to the right (last one is dropped):
    for(m = QNSize()-1; m > n; --m) avs[m] = avs[m-1] *)
Fixpoint shift_loop (m n : nat) (q : QN) : QN :=
  match m with
  | O => q
  | S p => if Nat.ltb n m then shift_loop p n (upd m (slot q p) q) else q
  end.

(** itensor/qn.cc:418-444, inner loop over n for one entry bv of qb; [k] = slots left. *)
Fixpoint combine_one (k n : nat) (q : QN) (bv : QNum) : QN :=
  match k with
  | O => q
  | S k' =>
    let av := slot q n in
    if negb (isActive av) then upd n bv q
    else if ss_eqb (qn_name av) (qn_name bv) then upd n (qnum_add av bv) q
    else if (ss_ltb (qn_name bv) (qn_name av)
             && (Nat.eqb n 0 || ss_gtb (qn_name bv) (qn_name (slot q (n - 1)))))%bool
    then upd n bv (shift_loop (QNSize - 1) n q)
    else combine_one k' (S n) q bv
  end.

(** itensor/qn.cc:407-446, combineQN with operation = +=; stops at the first inactive
    entry of qb. *)
Fixpoint combine_all (q : QN) (bs : list QNum) : QN :=
  match bs with
  | [] => q
  | bv :: t => if isActive bv then combine_all (combine_one QNSize 0 q bv) t else q
  end.

(** itensor/qn.cc:448-457 *)
Definition qn_add (qa qb : QN) : QN := combine_all qa qb.

(** itensor/qn.cc:459-464 *)
Definition qn_sub (qa qb : QN) : QN := qn_add qa (qn_neg qb).

(** itensor/qn.cc:466-474 *)
Definition qn_mul (q : QN) (d : Arrow) : QN := map (fun v => qnum_mul v d) q.

(** itensor/qn.cc:541-545, the loop of h5_read on the entries written by h5_write
    (512-530): addNum of all four slots into a fresh QN, inactive ones included. *)
Fixpoint qn_addNums (q : QN) (vs : list QNum) : outcome QN :=
  match vs with
  | [] => Ok q
  | v :: t => obind (addNum q v) (fun q' => qn_addNums q' t)
  end.
Definition qn_h5_roundtrip (q : QN) : outcome QN :=
  qn_addNums qn0 (map (fun v => qnum_make (qn_name v) (qn_val v) (qn_mod v)) q).
