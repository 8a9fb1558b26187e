(** autovector. itensor/util/autovector.h. lint is an unbounded integer. *)
From Coq Require Import List ZArith Bool.
From Verif Require Import Util.
Import ListNotations.
Local Open Scope Z_scope.

Section AV.
Context {T : Type}.
Variable d : T.    (* T() *)

(** autovector.h:47-51 *)
Record AV := mkAV { mini : Z; maxi : Z; miniloc : Z; dat : list T }.

Definition len (l : list T) : Z := Z.of_nat (length l).
(** dat_[j] *)
Definition zget (l : list T) (j : Z) : outcome T := if j <? 0 then UB else oget l (Z.to_nat j).
Definition zput (l : list T) (j : Z) (x : T) : outcome (list T) := if j <? 0 then UB else oupd (Z.to_nat j) x l.

(** autovector.h:59-60 *)
Definition av_new : AV := mkAV 1 0 0 [].
(** autovector.h:62-69; a negative length throws std::length_error *)
Definition av_range (a b : Z) (t : T) : outcome AV :=
  if b - a + 1 <? 0 then Err else Ok (mkAV a b 0 (repeat t (Z.to_nat (b - a + 1)))).
(** autovector.h:77-81 *)
Definition av_clear (v : AV) : AV := mkAV (mini v) (maxi v) (miniloc v) [].
Definition av_size (v : AV) : Z := 1 + (maxi v - mini v).
(** autovector.h:96-101 *)
Definition av_get (v : AV) (i : Z) : outcome T :=
  match dat v with
  | [] => Ok d
  | _ => if (i <? mini v) || (maxi v <? i) then Ok d else zget (dat v) (i - mini v + miniloc v)
  end.

(** autovector.h:134-135: the copy loop; [k] elements left, from position [n] *)
Fixpoint copy_loop (k : nat) (n shift : Z) (old new : list T) : outcome (list T) :=
  match k with
  | O => Ok new
  | S k' => obind (zget old n) (fun x => obind (zput new (shift + n) x) (fun new' => copy_loop k' (n + 1) shift old new'))
  end.

(** autovector.h:109-147: makes position i valid *)
Definition av_grow (v : AV) (i : Z) : outcome AV :=
  match dat v with
  | [] => Ok (mkAV i i 4 (repeat d 9))
  | _ =>
    if (i <? mini v) || (maxi v <? i) then
      let newmini := Z.min i (mini v) in
      let newmaxi := Z.max i (maxi v) in
      let j := i - mini v + miniloc v in
      if (0 <=? j) && (j <? len (dat v)) then
        Ok (mkAV newmini newmaxi (miniloc v + (newmini - mini v)) (dat v))
      else
        let newlen := (newmaxi - newmini + 8) * 2 in
        let newminiloc := Z.quot (newlen - (newmaxi - newmini + 1)) 2 in
        let newdat := repeat d (Z.to_nat newlen) in
        let oldbegin := miniloc v in
        let oldend := miniloc v + maxi v - mini v in
        let newbegin := newminiloc - newmini + mini v in
        obind (copy_loop (Z.to_nat (oldend - oldbegin + 1)) oldbegin (newbegin - oldbegin) (dat v) newdat)
          (fun nd => Ok (mkAV newmini newmaxi newminiloc nd))
    else Ok v
  end.

(** v.ref(i) = x, autovector.h:103-107 *)
Definition av_set (v : AV) (i : Z) (x : T) : outcome AV :=
  obind (av_grow v i) (fun v' =>
  obind (zput (dat v') (i - mini v' + miniloc v') x) (fun dt =>
  Ok (mkAV (mini v') (maxi v') (miniloc v') dt))).

(** autovector.h:149-153 *)
Definition av_fast (v : AV) (i : Z) : outcome T := zget (dat v) (i - mini v + miniloc v).
End AV.
Arguments AV : clear implicits.

(** dot, autovector.h:169-178, over the integers *)
Fixpoint dot_loop (k : nat) (i : Z) (a b : AV Z) (res : Z) : outcome Z :=
  match k with
  | O => Ok res
  | S k' => obind (av_fast a i) (fun x => obind (av_fast b i) (fun y => dot_loop k' (i + 1) a b (res + x * y)))
  end.
Definition av_dot (a b : AV Z) : outcome Z :=
  let imin := Z.max (mini a) (mini b) in
  let imax := Z.min (maxi a) (maxi b) in
  dot_loop (Z.to_nat (imax - imin + 1)) imin a b 0.
