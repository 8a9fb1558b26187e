(** The small-buffer array. itensor/util/infarray.h *)
From Coq Require Import List Arith Bool.
From Verif Require Import Util.
Import ListNotations.

Section InfArray.
Context {T : Type}.
Variable A : nat.      (* ArrSize *)
Variable d : T.        (* T(), what std::vector::resize puts in new elements *)

(** What data_ points to: the object's own arr_, the buffer of its own vec_, nothing, or a
    buffer that now belongs to another object (after swap). Pointers into a reallocated
    buffer do not survive: every reallocation in the code resets data_. *)
Inductive ptr := PArr | PVec | PNull | PAlien.

(** infarray.h:54-57 *)
Record IA := mkIA { ia_ptr : ptr; ia_size : nat; ia_arr : list T; ia_vec : list T }.

(** infarray.h:399-404, setDataPtr *)
Definition ptr_for (n : nat) : ptr := if n <=? A then PArr else PVec.

(** the memory data_ points into; nothing may be read through null or another object's
    buffer *)
Definition ia_buf (s : IA) : outcome (list T) :=
  match ia_ptr s with PArr => Ok (ia_arr s) | PVec => Ok (ia_vec s) | _ => UB end.
Definition with_buf (s : IA) (b : list T) : outcome IA :=
  match ia_ptr s with
  | PArr => Ok (mkIA PArr (ia_size s) b (ia_vec s))
  | PVec => Ok (mkIA PVec (ia_size s) (ia_arr s) b)
  | _ => UB
  end.

(** std::vector::resize *)
Definition vec_resize (n : nat) (v : list T) : list T := firstn n v ++ repeat d (n - length v).
(** std::copy(src, src+n, dst) *)
Definition copy_into (n : nat) (src dst : list T) : list T := firstn n src ++ skipn n dst.

(** infarray.h:60-87; [junk] is the content of a fresh std::array<T,A> *)
Definition ia_new (junk : list T) (n : nat) : IA :=
  if n <=? A then mkIA PArr n junk [] else mkIA PVec n junk (repeat d n).

(** std::fill(data_,data_+size_,val), infarray.h:93, 190, 196 *)
Definition ia_fill (v : T) (s : IA) : outcome IA :=
  obind (ia_buf s) (fun b =>
    if ia_size s <=? length b then with_buf s (repeat v (ia_size s) ++ skipn (ia_size s) b) else UB).

(** infarray.h:99-108 *)
Definition ia_list (junk l : list T) : IA :=
  if length l <=? A then mkIA PArr (length l) (copy_into (length l) l junk) []
  else mkIA PVec (length l) junk l.

(** infarray.h:110-126: copy construction and assignment *)
Definition ia_copy (s : IA) : IA := mkIA (ptr_for (ia_size s)) (ia_size s) (ia_arr s) (ia_vec s).

(** infarray.h:128-148: the target and the moved-from source. arr_ of the source keeps some
    content (its elements are moved from: [junk]). *)
Definition ia_move (junk : list T) (s : IA) : IA * IA :=
  (ia_copy s, mkIA PNull 0 junk []).

(** infarray.h:150-183 *)
Definition ia_resize (n : nat) (s : IA) : IA :=
  if A <? n then
    let v1 := vec_resize n (ia_vec s) in
    let v2 := if ia_size s <=? A then copy_into (ia_size s) (ia_arr s) v1 else v1 in
    mkIA PVec n (ia_arr s) v2
  else
    let a := if A <? ia_size s then copy_into n (ia_vec s) (ia_arr s) else ia_arr s in
    mkIA PArr n a [].

(** infarray.h:185-191 *)
Definition ia_assign (n : nat) (v : T) (s : IA) : outcome IA := ia_fill v (ia_resize n s).

(** infarray.h:208-214 *)
Definition ia_clear (s : IA) : IA := mkIA PArr 0 (ia_arr s) [].

(** infarray.h:216-223: this object and the other one; the other's data_ is not touched,
    and if it pointed to its vector's buffer that buffer now belongs to this object *)
Definition ia_swap (s o : IA) : IA * IA :=
  (mkIA (ptr_for (ia_size o)) (ia_size o) (ia_arr o) (ia_vec o),
   mkIA (match ia_ptr o with PVec => PAlien | p => p end) (ia_size s) (ia_arr s) (ia_vec s)).

(** infarray.h:227-247 (release build: no check) *)
Definition ia_get (s : IA) (i : nat) : outcome T := obind (ia_buf s) (fun b => oget b i).
(** s[i] = v *)
Definition ia_set (s : IA) (i : nat) (v : T) : outcome IA :=
  obind (ia_buf s) (fun b => obind (oupd i v b) (fun b' => with_buf s b')).
(** infarray.h:331-335 *)
Definition ia_at (s : IA) (i : nat) : outcome T := if ia_size s <=? i then Err else ia_get s i.

(** infarray.h:249-297 *)
Definition ia_push (v : T) (s : IA) : outcome IA :=
  if ia_size s <? A then
    obind (oupd (ia_size s) v (ia_arr s)) (fun a =>
      Ok (mkIA (ia_ptr s) (S (ia_size s)) a (ia_vec s)))
  else if ia_size s =? A then
    let s' := ia_resize (S (ia_size s)) s in ia_set s' (ia_size s' - 1) v
  else Ok (mkIA PVec (S (ia_size s)) (ia_arr s) (ia_vec s ++ [v])).

Definition remove_nth {X} (i : nat) (l : list X) : list X := firstn i l ++ skipn (S i) l.

(** infarray.h:309-312: shift the elements of arr_ after position i down by one *)
Fixpoint shift_down (k i : nat) (a : list T) : list T :=
  match k with
  | O => a
  | S k' => match nth_error a (S i) with
            | Some x => shift_down k' (S i) (upd i x a)
            | None => a
            end
  end.

(** infarray.h:299-329 for the iterator begin()+i. The iterator is data_+i: it lies in
    arr_ iff data_ does. Forming &(arr_[size_]) for size_ = ArrSize is taken as the end
    pointer. *)
Definition ia_erase (i : nat) (s : IA) : outcome IA :=
  match ia_ptr s with
  | PArr =>
    if ia_size s <=? A then
      if i <? ia_size s then
        Ok (mkIA PArr (ia_size s - 1) (shift_down (ia_size s - 1 - i) i (ia_arr s)) (ia_vec s))
      else Err
    else Err
  | PVec =>
    if ia_size s <=? A then Err
    else if i <? length (ia_vec s) then Ok (mkIA PVec (ia_size s - 1) (ia_arr s) (remove_nth i (ia_vec s)))
    else Err
  | _ => UB
  end.

(** infarray.h:388-396 *)
Fixpoint ia_eq_loop (eqb : T -> T -> bool) (k i : nat) (s t : IA) : outcome bool :=
  match k with
  | O => Ok true
  | S k' => obind (ia_get s i) (fun x => obind (ia_get t i) (fun y =>
              if eqb x y then ia_eq_loop eqb k' (S i) s t else Ok false))
  end.
Definition ia_eqb (eqb : T -> T -> bool) (s t : IA) : outcome bool :=
  if negb (ia_size s =? ia_size t) then Ok false else ia_eq_loop eqb (ia_size s) 0 s t.
End InfArray.
Arguments IA : clear implicits.
