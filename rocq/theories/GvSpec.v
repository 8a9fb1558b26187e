(** Views on matrices and vectors, and what a product of matrices is.  Nothing here models a function of the library. *)
From Coq Require Import Arith.
From Verif Require Import BigSum.

(** Memory: the real number stored at every place. *)
Definition mem (T : Type) : Type := nat -> T.
(** Real or complex elements; a complex number takes two places, the real part first. *)
Inductive vkind : Type := Re | Cx.
(** A matrix view: so many rows and columns; from one row to the next, and from one column to the next, so many elements;
    the first element is element number m_at of the memory. *)
Record mview : Type := MView { m_rn : nat; m_rs : nat; m_cn : nat; m_cs : nat; m_at : nat }.
Definition maddr (v : mview) (r c : nat) : nat := m_at v + r * m_rs v + c * m_cs v.
(** A vector view. *)
Record vview : Type := VView { w_n : nat; w_s : nat; w_at : nat }.
Definition vaddr (v : vview) (i : nat) : nat := w_at v + i * w_s v.

(** The place p belongs to element number o of the memory. *)
Definition place (k : vkind) (o p : nat) : Prop := match k with Re => p = o | Cx => p = 2 * o \/ p = S (2 * o) end.
(** The place p belongs to an element of the view. *)
Definition inview (k : vkind) (v : mview) (p : nat) : Prop := exists r c, r < m_rn v /\ c < m_cn v /\ place k (maddr v r c) p.
Definition invec (k : vkind) (v : vview) (p : nat) : Prop := exists i, i < w_n v /\ place k (vaddr v i) p.
(** Two elements of the view are never the same place. *)
Definition distinct (v : mview) : Prop :=
  forall r c r' c', r < m_rn v -> c < m_cn v -> r' < m_rn v -> c' < m_cn v -> maddr v r c = maddr v r' c' -> r = r' /\ c = c'.
(** The elements fill one stretch of memory, column after column or row after row. *)
Definition column_major (v : mview) : Prop := m_rs v = 1 /\ m_cs v = m_rn v.
Definition row_major (v : mview) : Prop := m_cs v = 1 /\ m_rs v = m_cn v.
Definition contiguous (v : mview) : Prop := column_major v \/ row_major v.

(** A product is complex unless both factors are real. *)
Definition product_kind (ka kb : vkind) : vkind := match ka, kb with Re, Re => Re | _, _ => Cx end.

Section Gv.
Context {T : Type} (t0 : T) (tadd tmul tsub : T -> T -> T) (topp : T -> T).
(** A complex number is the pair of its parts. *)
Definition zplus (x y : T * T) : T * T := (tadd (fst x) (fst y), tadd (snd x) (snd y)).
Definition zminus (x y : T * T) : T * T := (tsub (fst x) (fst y), tsub (snd x) (snd y)).
Definition ztimes (x y : T * T) : T * T :=
  (tsub (tmul (fst x) (fst y)) (tmul (snd x) (snd y)), tadd (tmul (fst x) (snd y)) (tmul (snd x) (fst y))).
Definition zreal (a : T) : T * T := (a, t0).
Definition zsum (n : nat) (f : nat -> T * T) : T * T := bsum (zreal t0) zplus n f.
(** Element number o of the memory. *)
Definition elt (k : vkind) (m : mem T) (o : nat) : T * T := match k with Re => (m o, t0) | Cx => (m (2 * o), m (S (2 * o))) end.
Definition mat_elt (k : vkind) (m : mem T) (v : mview) (r c : nat) : T * T := elt k m (maddr v r c).
Definition vec_elt (k : vkind) (m : mem T) (v : vview) (i : nat) : T * T := elt k m (vaddr v i).
End Gv.
