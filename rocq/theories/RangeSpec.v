(** Multi-indices and permutations, independent of strides and loops. *)
From Coq Require Import List Arith ZArith.
Import ListNotations.

(** [valid e t]: t has one value below each extent of e. *)
Definition valid (e t : list nat) : Prop := Forall2 (fun d i => i < d) e t.

(** Number of multi-indices. *)
Fixpoint size (e : list nat) : nat := match e with [] => 1 | d :: e' => d * size e' end.

(** Is [P] (as a map i |-> nth i P) a bijection of 0..n-1? *)
Definition is_perm (n : nat) (P : list nat) : Prop :=
  length P = n /\ (forall i, i < n -> nth i P 0 < n) /\
  (forall i j, i < n -> j < n -> nth i P 0 = nth j P 0 -> i = j).

(** Values inside given bounds. *)
Definition valid_between (rs : list (Z * Z)) (t : list Z) : Prop :=
  Forall2 (fun r v => (fst r <= v <= snd r)%Z) rs t.
