(** What a tensor with quantum numbers holds, independent of how blocks are searched or visited. *)
From Coq Require Import List ZArith Arith Bool Sorted Permutation.
From Verif Require Import RangeSpec TensorSpec QdModel.
Import ListNotations.

(** The values of an index whose blocks have sizes l: value v lies in block [blk l v], at position
    [pos l v] of it. *)
Fixpoint blk (l : list nat) (v : nat) : nat :=
  match l with [] => 0 | n :: l' => if v <? n then 0 else S (blk l' (v - n)) end.
Fixpoint pos (l : list nat) (v : nat) : nat :=
  match l with [] => v | n :: l' => if v <? n then v else pos l' (v - n) end.

Section Spec.
Context {R : Type} (r0 : R) {I : Type} (bs : I -> list nat).

(** Number of blocks and dimension of an index. *)
Definition nblocks (x : I) : nat := length (bs x).
Definition total (x : I) : nat := list_sum (bs x).

(** The indices are distinct, and every index has a block and no empty ones. *)
Definition proper (is : list I) : Prop :=
  NoDup is /\ forall x, In x is -> bs x <> [] /\ Forall (fun n => 0 < n) (bs x).

(** The values chosen by s are in range. *)
Definition ranged (is : list I) (s : I -> nat) : Prop := forall x, In x is -> s x < total x.

(** The block an element is in, that block's dimensions, and the element's place in the block. *)
Definition blockof (is : list I) (s : I -> nat) : list nat := map (fun x => blk (bs x) (s x)) is.
Definition dimsof (is : list I) (s : I -> nat) : list nat := map (fun x => nth (blk (bs x) (s x)) (bs x) 0) is.
Definition placeof (is : list I) (s : I -> nat) : nat :=
  colmajor (dimsof is s) (map (fun x => pos (bs x) (s x)) is).

(** The element of a tensor: the stored number if its block is stored, otherwise 0. *)
Definition qval (is : list I) (d : qd R) (s : I -> nat) : R :=
  match find (fun e => if list_eq_dec Nat.eq_dec (fst e) (blockof is s) then true else false) (offs d) with
  | Some e => nth (snd e + placeof is s) (store d) r0
  | None => r0
  end.

(** Number of elements of a block. *)
Fixpoint sz (is : list I) (b : list nat) : nat :=
  match is, b with x :: is', i :: b' => nth i (bs x) 0 * sz is' b' | _, _ => 1 end.

(** The blocks l are real blocks and occupy the storage positions o..n-1 one after another. *)
Fixpoint filled (is : list I) (o : nat) (l : list (list nat * nat)) (n : nat) : Prop :=
  match l with
  | [] => o = n
  | (b, o') :: l' => o' = o /\ valid (map nblocks is) b /\ filled is (o + sz is b) l' n
  end.

(** A well-formed tensor: no block twice, blocks in order (first index fastest), the storage is
    exactly filled. *)
Definition stored (is : list I) (d : qd R) : Prop :=
  filled is 0 (offs d) (length (store d)) /\
  StronglySorted (fun a b => colmajor (map nblocks is) (fst a) < colmajor (map nblocks is) (fst b)) (offs d).

(** Is block b stored? *)
Definition has_block (d : qd R) (b : list nat) : Prop := In b (map fst (offs d)).
End Spec.

(** What std::sort promises for a strict weak ordering. *)
Definition sorts (srt : forall X : Type, (X -> X -> bool) -> list X -> list X) : Prop :=
  forall (X : Type) (lt : X -> X -> bool) (l : list X),
    (forall a, lt a a = false) -> (forall a b c, lt a b = true -> lt b c = true -> lt a c = true) ->
    (forall a b c, lt a b = false -> lt b c = false -> lt a c = false) ->
    Permutation l (srt X lt l) /\ StronglySorted (fun a b => lt b a = false) (srt X lt l).
