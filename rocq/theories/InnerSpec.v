(** What matrix product states and operators denote.  Independent of how products are computed. *)
From Coq Require Import List Arith Permutation.
From Verif Require Import Util TensorSpec BigSum InnerModel.
Import ListNotations.

Section InnerSpec.
Context {R : Type} (r0 r1 : R) (radd rmul : R -> R -> R) (conj : R -> R).
Notation nt := (nt R).
Notation mps := (mps R).
Notation sum_over := (sum_over r0 radd ix_eqb ixdim).

(** The elements of T depend only on the values of its own indices. *)
Definition proper (T : nt) : Prop := forall s t, (forall x, In x (nis T) -> s x = t x) -> nel T s = nel T t.
(** A chain of tensors: tensor n has the site indices S_n (in any order) and shares exactly the link
    l_n with tensor n+1. *)
Fixpoint chain_on (left : list ix) (x : mps) (S : list (list ix)) (links : list ix) : Prop :=
  match x, S with
  | [t], [s] => links = [] /\ proper t /\ Permutation (nis t) (left ++ s)
  | t :: x', s :: S' =>
      match links with
      | l :: links' => proper t /\ Permutation (nis t) (left ++ s ++ [l]) /\ chain_on [l] x' S' links'
      | [] => False
      end
  | _, _ => False
  end.
(** x is an MPS with the given site and link indices, all different. *)
Definition is_mps (x : mps) (sites links : list ix) : Prop :=
  chain_on [] x (map (fun s => [s]) sites) links /\ NoDup (sites ++ links).
(** A is an MPO with two site indices per tensor. *)
Definition is_mpo (A : mps) (ins outs links : list ix) : Prop :=
  length ins = length outs /\ chain_on [] A (map (fun p => [fst p; snd p]) (combine ins outs)) links /\ NoDup (ins ++ outs ++ links).

(** The product of one element of each tensor. *)
Definition prod (x : list nt) (s : ix -> nat) : R := fold_right (fun t p => rmul (nel t s) p) r1 x.
(** Index xs_i has value c_i. *)
Fixpoint values (xs : list ix) (c : list nat) : ix -> nat :=
  match xs, c with x :: xs', v :: c' => fun y => if ix_eqb x y then v else values xs' c' y | _, _ => fun _ => 0 end.
(** The amplitude of an MPS at the configuration c of its sites: the sum over all values of its links. *)
Definition amplitude (x : mps) (sites links : list ix) (c : list nat) : R := sum_over links (prod x) (values sites c).
(** The matrix element of an MPO from configuration c of ins to c' of outs. *)
Definition element (A : mps) (ins outs links : list ix) (c c' : list nat) : R :=
  sum_over links (prod A) (values (ins ++ outs) (c ++ c')).
(** Sum over all configurations. *)
Definition over (sites : list ix) (f : list nat -> R) : R := csum r0 radd (map ixdim sites) f.
(** The amplitude of A applied to the MPS x, at the configuration c' of outs. *)
Definition applied (A : mps) (ins outs lA : list ix) (x : mps) (lx : list ix) (c' : list nat) : R :=
  over ins (fun c => rmul (element A ins outs lA c c') (amplitude x ins lx c)).
(** All ids handed out so far are below k. *)
Definition used_below (k : nat) (l : list ix) : Prop := forall x, In x l -> ixid x < k.
Definition disjoint (l m : list ix) : Prop := forall x, In x l -> ~ In x m.
End InnerSpec.
