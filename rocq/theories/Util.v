(** Shared vocabulary: outcomes of C++ calls and bounds-checked lists.
    Nothing here models a particular function of the library. *)
From Coq Require Import List ZArith Lia Bool Arith Permutation.
Import ListNotations.

(** Result of a C++ call.
    [Ok v]  - returns v;
    [Err]   - calls Error(..)/throws (itensor/util/error.h:26,53-90);
    [UB]    - reads or writes outside an object, or any other undefined behaviour. *)
Inductive outcome (A : Type) : Type :=
| Ok (a : A)
| Err
| UB.
Arguments Ok {A} a.
Arguments Err {A}.
Arguments UB {A}.

Definition obind {A B} (o : outcome A) (f : A -> outcome B) : outcome B :=
  match o with Ok a => f a | Err => Err | UB => UB end.

Definition omap {A B} (f : A -> B) (o : outcome A) : outcome B :=
  obind o (fun a => Ok (f a)).

Declare Scope outcome_scope.
Delimit Scope outcome_scope with outcome.
Notation "'let!' x ':=' o 'in' k" := (obind o (fun x => k))
  (at level 200, x pattern, o at level 100, k at level 200) : outcome_scope.

(** Replace the n-th element; unchanged when n is out of range (callers that
    can be out of range use [oupd] instead). *)
Fixpoint upd {A} (n : nat) (x : A) (l : list A) : list A :=
  match l, n with
  | [], _ => []
  | _ :: t, O => x :: t
  | h :: t, S n' => h :: upd n' x t
  end.

(** Bounds-checked read/write: outside the storage is UB. *)
Definition oget {A} (l : list A) (n : nat) : outcome A :=
  match nth_error l n with Some a => Ok a | None => UB end.

Definition oupd {A} (n : nat) (x : A) (l : list A) : outcome (list A) :=
  if n <? length l then Ok (upd n x l) else UB.

Lemma upd_length {A} n (x : A) l : length (upd n x l) = length l.
Proof. revert n; induction l as [|h t IH]; intros [|n]; simpl; auto. Qed.

Lemma nth_error_upd_eq {A} n (x : A) l :
  n < length l -> nth_error (upd n x l) n = Some x.
Proof.
  revert n; induction l as [|h t IH]; intros [|n] H; simpl in *; try lia; auto.
  apply IH; lia.
Qed.

Lemma nth_error_upd_neq {A} n m (x : A) l :
  n <> m -> nth_error (upd n x l) m = nth_error l m.
Proof.
  revert n m; induction l as [|h t IH]; intros [|n] [|m] H; simpl; auto; try lia.
Qed.

Lemma nth_upd_eq {A} n (x d : A) l : n < length l -> nth n (upd n x l) d = x.
Proof.
  revert n; induction l as [|h t IH]; intros [|n] H; simpl in *; try lia; auto.
  apply IH; lia.
Qed.

Lemma nth_upd_neq {A} n m (x d : A) l : n <> m -> nth m (upd n x l) d = nth m l d.
Proof.
  revert n m; induction l as [|h t IH]; intros [|n] [|m] H; simpl; auto; try lia.
Qed.

Lemma upd_app_l {A} n (x : A) l1 l2 :
  n < length l1 -> upd n x (l1 ++ l2) = upd n x l1 ++ l2.
Proof.
  revert n; induction l1 as [|h t IH]; intros [|n] H; simpl in *; try lia; auto.
  rewrite IH by lia; auto.
Qed.

Lemma upd_app_r {A} n (x : A) l1 l2 :
  length l1 <= n -> upd n x (l1 ++ l2) = l1 ++ upd (n - length l1) x l2.
Proof.
  revert n; induction l1 as [|h t IH]; intros n H; simpl in *.
  - now rewrite Nat.sub_0_r.
  - destruct n; [lia|]. simpl. rewrite IH by lia. auto.
Qed.

Lemma upd_middle {A} (x y : A) l1 l2 :
  upd (length l1) x (l1 ++ y :: l2) = l1 ++ x :: l2.
Proof. rewrite upd_app_r by lia. rewrite Nat.sub_diag. reflexivity. Qed.

Lemma NoDup_app_intro {A} (l1 l2 : list A) :
  NoDup l1 -> NoDup l2 -> (forall x, In x l1 -> In x l2 -> False) -> NoDup (l1 ++ l2).
Proof.
  induction l1 as [|x l1 IH]; simpl; intros H1 H2 H; auto.
  inversion H1; subst. constructor.
  - rewrite in_app_iff. intros [K|K]; [contradiction|apply (H x); auto].
  - apply IH; auto. intros y Hy Hy'. apply (H y); auto.
Qed.
