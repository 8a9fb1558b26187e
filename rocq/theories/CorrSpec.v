(** Vocabulary for property C56 (expect, correlationMatrix), independent of the model: operators
    on a chain, their expectation values, and operators with Jordan-Wigner strings. *)
From Coq Require Import ZArith List Arith.
From Verif Require Import Util BigSum MpsTensor MpsSpec.
Import ListNotations.

Section CorrSpec.
Context {R : Type} (r0 r1 : R) (radd rmul : R -> R -> R) (conj : R -> R).
Notation bsum := (bsum r0 radd).
Notation csum := (csum r0 radd).
Notation amplitude := (amplitude r0 r1 radd rmul).
Notation "x * y" := (rmul x y).

(** An operator on one site: A s s' is <s'|A|s>. *)
Definition site_op := nat -> nat -> R.
Definition ident : site_op := delta r0 r1.
(** The product A B: first B, then A. *)
Definition after (d : nat) (A B : site_op) : site_op := fun s s' => bsum d (fun t => B s t * A t s').
(** The adjoint. *)
Definition adjoint (A : site_op) : site_op := fun s s' => conj (A s' s).

(** <c'| P_j P_{j+1} ... |c>: one operator on each site, the sites counted from j. *)
Fixpoint element (P : Z -> site_op) (j : Z) (c c' : list nat) : R :=
  match c, c' with
  | s :: c1, s' :: c1' => P j s s' * element P (j + 1)%Z c1 c1'
  | _, _ => r1
  end.
(** <psi|P|psi>, psi not normalised. *)
Definition expectation (ts : list tensor) (P : Z -> site_op) : R :=
  csum (sites ts) (fun c => csum (sites ts) (fun c' => amplitude ts c * element P 1 c c' * conj (amplitude ts c'))).

(** The operator A of site i and nothing elsewhere. *)
Definition single (A : Z -> site_op) (i : Z) : Z -> site_op := fun k => if (k =? i)%Z then A i else ident.
(** The operator A of site i as an operator on the chain: a fermionic one carries the string
    F F ... F of the sites before i. *)
Definition on_chain (fermionic : bool) (F A : Z -> site_op) (i : Z) : Z -> site_op := fun k =>
  if (k <? i)%Z then (if fermionic then F k else ident) else if (k =? i)%Z then A i else ident.
(** <psi| A_i B_j |psi>. *)
Definition correlator (ts : list tensor) (d : Z -> nat) (fermionic : bool) (F A B : Z -> site_op) (i j : Z) : R :=
  expectation ts (fun k => after (d k) (on_chain fermionic F A i k) (on_chain fermionic F B j k)).

(** Equal as operators on a site of dimension d. *)
Definition same_op (d : nat) (A B : site_op) : Prop := forall s s', s < d -> s' < d -> A s s' = B s s'.
(** F squares to one, is its own adjoint, and anticommutes with the operators A. *)
Definition parity (n : Z) (d : Z -> nat) (F : Z -> site_op) : Prop :=
  forall k, (1 <= k <= n)%Z -> same_op (d k) (after (d k) (F k) (F k)) ident /\ same_op (d k) (adjoint (F k)) (F k).
Definition odd (ropp : R -> R) (n : Z) (d : Z -> nat) (F A : Z -> site_op) : Prop :=
  forall k, (1 <= k <= n)%Z -> same_op (d k) (after (d k) (F k) (A k)) (fun s s' => ropp (after (d k) (A k) (F k) s s')).
(** B is the adjoint of A, up to a real factor. *)
Definition adjoint_pair (n : Z) (d : Z -> nat) (A B : Z -> site_op) : Prop :=
  exists x, conj x = x /\ forall k, (1 <= k <= n)%Z -> same_op (d k) (B k) (fun s s' => x * adjoint (A k) s s').

(** Entry of a table. *)
Definition entry (C : list (list R)) (i j : nat) : option R := match nth_error C i with Some row => nth_error row j | None => None end.
(** A square table with n rows. *)
Definition square (n : nat) (C : list (list R)) : Prop := length C = n /\ Forall (fun row => length row = n) C.
End CorrSpec.
