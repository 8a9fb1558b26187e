(** When a DMRG calculation with convergence goals should stop. *)
From Coq Require Import QArith Qabs Arith Even.

(** The energy after every sweep, the entropy of the middle bond after every sweep. *)
Section Goals.
Context (E S : nat -> Q).
Definition change (f : nat -> Q) (sw : nat) : Q := Qabs (f sw - f (sw - 1)%nat).
(** The goals that are set are positive, a goal that is not set is negative; the goals are looked at after
    every second sweep, and all that are set must be met. *)
Definition goals_met (eg sg : Q) (sw : nat) : Prop :=
  Nat.even sw = true /\ (0 < eg \/ 0 < sg)%Q /\
  ((0 < eg)%Q /\ (change E sw < eg)%Q \/ (eg < 0)%Q) /\ ((0 < sg)%Q /\ (change S sw < sg)%Q \/ (sg < 0)%Q).
End Goals.
