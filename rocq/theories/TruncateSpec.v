(** What truncating a spectrum should mean, without reference to the loops. *)
From Coq Require Import List ZArith QArith Qabs Sorting.Sorted.
Import ListNotations.
Open Scope Q_scope.

(** Largest first. *)
Definition descending (P : list Q) : Prop := StronglySorted (fun a b => b <= a) P.

(** A (slightly) negative eigenvalue of a density matrix carries no weight. *)
Definition weight (p : Q) : Q := if Qle_bool 0 p then p else 0.

(** Total weight of a list of values. *)
Fixpoint total (P : list Q) : Q :=
  match P with [] => 0 | p :: t => weight p + total t end.

(** How the user asked the Cutoff to be understood. *)
Inductive cutoff_mode := AbsoluteEach | SumRelative | SumAbsolute.

(** Flags "AbsoluteCutoff" and "DoRelCutoff" as modes. *)
Definition mode_of (absoluteCutoff doRelCutoff : bool) : cutoff_mode :=
  if absoluteCutoff then AbsoluteEach
  else if doRelCutoff then SumRelative else SumAbsolute.

(** [allowed mode cutoff P m0 m]: having been forced down to [m0] values,
    keeping only the first [m] of P respects the cutoff. *)
Definition allowed (md : cutoff_mode) (cutoff : Q) (P : list Q) (m0 m : nat) : Prop :=
  match md with
  | AbsoluteEach => forall i, (m <= i < m0)%nat -> weight (nth i P 0) <= cutoff
  | SumRelative => total (skipn m P) <= cutoff * total P
  | SumAbsolute => total (skipn m P) <= cutoff
  end.
