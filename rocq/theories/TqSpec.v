(** Vocabulary for property C72: the amplitudes and charges of a network of tensors with quantum numbers. *)
From Coq Require Import List ZArith Arith Permutation.
From Verif Require Import Util BigSum SmallStringModel QnModel QnSpec QdModel QdSpec QdFlux QCombProps.
Import ListNotations.

(** A tensor: its indices, the arrow each has in it, and its storage (None: not allocated). *)
Record qt (R I : Type) := mkQt { qis : list I; qdir : I -> Arrow; qst : option (qd R) }.
Arguments mkQt {R I}. Arguments qis {R I}. Arguments qdir {R I}. Arguments qst {R I}.

Section Spec.
Context {R : Type} (r0 r1 : R) (radd rmul : R -> R -> R).
Context {I : Type} (ieq : I -> I -> bool) (bs : I -> list nat) (qns : I -> list QN) (M : SmallString -> Z) (S : list SmallString).
Notation qt := (qt R I).

(** The element of a tensor when the indices have the values s. *)
Definition qelt (t : qt) (s : I -> nat) : R := match qst t with Some d => qval r0 bs (qis t) d s | None => r0 end.
(** The product of the elements of all tensors. *)
Fixpoint qprod (ts : list qt) (s : I -> nat) : R := match ts with [] => r1 | t :: ts' => rmul (qelt t s) (qprod ts' s) end.
(** The sum over all values of the indices ls. *)
Definition assign (s : I -> nat) (x : I) (v : nat) : I -> nat := fun y => if ieq x y then v else s y.
Fixpoint sum_over (ls : list I) (f : (I -> nat) -> R) (s : I -> nat) : R :=
  match ls with [] => f s | x :: ls' => bsum r0 radd (total bs x) (fun v => sum_over ls' f (assign s x v)) end.
(** The amplitude: all tensors contracted over the links ls, the other indices at the values s. *)
Definition qamp (ts : list qt) (ls : list I) (s : I -> nat) : R := sum_over ls (qprod ts) s.

(** The indices of the tensors are the open indices os with their arrows, and every link twice: once outgoing, once
    incoming. *)
Definition network (ts : list qt) (os : list (I * Arrow)) (ls : list I) : Prop :=
  NoDup (map fst os ++ ls) /\
  Permutation (flat_map (fun t => map (fun x => (x, qdir t x)) (qis t)) ts)
              (os ++ flat_map (fun x => [(x, ArrOut); (x, ArrIn)]) ls).
(** The charge n of the values s of the open indices: outgoing minus incoming. *)
Definition charge (os : list (I * Arrow)) (s : I -> nat) (n : SmallString) : Z :=
  fold_right Z.add 0%Z (map (fun o => arrow_int (snd o) * qn_val_of (nth (blk (bs (fst o)) (s (fst o))) (qns (fst o)) qn0) n)%Z os).

(** The tensor has indices and is allocated, and all its blocks have flux q. *)
Definition conserves (t : qt) (q : QN) : Prop :=
  qis t <> [] /\ exists d, qst t = Some d /\ qtensor bs qns M S (qdir t) (qis t) d q.

(** The only index that t shares with u has arrow d in t.  An index that is not there counts as outgoing. *)
Definition link_arrow (t u : qt) (d : Arrow) : Prop :=
  (exists x, In x (qis t) /\ In x (qis u) /\ (forall y, In y (qis t) -> In y (qis u) -> y = x) /\ qdir t x = d)
  \/ ((forall y, In y (qis t) -> ~ In y (qis u)) /\ d = ArrOut).
(** All indices of t have the same arrow. *)
Definition one_arrow (t : qt) : Prop := exists d, forall x, In x (qis t) -> qdir t x = d.
End Spec.
