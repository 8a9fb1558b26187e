(** Vocabulary for properties C60 (applyMPO): what an MPO is, and what it means to apply it to an
    MPS.  Independent of the model of the algorithm. *)
From Coq Require Import List Bool Arith.
From Verif Require Import Util BigSum MpsTensor MpsSpec.
Import ListNotations.

(** One tensor of an MPO: left link, a site Index in and a site Index out (by their dimensions), right
    link, and the elements, with arguments in that order. *)
Record kten (R : Type) := mkK { kl : nat; ki : nat; ko : nat; kr : nat; ke : nat -> nat -> nat -> nat -> R }.
Arguments mkK {R}. Arguments kl {R}. Arguments ki {R}. Arguments ko {R}. Arguments kr {R}. Arguments ke {R}.

(** A tensor of an MPO with its two site Indices, named [nA] and [nB], in the order stored. *)
Record mpoT (R N : Type) := mkM { ml_ : nat; nA : N; dA : nat; nB : N; dB : nat; mr_ : nat; me : nat -> nat -> nat -> nat -> R }.
Arguments mkM {R N}. Arguments ml_ {R N}. Arguments nA {R N}. Arguments dA {R N}. Arguments nB {R N}. Arguments dB {R N}. Arguments mr_ {R N}. Arguments me {R N}.


Section ApplySpec.
Context {R : Type} (r0 r1 : R) (radd rmul : R -> R -> R).
Notation tensor := (@tensor R).
Notation bsum := (bsum r0 radd).
Notation csum := (csum r0 radd).
Notation delta := (delta r0 r1).
Notation "x * y" := (rmul x y).

(** The product of an MPO's matrices, for the values c of the Indices in and c' of the Indices out. *)
Fixpoint kchain (ks : list (kten R)) (c c' : list nat) (w v : nat) : R :=
  match ks, c, c' with
  | K :: ks', s :: c0, s' :: c0' => bsum (kr K) (fun u => ke K w s s' u * kchain ks' c0 c0' u v)
  | _, _, _ => delta w v
  end.
(** The matrix element of the operator. *)
Definition element (ks : list (kten R)) (c c' : list nat) : R := kchain ks c c' 0 0.
(** Neighbouring links agree; the ends have dimension 1. *)
Fixpoint klinked (a : nat) (ks : list (kten R)) (b : nat) : Prop :=
  match ks with [] => a = b | K :: ks' => kl K = a /\ klinked (kr K) ks' b end.
Definition kproper (ks : list (kten R)) : Prop := klinked 1 ks 1.
Definition outs (ks : list (kten R)) : list nat := map (@ko R) ks.
(** The operator applied to the state: (K x)(c') = sum over c of K(c,c') x(c). *)
Definition applied (ks : list (kten R)) (ts : list tensor) (c' : list nat) : R :=
  csum (sites ts) (fun c => element ks c c' * amplitude r0 r1 radd rmul ts c).
(** The dimension of the link left of every site, in the product of K and x. *)
Definition product_links (ks : list (kten R)) (ts : list tensor) : list nat := map (fun p => (tl (snd p) * kl (fst p))%nat) (List.combine ks ts).

(** K(n) acts on an MPS whose site Index is n: one of its two site Indices is n, the other is that of the
    result, and the elements are read accordingly. *)
Context {N : Type}.
Definition acts_on (n : N) (M : mpoT R N) (n' : N) (K : kten R) : Prop :=
  nA M = n /\ n' = nB M /\ K = mkK (ml_ M) (dA M) (dB M) (mr_ M) (me M) \/
  nA M <> n /\ nB M = n /\ n' = nA M /\ K = mkK (ml_ M) (dB M) (dA M) (mr_ M) (fun w s s' v => me M w s' s v).
Fixpoint operator_on (ns : list N) (Ms : list (mpoT R N)) (ns' : list N) (ks : list (kten R)) : Prop :=
  match ns, Ms, ns', ks with
  | [], [], [], [] => True
  | n :: ns0, M :: Ms0, n' :: ns0', K :: ks0 => acts_on n M n' K /\ operator_on ns0 Ms0 ns0' ks0
  | _, _, _, _ => False
  end.
End ApplySpec.
