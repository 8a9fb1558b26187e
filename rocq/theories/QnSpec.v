(** Specification vocabulary for quantum numbers. Uses from the model only the public
    operations (construct, +, unary -, * Arrow, val(name), ==, <). *)
From Coq Require Import List ZArith.
From Verif Require Import Util SmallStringModel QnModel.
Import ListNotations.
Local Open Scope Z_scope.

(** The value a charge with modulus [m] takes when it is assigned [v]:
    plain integers for |m| <= 1, residues 0..|m|-1 otherwise. *)
Definition residue (m v : Z) : Z := if 1 <? Z.abs m then v mod (Z.abs m) else v.

(** [Charges M S q]: q is a QN that a program can build with the public API using
    charge names from S, where M gives the (non-zero) modulus the program uses for
    each name. *)
Inductive Charges (M : SmallString -> Z) (S : list SmallString) : QN -> Prop :=
| ch_zero : Charges M S qn0
| ch_make entries q :
    NoDup (map fst entries) ->
    (forall n v, In (n, v) entries -> In n S) ->
    qn_make (map (fun e => qnum_make (fst e) (snd e) (M (fst e))) entries) = Ok q ->
    Charges M S q
| ch_add q1 q2 : Charges M S q1 -> Charges M S q2 -> Charges M S (qn_add q1 q2)
| ch_sub q1 q2 : Charges M S q1 -> Charges M S q2 -> Charges M S (qn_sub q1 q2)
| ch_neg q : Charges M S q -> Charges M S (qn_neg q)
| ch_mul q d : Charges M S q -> Charges M S (qn_mul q d).

(** A naming scheme: at most four distinct charge names, each with a non-zero modulus. *)
Definition Scheme (M : SmallString -> Z) (S : list SmallString) : Prop :=
  NoDup S /\ (length S <= 4)%nat /\ forall n, In n S -> M n <> 0.

(** Lexicographic comparison of two value assignments in name order. *)
Definition lex_lt (f g : SmallString -> Z) : Prop :=
  exists n, f n < g n /\ forall m, (ss_key m < ss_key n)%N -> f m = g m.
