(** What a term, a sum of terms and a matrix product operator mean, written without the model's
    functions: an algebra of operators with scalars, fermionic exchange rules, products and sums. *)
From Coq Require Import List Arith Bool String.
From Verif Require Import AutoMpoModel.
Import ListNotations.
Local Open Scope string_scope.

(** Operators whose name starts with C are fermionic. *)
Definition fermionic (t : sterm) : bool := String.prefix "C" (st_op t).

Section Algebra.
Context {R : Type} (r0 r1 : R) (radd rmul : R -> R -> R) (ropp : R -> R).
Context {A : Type} (azero aone : A) (aadd amul : A -> A -> A) (scal : R -> A -> A).

(** A is an algebra over the scalars R: products and sums of operators, and operators times numbers. *)
Record algebra_laws : Prop := {
  al_assoc : forall x y z, amul x (amul y z) = amul (amul x y) z;
  al_one_l : forall x, amul aone x = x;
  al_one_r : forall x, amul x aone = x;
  al_add_comm : forall x y, aadd x y = aadd y x;
  al_add_assoc : forall x y z, aadd x (aadd y z) = aadd (aadd x y) z;
  al_add_zero : forall x, aadd azero x = x;
  al_scal_one : forall x, scal r1 x = x;
  al_scal_zero : forall x, scal r0 x = azero;
  al_scal_mul : forall r s x, scal r (scal s x) = scal (rmul r s) x;
  al_scal_add : forall r s x, scal (radd r s) x = aadd (scal r x) (scal s x);
  al_scal_l : forall r x y, amul (scal r x) y = scal r (amul x y);
  al_scal_r : forall r x y, amul x (scal r y) = scal r (amul x y)
}.

(** I interprets every (operator name, site) as an operator.  Operators on different sites commute,
    except that two fermionic ones anticommute. *)
Definition exchange_rules (I : sterm -> A) : Prop :=
  forall a b, st_i a <> st_i b ->
    amul (I a) (I b) = if fermionic a && fermionic b then scal (ropp r1) (amul (I b) (I a)) else amul (I b) (I a).

(** The product of the listed operators, in that order. *)
Definition product (I : sterm -> A) (l : list sterm) : A := fold_right amul aone (map I l).

(** The operator denoted by a list of terms: the sum of coefficient times product. *)
Definition opsum (I : sterm -> A) (l : list (@hterm R)) : A :=
  fold_right aadd azero (map (fun h => scal (ht_coef h) (product I (ht_ops h))) l).

Definition rprod (l : list R) : R := fold_right rmul r1 l.

(** Meaning of the arguments of `ampo += ...`: a number, or an integer not preceded by an operator
    name, multiplies the coefficient; a name followed by an integer is an operator on that site. *)
Inductive stmt_means (inj : nat -> R) : list (@tok R) -> R -> list sterm -> Prop :=
| sm_nil : stmt_means inj [] r1 []
| sm_num : forall x l c ops, stmt_means inj l c ops -> stmt_means inj (TNum x :: l) (rmul x c) ops
| sm_int : forall i l c ops, stmt_means inj l c ops -> stmt_means inj (TInt i :: l) (rmul (inj i) c) ops
| sm_op : forall s i l c ops, stmt_means inj l c ops ->
    stmt_means inj (TStr s :: TInt i :: l) c (ST s i :: ops).
End Algebra.

(** Operator names the exact conversion puts on site n for a term with operators ops:
    a single operator stays as it is; for a pair the first one is renamed by startTerm, the second by
    endTerm, and every site strictly between carries F if the first is fermionic. *)
Definition placed (ops : list sterm) (n : nat) : string :=
  match ops with
  | [a] => if Nat.eqb n (st_i a) then st_op a else "Id"
  | [a; b] => if Nat.eqb n (st_i a) then startTerm (st_op a)
              else if Nat.eqb n (st_i b) then endTerm (st_op b)
              else if Nat.ltb (st_i a) n && Nat.ltb n (st_i b) && fermionic a then "F"
              else "Id"
  | _ => "Id"
  end.

(** Product over the sites 1..N of the matrix elements of the placed operators. *)
Definition placed_value {R : Type} (r1 : R) (rmul : R -> R -> R) (val : nat -> string -> R) (N : nat)
  (ops : list sterm) : R := fold_right rmul r1 (map (fun n => val n (placed ops n)) (seq 1 N)).

Definition total_value {R : Type} (r0 r1 : R) (radd rmul : R -> R -> R) (val : nat -> string -> R) (N : nat)
  (terms : list (@hterm R)) : R :=
  fold_right radd r0 (map (fun h => rmul (ht_coef h) (placed_value r1 rmul val N (ht_ops h))) terms).

(** *** Jordan-Wigner images *)
Section JW.
Context {L : Type} (lone : L) (lmul : L -> L -> L).
(** loc n op: the operator named op on site n, among the operators of that site alone.
    A fermionic operator on site i acts as itself on site i and as F on every site to its left;
    any other operator acts on its own site only. *)
Definition jw_local (loc : nat -> string -> L) (t : sterm) (n : nat) : L :=
  if Nat.eqb n (st_i t) then loc n (st_op t)
  else if Nat.ltb n (st_i t) && fermionic t then loc n "F" else lone.
(** What the product of the operators ops does on site n. *)
Definition jw_image (loc : nat -> string -> L) (ops : list sterm) (n : nat) : L :=
  fold_right lmul lone (map (fun t => jw_local loc t n) ops).
(** Number of fermionic operators. *)
Definition nfermi (ops : list sterm) : nat := List.length (filter fermionic ops).
End JW.
