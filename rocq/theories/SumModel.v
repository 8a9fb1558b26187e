(** Adding matrix product states: plussers, addAssumeOrth, plusEq and the sum of a
    vector of states (itensor/mps/mpsalgs.cc, itensor/mps/mps.cc). *)
From Coq Require Import List Bool Arith.
From Verif Require Import Util BigSum MpsTensor.
Import ListNotations.
Local Open Scope outcome_scope.

Section Sum.
Context {R : Type} (r0 r1 : R) (radd rmul : R -> R -> R).
Notation tensor := (@tensor R).
Notation matrix := (@matrix R).

(** mpsalgs.cc:35-93, plussers: the tensors [first] (l1 to the sum index) and
    [second] (l2 to the sum index).  With QNs the blocks of l1 are followed by those
    of l2 and each gets an identity: the same two matrices. *)
Definition first : matrix := fun a c => if Nat.eqb a c then r1 else r0.
Definition second (d1 : nat) : matrix := fun b c => if Nat.eqb (d1 + b) c then r1 else r0.
Definition transpose (M : matrix) : matrix := fun a b => M b a.

(** Addition of two tensors needs the same indices (itensor.cc:1207-1251); the link
    indices are shared by construction, the site index must be the same. *)
Definition tadd (x y : tensor) : outcome tensor :=
  if Nat.eqb (tl x) (tl y) && Nat.eqb (tp x) (tp y) && Nat.eqb (tr x) (tr y)
  then Ok (mkT (tl x) (tp x) (tr x) (tj x || tj y) (fun a s b => radd (te x a s b) (te y a s b)))
  else Err.

(** dag(first.at(i-1))*L(i) and dag(second.at(i-1))*R(i): the entries are 0 and 1, so
    dag only turns arrows. *)
Definition grow_left (M : matrix) (k : nat) (t : tensor) : tensor :=
  mul_left r0 radd rmul (transpose M) k t.
Definition grow_right (M : matrix) (k : nat) (t : tensor) : tensor :=
  mul_right r0 radd rmul M k t.

(** mpsalgs.cc:127-133: tensors 2..N. *)
Fixpoint add_rest (ls rs : list tensor) : outcome (list tensor) :=
  match ls, rs with
  | [x], [y] =>
      let k := tl x + tl y in
      let! z := tadd (grow_left first k x) (grow_left (second (tl x)) k y) in Ok [z]
  | x :: ls', y :: rs' =>
      let k := tl x + tl y in let k' := tr x + tr y in
      let! z := tadd (grow_right first k' (grow_left first k x))
                     (grow_right (second (tr x)) k' (grow_left (second (tl x)) k y)) in
      let! zs := add_rest ls' rs' in Ok (z :: zs)
  | _, _ => Err
  end.
(** mpsalgs.cc:99-126 before the final orthogonalize.  For N = 1 [first] has one
    element and first.at(1) throws.  The temporary priming of the links is not
    modelled: links of different states are always distinct here. *)
Definition addAssumeOrth (ls rs : list tensor) : outcome (list tensor) :=
  if negb (Nat.eqb (length rs) (length ls)) then Err else
  match ls, rs with
  | x :: (_ :: _) as ls', y :: rs' =>
      let k' := tr x + tr y in
      let! z := tadd (grow_right first k' x) (grow_right (second (tr x)) k' y) in
      let! zs := add_rest (tail ls) rs' in Ok (z :: zs)
  | _, _ => Err
  end.

(** orthogonalize (mps.cc:738-812) is a parameter; [None] is the exception
    ResultIsZero. *)
Definition ores := outcome (option (list tensor)).
Variable orthogonalize : list tensor -> ores.
(** A state and whether isOrtho holds of it. *)
Definition state := (list tensor * bool)%type.

(** mpsalgs.cc:134-136: the sum is orthogonalized; ResultIsZero is not caught there. *)
Definition add_orth (ls rs : list tensor) : outcome state :=
  let! zs := addAssumeOrth ls rs in
  let! o := orthogonalize zs in
  match o with Some ts => Ok (ts, true) | None => Err end.

(** mps.cc:586-618, plusEq. *)
Definition plusEq (l r : state) : outcome state :=
  let! l' := (if snd l then Ok (Some (fst l)) else orthogonalize (fst l)) in
  match l' with
  | None => Ok r
  | Some ls =>
      let! r' := (if snd r then Ok (Some (fst r)) else orthogonalize (fst r)) in
      match r' with
      | None => Ok (ls, true)
      | Some rs => add_orth ls rs
      end
  end.
End Sum.

(** mps.cc:1471-1507, sum(vector): [plus] is sum(L,R), [dflt] the default constructed
    object.  The fuel is the number of terms; running out is reported as UB and
    shown impossible. *)
Section Tree.
Context {A : Type} (plus : A -> A -> outcome A) (dflt : A).
(** mps.cc:1491-1496: the loop over pairs, and terms.back() when the number is odd. *)
Fixpoint pairs (ts : list A) : outcome (list A) :=
  match ts with
  | x :: y :: ts' => let! z := plus x y in let! zs := pairs ts' in Ok (z :: zs)
  | [x] => Ok [x]
  | [] => Ok []
  end.
Fixpoint sum_fuel (n : nat) (ts : list A) : outcome A :=
  match ts with
  | [] => Ok dflt
  | [x] => Ok x
  | [x; y] => plus x y
  | _ => match n with O => UB | S n' => let! zs := pairs ts in sum_fuel n' zs end
  end.
Definition sum_vector (ts : list A) : outcome A := sum_fuel (length ts) ts.
End Tree.
