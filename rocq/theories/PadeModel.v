(** expMatrix (itensor/tensor/algs_impl.h:258-287) and expPade (itensor/tensor/algs.cc:826-938 for Real,
    940-1053 for Cplx, which are the same line by line).

    Simplifications: exact arithmetic; matrices are functions of row and column; the LAPACK calls ?lange('I') and ?gesv
    and the truncated logarithm are parameters. *)
From Coq Require Import List Arith Bool ZArith.
From Verif Require Import Util BigSum PadeSpec.
Import ListNotations.
Local Open Scope outcome_scope.

Section Pade.
Context {F : Type} (f0 : F) (fadd : F -> F -> F) (fltb : F -> F -> bool).
Context {T : Type} (t0 t1 : T) (tadd tmul tsub : T -> T -> T) (topp tinv : T -> T).
Context (tabs : T -> F) (tlog : F -> Z) (gesv : nat -> @mat T -> @mat T -> outcome (@mat T)) (debug : bool).
Notation mat := (@mat T).
Notation bsum := (bsum t0 tadd).
Notation mone := (mone t0 t1). Notation madd := (madd tadd). Notation mscale := (mscale tmul).
Notation mmul := (mmul t0 tadd tmul). Notation ofN := (ofN t0 t1 tadd).

(** ?lange('I',N,N,F): the largest row sum of absolute values. *)
Definition rowsum (n : nat) (A : mat) (i : nat) : F := BigSum.bsum f0 fadd n (fun j => tabs (A i j)).
Fixpoint maxrow (k n : nat) (A : mat) : F :=
  match k with
  | O => f0
  | S k' => let m := maxrow k' n A in if fltb m (rowsum n A k') then rowsum n A k' else m
  end.
Definition lange (n : nat) (A : mat) : F := maxrow n n A.

(** algs.cc:835-839: the number of squarings.  The logarithm of 0 is -inf, whose conversion to int is undefined. *)
Definition squarings (n : nat) (A : mat) : outcome nat :=
  let nrm := lange n A in
  if negb (fltb f0 nrm) then (if debug then Err else UB)
  else Ok (Z.to_nat (Z.max 0 (tlog nrm + 2))).
(** algs.cc:846-851 *)
Fixpoint coef (ideg k : nat) : T :=
  match k with
  | O => t1
  | S k' => tmul (coef ideg k') (tmul (ofN (ideg + 1 - k)) (tinv (ofN (k * (2 * ideg + 1 - k)))))
  end.
(** Q(j,j) = c for all j, of a matrix of zeros; Q(j,j) += c. *)
Definition diagset (c : T) : mat := fun i j => if i =? j then c else t0.
Definition diagadd (A : mat) (c : T) : mat := fun i j => if i =? j then tadd (A i j) c else A i j.
(** algs.cc:874-894, from the turn k of the loop on. *)
Fixpoint horner (n ideg : nat) (F2 : mat) (k : nat) (odd : bool) (P Q : mat) : bool * mat * mat :=
  match k with
  | O => (odd, P, Q)
  | S k' => if odd then horner n ideg F2 k' (negb odd) P (diagadd (mmul n Q F2) (coef ideg k'))
            else horner n ideg F2 k' (negb odd) (diagadd (mmul n P F2) (coef ideg k')) Q
  end.
(** algs.cc:924-927 *)
Fixpoint squared (n : nat) (k : nat) (P : mat) : mat :=
  match k with O => P | S k' => squared n k' (mmul n P P) end.
Definition msub (A B : mat) : mat := fun i j => tsub (A i j) (B i j).
(** algs.cc:826-938 *)
Definition expPade (n : nat) (A : mat) (ideg : nat) : outcome mat :=
  let! ns := squarings n A in
  let scale := tinv (ofN (2 ^ ns)) in
  let scale2 := tmul scale scale in
  let F2 := mscale scale2 (mmul n A A) in
  let Q := diagset (coef ideg ideg) in
  let P := diagset (coef ideg (ideg - 1)) in
  let '(odd, P, Q) := horner n ideg F2 (ideg - 1) true P Q in
  let '(P, Q) := if odd then (P, mmul n (mscale scale Q) A) else (mmul n (mscale scale P) A, Q) in
  let Q := msub Q P in
  let! P := gesv n Q P in
  let P := mscale (tadd t1 t1) P in
  let P := diagadd P t1 in
  let P := if (ns =? 0) && odd then mscale (topp t1) P else P in
  Ok (squared n ns P).
(** algs_impl.h:258-287; ideg is an int: here a number <= 0 is 0. *)
Definition expMatrix (nrows ncols : nat) (M : mat) (t : T) (ideg : nat) : outcome mat :=
  if ideg =? 0 then Err
  else if ncols <? 1 then Err
  else if negb (ncols =? nrows) then Err
  else expPade ncols (mscale t M) ideg.
End Pade.
