(** Model of the direct sum of two dense tensors: itensor/itensor.cc (directSumITensors, directSum),
    itensor/index.cc (directSum(Index,Index)).

    Simplifications: one number type (exact numbers); no QNs.  The new index that
    directSum(Index,Index) makes (its id is random) is given to the model: [idim] of it is the
    sum of the dimensions, and the theorems assume it differs from all other indices. *)
From Coq Require Import List ZArith Lia Bool Arith.
From Verif Require Import Util RangeModel TensorModel ContractModel DenseModel DiagModel.
Import ListNotations.
Open Scope outcome_scope.

Section DirectSum.
Context {R : Type} (r0 r1 : R) (radd rmul : R -> R -> R) (is0 is1 : R -> bool).
Context {I : Type} (ieq : I -> I -> bool) (idim : I -> nat).

(** dim_ij of directSum(Index,Index) without QNs (index.cc:527-532). *)
Definition sum_dim (i j : nat) : nat := let n := i + j in if n =? 0 then 1 else n.

(** The matrix S (itensor.cc:1132-1136), dim(j) rows and dim(ij) columns stored column by column;
    [jjs] are the values of jj still to come. *)
Fixpoint fill_S (di dj : nat) (jjs : list nat) (S : list R) : outcome (list R) :=
  match jjs with
  | [] => Ok S
  | jj :: jjs' => let! S' := oupd (jj + dj * (di + jj)) r1 S in fill_S di dj jjs' S'
  end.
Definition mat_S (di dj dij : nat) : outcome (list R) := fill_S di dj (seq 0 dj) (repeat r0 (dj * dij)).

(** dir(ITensor,Index) (indexset.cc:384-392) throws for an index the tensor lacks; the arrow it
    returns does not matter without QNs. *)
Definition find_dir (is : list I) (x : I) : outcome unit := if existsb (ieq x) is then Ok tt else Err.

(** The loop of directSum(ITensor,ITensor,IndexSet,IndexSet) (itensor.cc:1180-1191).  A product that
    has diagonal storage could only come from a tensor with no other index, and then it is dense. *)
Fixpoint ds_loop (Ais Bis : list I) (Is Js IJs : list I) (AD : list I * list R) (BD : list I * list R)
    (junk : nat -> R) : outcome ((list I * list R) * (list I * list R)) :=
  match Is, Js, IJs with
  | i :: Is', j :: Js', ij :: IJs' =>
      let! _ := find_dir Ais i in
      let! _ := find_dir Bis j in
      let! D2 := mat_S (idim i) (idim j) (idim ij) in
      let! (Nis, st) := times_diag r0 radd rmul is1 ieq idim false (fst AD) (snd AD) [i; ij] (delta r1 idim [i; ij]) in
      match st with
      | SDiag _ => Err
      | SDense a =>
          let! BD' := times r0 r1 radd rmul is0 ieq idim (fst BD) (snd BD) [j; ij] D2 junk in
          ds_loop Ais Bis Is' Js' IJs' (Nis, a) BD' junk
      end
  | _, _, _ => Ok (AD, BD)
  end.

(** directSum(A,B,I,J) (itensor.cc:1170-1194). *)
Definition directSum (Ais : list I) (A : list R) (Bis : list I) (B : list R) (Is Js IJs : list I)
    (junk : nat -> R) : outcome (list I * list R) :=
  if negb (length Is =? length Js) then Err else
  let! (AD, BD) := ds_loop Ais Bis Is Js IJs (Ais, A) (Bis, B) junk in
  let! C := plus_eq r1 radd rmul ieq idim false (fst AD) (snd AD) (fst BD) (snd BD) in
  Ok (fst AD, C).
End DirectSum.
