(** Model of the direct sum of two tensors with quantum numbers: itensor/itensor.cc
    (directSumITensors, directSum), itensor/itensor_impl.h (getBlock), itensor/index.cc
    (directSum(Index,Index)).

    Simplifications: one number type (exact numbers); all indices have QNs (an index without QNs
    among the summed ones is not modelled).  The new index that directSum(Index,Index) makes (its id
    is random) is given to the model; its blocks and quantum numbers are [sum_blocks]; the theorems
    assume that it differs from all other indices. *)
From Coq Require Import List ZArith Lia Bool Arith.
From Verif Require Import Util RangeModel TensorModel ContractModel DenseModel QnModel QdModel.
Import ListNotations.
Open Scope outcome_scope.

Section QDirectSum.
Context {R : Type} (r0 r1 : R) (radd rmul : R -> R -> R) (is0 : R -> bool).
Context {I : Type} (ieq : I -> I -> bool) (bs : I -> list nat) (qns : I -> list QN).
Context (srt : forall X : Type, (X -> X -> bool) -> list X -> list X).
Context (debug : bool).

(** directSum(Index,Index) with QNs (index.cc:533-549): the blocks of i, then those of j.  DEBUG
    builds check the arrows and that there is a block. *)
Definition sum_blocks (di dj : Arrow) (i j : I) : outcome (list (QN * nat)) :=
  if debug && negb (arrow_eqb di dj) then Err else
  let siq := combine (qns i) (bs i) ++ combine (qns j) (bs j) in
  match siq with [] => if debug then Err else Ok siq | _ => Ok siq end.

(** Matrix D with ones at (ii,ii) (itensor.cc:1147-1150, 1159-1162), stored column by column. *)
Fixpoint fill_eye (m : nat) (iis : list nat) (D : list R) : outcome (list R) :=
  match iis with
  | [] => Ok D
  | ii :: iis' => let! D' := oupd (ii + m * ii) r1 D in fill_eye m iis' D'
  end.
Definition eye (m n : nat) : outcome (list R) := fill_eye m (seq 0 (Nat.min m n)) (repeat r0 (m * n)).

(** getBlock<Real>(T,block) (itensor_impl.h:637-655, qdense.cc:895-907): a tensor without storage
    (None) first gets the storage of the block's flux.  Result: the storage, and where the block
    starts (None: a null range). *)
Definition get_block (dir : I -> Arrow) (is : list I) (T : option (qd R)) (b : block) : outcome (qd R * option nat) :=
  let! d := match T with
            | Some d => Ok d
            | None => let! q := block_qn qns dir qn0 is b in
                      let! o := qmake r0 bs qns dir is q in
                      match o with Some d => Ok d | None => Err end
            end in
  let! o := getBlock d b in
  Ok (d, o).

(** The loops of directSumITensors (itensor.cc:1142-1153 and 1156-1167): for each block iq of x, the
    block (iq,n) of the tensor with indices x and ij becomes a unit matrix; n counts on.  Assigning to
    a null range writes to a null pointer. *)
Fixpoint fill_blocks (dir : I -> Arrow) (x ij : I) (iqs : list nat) (n : nat) (T : option (qd R)) : outcome (option (qd R)) :=
  match iqs with
  | [] => Ok T
  | iq :: iqs' =>
      let! bx := oget (bs x) iq in
      let! bij := oget (bs ij) n in
      let! D := eye bx bij in
      let! (d, o) := get_block dir [x; ij] T [iq; n] in
      match o with
      | None => UB
      | Some o => let! _ := segment o (bx * bij) (store d) in
                  fill_blocks dir x ij iqs' (S n) (Some (mkQD (offs d) (put_seg o D (store d))))
      end
  end.
(** A tensor left without storage cannot be multiplied. *)
Definition selector (dir : I -> Arrow) (x ij : I) (n : nat) : outcome (qd R) :=
  let! T := fill_blocks dir x ij (seq 0 (length (bs x))) n None in
  match T with Some d => Ok d | None => Err end.

(** dir(ITensor,Index) (indexset.cc:384-392), and In.dag() when the arrow given by the caller differs
    from the tensor's (itensor.cc:1184-1185). *)
Definition arrow_of (dirA : I -> Arrow) (Ais : list I) (d : Arrow) (x : I) : outcome Arrow :=
  if existsb (ieq x) Ais then Ok (if arrow_eqb (dirA x) d then d else arrow_neg d) else Err.

(** A tensor: indices, arrows, storage. *)
Definition qten : Type := list I * (I -> Arrow) * qd R.

(** The loop of directSum(ITensor,ITensor,IndexSet,IndexSet) (itensor.cc:1180-1191); dI and dJ are the
    arrows of the indices as the caller gave them. *)
Fixpoint qds_loop (Ais : list I) (dirA : I -> Arrow) (Bis : list I) (dirB : I -> Arrow) (dI dJ : I -> Arrow)
    (Is Js IJs : list I) (AD BD : qten) (junk : nat -> R) (cj : triple -> nat -> R) : outcome (qten * qten) :=
  match Is, Js, IJs with
  | i :: Is', j :: Js', ij :: IJs' =>
      let! di := arrow_of dirA Ais (dI i) i in
      let! dj := arrow_of dirB Bis (dJ j) j in
      let! _ := sum_blocks di dj i j in
      let dir1 := fun x => if ieq x i then arrow_neg di else di in
      let dir2 := fun x => if ieq x j then arrow_neg dj else di in
      let! D1 := selector dir1 i ij 0 in
      let! D2 := selector dir2 j ij (length (bs i)) in
      let '(La, da, A) := AD in
      let '(Lb, db, B) := BD in
      let! (Na, A') := qtimes r0 r1 radd rmul is0 ieq bs srt da dir1 La A [i; ij] D1 junk cj in
      let! (Nb, B') := qtimes r0 r1 radd rmul is0 ieq bs srt db dir2 Lb B [j; ij] D2 junk cj in
      qds_loop Ais dirA Bis dirB dI dJ Is' Js' IJs' (Na, dirC ieq da dir1 La, A') (Nb, dirC ieq db dir2 Lb, B') junk cj
  | _, _, _ => Ok (AD, BD)
  end.

(** directSum(A,B,I,J) (itensor.cc:1170-1194). *)
Definition qdirectSum (dirA : I -> Arrow) (Ais : list I) (A : qd R) (dirB : I -> Arrow) (Bis : list I) (B : qd R)
    (dI dJ : I -> Arrow) (Is Js IJs : list I) (junk : nat -> R) (cj : triple -> nat -> R) : outcome qten :=
  if negb (length Is =? length Js) then Err else
  let! (AD, BD) := qds_loop Ais dirA Bis dirB dI dJ Is Js IJs (Ais, dirA, A) (Bis, dirB, B) junk cj in
  let '(La, da, A') := AD in
  let '(Lb, db, B') := BD in
  let! C := qdaxpy r0 r1 radd rmul ieq bs srt qns da db La A' Lb B' r1 in
  Ok (La, da, C).
End QDirectSum.
