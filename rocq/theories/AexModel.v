(** applyExp (itensor/iterativesolvers.h:956-1080), with the model of expMatrix (PadeModel.v).

    Simplifications: ITensors are elements of a vector type with addition, scaling and eltC(dag(u)*v) as inner product;
    arithmetic is exact; a division by zero, which gives inf or NaN, is UB here; a square root that is not defined is
    Err; matrices are functions of their indices; debug output is left out; MaxIter is not negative. *)
From Coq Require Import List Arith Bool ZArith.
From Verif Require Import Util DavSpec GmSpec GmModel PadeSpec PadeModel AexSpec.
Import ListNotations.
Local Open Scope outcome_scope.

(** Which of its ways out applyExp took: phi was never assigned; the Lanczos sequence was exhausted after m products with
    the last norm beta; or the loop was left by the convergence test after m products. *)
Inductive exit (F : Type) : Type := Unchanged | Exhausted (m : nat) (beta : F) | Stopped (m : nat).
Arguments Unchanged {F}. Arguments Exhausted {F}. Arguments Stopped {F}.

Section Aex.
Context {F : Type} (f0 f1 : F) (fadd fmul fsub : F -> F -> F) (fopp finv : F -> F) (fltb : F -> F -> bool) (fsqrt : F -> outcome F).
Context {T : Type} (t0 t1 : T) (tadd tmul tsub : T -> T -> T) (topp tinv : T -> T) (emb : F -> T) (re : T -> F).
Context (tabs : T -> F) (tlog : F -> Z) (gesv : nat -> @mat T -> @mat T -> outcome (@mat T)) (debug : bool).
Context {V : Type} (vadd : V -> V -> V) (vscale : T -> V -> V) (dot : V -> V -> T) (product : V -> V).
Notation vnorm := (vnorm fsqrt re dot). Notation vsub := (vsub t1 topp vadd vscale).
Notation expMatrix := (expMatrix f0 fadd fltb t0 t1 tadd tmul tsub topp tinv tabs tlog gesv debug).

Definition fis0 (x : F) : bool := negb (fltb f0 x) && negb (fltb x f0).
(** bigTmat(i,j) = x *)
Definition upd2 (M : nat -> nat -> F) (i j : nat) (x : F) : nat -> nat -> F := fun a b => if (a =? i) && (b =? j) then x else M a b.
(** iterativesolvers.h:956-966; n vectors. *)
Fixpoint assemble (n : nat) (vs : nat -> V) (lc : nat -> T) (nrm : F) : V :=
  match n with
  | O => vscale (tmul (emb nrm) (lc 0)) (vs 0)
  | S n' => match n' with
            | O => vscale (tmul (emb nrm) (lc 0)) (vs 0)
            | S _ => vadd (assemble n' vs lc nrm) (vscale (tmul (emb nrm) (lc n')) (vs n'))
            end
  end.
(** iterativesolvers.h:1042-1045 *)
Definition estimate (phi1 phi2 : F) : F :=
  let ten := ofN f0 f1 fadd 10 in
  if fltb (fmul ten phi2) phi1 then phi2
  else if fltb phi2 phi1 then fmul (fmul phi1 phi2) (finv (fsub phi1 phi2))
  else phi1.
(** iterativesolvers.h:993-1063, the turns from iter on; left = max_iter - iter. *)
Fixpoint lanczos (tau : T) (tol beta_tol : F) (phi : V) (nrm : F) (left iter : nat) (bigT : nat -> nat -> F)
    (vs : nat -> V) (v0 v1 : V) (beta : F) : outcome (V * exit F) :=
  match left with
  | O => Ok (phi, Unchanged)
  | S left' =>
      let tsize := iter + 1 in
      let w := product v1 in
      let! avnorm := vnorm w in
      let alpha := re (dot w v1) in
      let bigT := upd2 bigT iter iter alpha in
      let w := vsub w (vscale (emb alpha) v1) in
      let w := if 0 <? iter then vsub w (vscale (emb beta) v0) else w in
      let v0 := v1 in
      let! beta := vnorm w in
      if fltb (if fltb beta f0 then fopp beta else beta) beta_tol then
        let! X := expMatrix tsize tsize (fun i j => emb (bigT i j)) tau 6 in
        Ok (assemble tsize vs (fun i => X i 0) nrm, Exhausted tsize beta)
      else if fis0 beta then UB
      else
        let v1 := vscale (emb (finv beta)) w in
        let vs := upd vs (iter + 1) v1 in
        let bigT := upd2 bigT (iter + 1) iter beta in
        let bigT := upd2 bigT iter (iter + 1) beta in
        if 0 <? iter then
          let ext := upd2 (upd2 bigT (tsize - 1) tsize f0) (tsize + 1) tsize f1 in
          let! X := expMatrix (tsize + 2) (tsize + 2) (fun i j => emb (ext i j)) tau 6 in
          let phi1 := tabs (tmul (emb nrm) (X tsize 0)) in
          let phi2 := tabs (tmul (emb nrm) (tmul (X (tsize + 1) 0) (emb avnorm))) in
          if fltb (estimate phi1 phi2) tol || (left' =? 0)
          then Ok (assemble (tsize + 1) vs (fun i => X i 0) nrm, Stopped tsize)
          else lanczos tau tol beta_tol phi nrm left' (S iter) bigT vs v0 v1 beta
        else lanczos tau tol beta_tol phi nrm left' (S iter) bigT vs v0 v1 beta
  end.
(** iterativesolvers.h:968-1070 *)
Definition applyExp (phi : V) (tau : T) (tol beta_tol : F) (max_iter : nat) : outcome (V * exit F) :=
  let! nrm := vnorm phi in
  if fis0 nrm then UB
  else
    let v1 := vscale (emb (finv nrm)) phi in
    lanczos tau tol beta_tol phi nrm max_iter 0 (fun _ _ => f0) (fun _ => v1) phi v1 f0.
End Aex.
