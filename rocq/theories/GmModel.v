(** gmres (itensor/iterativesolvers.h:453-668), over scalars T (Real or Cplx) and an ordered field F of real numbers.

    Simplifications: ITensors are elements of a vector type with addition, scaling and eltC(dag(u)*v) as inner
    product; arithmetic is exact; a division by zero, which gives inf or NaN, is UB here; a square root that is not
    defined is Err; matrices and arrays are functions of their indices; debug output is left out. *)
From Coq Require Import List Arith Bool.
From Verif Require Import Util DavSpec GmSpec.
Import ListNotations.
Local Open Scope outcome_scope.

Section Gmres.
Context {F : Type} (f0 f1 : F) (fmul : F -> F -> F) (finv : F -> F) (fltb : F -> F -> bool) (fsqrt : F -> outcome F).
Context {T : Type} (t0 t1 : T) (tadd tmul tsub : T -> T -> T) (topp tinv : T -> T) (teqb : T -> T -> bool) (tconj : T -> T)
  (emb : F -> T) (tabs : T -> outcome F) (tsqrt : T -> outcome T) (re : T -> F).
Context {V : Type} (vadd : V -> V -> V) (vscale : T -> V -> V) (dot : V -> V -> T) (product : V -> V).
Notation "x + y" := (tadd x y). Notation "x * y" := (tmul x y). Notation "x - y" := (tsub x y).
Notation vsub := (vsub t1 topp vadd vscale).

Definition tdivo (x y : T) : outcome T := if teqb y t0 then UB else Ok (x * tinv y).
Definition upd {A} (f : nat -> A) (k : nat) (x : A) : nat -> A := fun j => if j =? k then x else f j.
(** norm(T): the square root of the sum of the |elements|^2. *)
Definition vnorm (v : V) : outcome F := fsqrt (re (dot v v)).

(** iterativesolvers.h:461-467: the back substitution in update; y[i] /= h(i,i), then y[j] -= h(j,i)*y[i] for
    the j below i (one step here, as they are independent). *)
Fixpoint backsolve (n : nat) (h : nat -> nat -> T) (y : nat -> T) : outcome (nat -> T) :=
  match n with
  | O => Ok y
  | S i =>
      let! q := tdivo (y i) (h i i) in
      backsolve i h (fun j => if j =? i then q else if j <? i then y j - h j i * q else y j)
  end.
(** iterativesolvers.h:469-470: x += y[j]*v[j]. An unset v[j] is a default-constructed ITensor. *)
Fixpoint addup (n : nat) (y : nat -> T) (v : nat -> option V) (x : V) : outcome V :=
  match n with
  | O => Ok x
  | S k => let! x' := addup k y v x in match v k with Some vk => Ok (vadd x' (vscale (y k) vk)) | None => UB end
  end.
(** iterativesolvers.h:455-471, update(x,k,h,s,v) with n = k+1. *)
Definition update (x : V) (n : nat) (h : nat -> nat -> T) (s : nat -> T) (v : nat -> option V) : outcome V :=
  let! y := backsolve n h s in addup n y v x.

(** iterativesolvers.h:473-494 *)
Definition generate_rotation (dx dy : T) : outcome (T * T) :=
  if teqb dy t0 then Ok (t1, t0)
  else
    let! ay := tabs dy in let! ax := tabs dx in
    if fltb ax ay then
      let! temp := tdivo dx dy in
      let! q := tsqrt (t1 + temp * temp) in
      let! sn := tdivo t1 q in Ok (temp * sn, sn)
    else
      let! temp := tdivo dy dx in
      let! q := tsqrt (t1 + temp * temp) in
      let! cs := tdivo t1 q in Ok (cs, temp * cs).
(** iterativesolvers.h:496-510; for Real the conjugations are absent. *)
Definition apply_rotation (dx dy cs sn : T) : T * T := (tconj cs * dx + tconj sn * dy, topp sn * dx + cs * dy).

(** iterativesolvers.h:587-591: gmres_details::dot(w, v[k], H(k,i)); w -= H(k,i)*v[k], where dot(A,B) is
    eltC(dag(A)*B). *)
Fixpoint arnoldi (n : nat) (v : nat -> option V) (w : V) (h : nat -> T) : outcome (V * (nat -> T)) :=
  match n with
  | O => Ok (w, h)
  | S k =>
      let! (w', h') := arnoldi k v w h in
      match v k with
      | Some vk => let d := dot w' vk in Ok (vadd w' (vscale (topp d) vk), upd h' k d)
      | None => UB
      end
  end.
(** iterativesolvers.h:612-613: the rotations so far, on the new column. *)
Fixpoint rotate_all (n : nat) (cs sn : nat -> T) (h : nat -> T) : nat -> T :=
  match n with
  | O => h
  | S k => let h' := rotate_all k cs sn h in
           let (a, b) := apply_rotation (h' k) (h' (S k)) (cs k) (sn k) in upd (upd h' k a) (S k) b
  end.

Record gstate := GS { gv : nat -> option V; gH : nat -> nat -> T; gcs : nat -> T; gsn : nat -> T; gs : nat -> T }.
(** The result of the for loop: update and return (line 621-625), or the end of the loop with i and j. *)
Inductive gexit := Done (x : V) | More (i j : nat) (st : gstate).
(** iterativesolvers.h:579-627, the for loop; [left] is m-i. *)
Fixpoint cycle (left i j max_iter : nat) (tol normb : F) (x : V) (st : gstate) : outcome gexit :=
  match left with
  | O => Ok (More i j st)
  | S left' =>
      if j <=? max_iter then
        match gv st i with
        | None => UB
        | Some vi =>
            let! (w, h) := arnoldi (S i) (gv st) (product vi) (fun k => gH st k i) in
            let! normw := vnorm w in
            let h := upd h (S i) (emb normw) in
            let! v := (if teqb (emb normw) t0 then Ok (gv st)
                       else let! q := tdivo t1 (emb normw) in Ok (upd (gv st) (S i) (Some (vscale q w)))) in
            let h := rotate_all i (gcs st) (gsn st) h in
            let! (c, s) := generate_rotation (h i) (h (S i)) in
            let (a, b) := apply_rotation (h i) (h (S i)) c s in
            let h := upd (upd h i a) (S i) b in
            let (s1, s2) := apply_rotation (gs st i) (gs st (S i)) c s in
            let st' := GS v (fun k col => if col =? i then h k else gH st k col) (upd (gcs st) i c) (upd (gsn st) i s) (upd (upd (gs st) i s1) (S i) s2) in
            let! a2 := tabs s2 in
            if fltb (fmul a2 (finv normb)) tol then
              let! x' := update x (S i) (gH st') (gs st') (gv st') in Ok (Done x')
            else cycle left' (S i) (S j) max_iter tol normb x st'
        end
      else Ok (More i j st)
  end.
(** iterativesolvers.h:571-637, the while loop. The result: x, and whether one of the two convergence tests
    returned. Fuel runs out (Err) only if the loop would not
    end. *)
Fixpoint outer (fuel m j max_iter : nat) (tol normb : F) (b x r : V) (beta : F) (st : gstate) : outcome (V * bool) :=
  match fuel with
  | O => Err
  | S fuel' =>
      if j <=? max_iter then
        let! q := tdivo t1 (emb beta) in
        let st0 := GS (upd (gv st) 0 (Some (vscale q r))) (gH st) (gcs st) (gsn st) (upd (fun _ => t0) 0 (emb beta)) in
        let! e := cycle m 0 j max_iter tol normb x st0 in
        match e with
        | Done x' => Ok (x', true)
        | More i j' st' =>
            let! x' := update x i (gH st') (gs st') (gv st') in
            let r' := vsub b (product x') in
            let! beta' := vnorm r' in
            if fltb (fmul beta' (finv normb)) tol then Ok (x', true)
            else outer fuel' m j' max_iter tol normb b x' r' beta' st'
        end
      else Ok (x, false)
  end.
(** iterativesolvers.h:528-569, gmresImpl, with Ax of gmres (lines 655-656). m is RestartIter and max_iter MaxIter;
    the arrays start unset. The flag says whether a convergence test ended it. *)
Definition gmres (fuel m max_iter : nat) (tol : F) (b x : V) : outcome (V * bool) :=
  let! nb := vnorm b in
  let r := vsub b (product x) in
  let! beta := vnorm r in
  let normb := if teqb (emb nb) t0 then f1 else nb in
  if negb (fltb tol (fmul beta (finv normb))) then Ok (x, true)
  else outer fuel m 1 max_iter tol normb b x r beta (GS (fun _ => None) (fun _ _ => t0) (fun _ => t0) (fun _ => t0) (fun _ => t0)).
End Gmres.
