(** Model of the Davidson eigensolver (itensor/iterativesolvers.h:86-450) and of
    diagHermitian (itensor/tensor/algs_impl.h:91-138), over an ordered field F and the
    complex numbers over it.

    Simplifications: the ITensors are elements of a vector type with addition, scaling
    and dag(u)*v as inner product; real numbers are those of an ordered field, with exact
    arithmetic, and sqrt may be undefined; the numeric constants of the code are
    parameters; the random tensors are given by a parameter; debug output and timers are
    left out. *)
From Coq Require Import List Arith Lia Bool.
From Verif Require Import Util DavSpec.
Import ListNotations.
Local Open Scope outcome_scope.

Section Model.
Context {F : Type} (f0 f1 : F) (fadd fmul fsub : F -> F -> F) (fopp finv : F -> F) (fltb : F -> F -> bool)
  (fsqrt : F -> outcome F).
Notation K := (@cplx F).
Notation cof := (cof f0).
Notation cmul := (cmul fadd fmul fsub).
Notation copp := (copp fopp).
Notation cconj := (cconj fopp).

(** The template parameters and members used: ITensor +, scalar *, eltC(dag(u)*v),
    BigMatrixT::product and BigMatrixT::size. *)
Context {V : Type} (vadd : V -> V -> V) (vscale : K -> V -> V) (dot : V -> V -> K)
  (product : V -> V) (size : nat).

(** detail::hermitianDiag: LAPACK zheev/dsyev on an n by n matrix; eigenvectors in the
    columns of the result. *)
Context (heev : nat -> (nat -> nat -> K) -> outcome ((nat -> nat -> K) * (nat -> F))).

(** ITensor::randomize: the k-th tensor drawn while working on vector number j, before
    (rnd0) or inside (rnd) the main loop. *)
Context (rnd0 rnd : nat -> nat -> V).

(** 1E-20, 1E-10, 1E-12, 1E-3 and 1000. (iterativesolvers.h:110,161,239,243,324). *)
Context (c1em20 c1em10 Approx0 c1em3 thousand : F).

(** norm(T) = sqrt(sum of |elements|^2). *)
Definition norm (v : V) : outcome F := fsqrt (fst (dot v v)).

(** algs_impl.h:91-138: negate, diagonalise, negate the eigenvalues, so that they come out
    from largest to smallest. Simplified: a matrix is its size and its elements; the
    storage order is the subject of C51. *)
Definition diagHermitian (n : nat) (M : nat -> nat -> K) : outcome ((nat -> nat -> K) * (nat -> F)) :=
  if n =? 0 then Err
  else
    let! (U, d) := heev n (fun i j => copp (M i j)) in
    Ok (U, fun i => fopp (d i)).

(** iterativesolvers.h:116-121: randomise while the norm is zero. [fuel] bounds the number
    of random tensors drawn; the code draws for ever if all of them are zero. *)
Definition feqb (x y : F) : bool := negb (fltb x y) && negb (fltb y x).

Fixpoint nonzero (fuel j k : nat) (v : V) : outcome (V * F) :=
  match fuel with
  | O => Err
  | S fuel' =>
      let! nrm := norm v in
      if feqb nrm f0 then nonzero fuel' j (S k) (rnd0 j k) else Ok (v, nrm)
  end.

(** iterativesolvers.h:114-123: every initial vector is normalised. *)
Fixpoint normalizeAll (fuel j : nat) (phi : list V) : outcome (list V) :=
  match phi with
  | [] => Ok []
  | v :: rest =>
      let! (w, nrm) := nonzero fuel j 0 v in
      let! rest' := normalizeAll fuel (S j) rest in
      Ok (vscale (cof (finv nrm)) w :: rest')
  end.

(** U(0,t)*X[0] + U(1,t)*X[1] + ... + U(n-1,t)*X[n-1] (lines 207-214, 418-422). *)
Fixpoint comb (U : nat -> nat -> K) (t k : nat) (acc : V) (X : list V) : V :=
  match X with
  | [] => acc
  | x :: X' => comb U t (S k) (vadd acc (vscale (U k t) x)) X'
  end.

Definition combine_cols (U : nat -> nat -> K) (t n : nat) (X : list V) : outcome V :=
  match firstn n X with
  | [] => UB
  | x :: X' => if length X <? n then UB else Ok (comb U t 1 (vscale (U 0 t) x) X')
  end.

(** One pass of Gram-Schmidt (lines 313-321): all the overlaps first, then the
    subtractions. *)
Definition overlaps (Vs : list V) (q : V) : list K := map (fun v => dot v q) Vs.

Fixpoint subtract (Vs : list V) (Vq : list K) (q : V) : V :=
  match Vs, Vq with
  | v :: Vs', c :: Vq' => subtract Vs' Vq' (vadd q (vscale (copp c) v))
  | _, _ => q
  end.

(** The loop "while(pass <= Npass)" with Npass = 1 (lines 305-357). [tot] is tot_pass after
    its increment. None: goto done. A failed pass leaves "pass" unchanged, a good one ends
    the loop; the fuel (5) does not run out because tot_pass > 3 leaves. *)
Fixpoint gramSchmidt (fuel tot ni : nat) (Vs : list V) (q : V) : outcome (option V) :=
  match fuel with
  | O => Err
  | S fuel' =>
      let q := subtract Vs (overlaps Vs q) q in
      let! qnrm := norm q in
      if fltb qnrm c1em10 then
        let q := rnd ni tot in
        let! qnrm := norm q in
        if size <=? ni then Ok None
        else if 3 <? tot then Ok None
        else gramSchmidt fuel' (S tot) ni Vs (vscale (cof (finv qnrm)) q)
      else Ok (Some (vscale (cof (finv qnrm)) q))
  end.

(** The variables that live through the main loop: V[0..], AV[0..], the matrix M, the
    last U and D with their size, t, last_lambda, phi and eigs (None is NaN). *)
Record dstate := DS {
  sV : list V;
  sAV : list V;
  sM : nat -> nat -> K;
  sn : nat;
  sU : nat -> nat -> K;
  sD : nat -> F;
  st : nat;
  slast : F;
  sphi : list V;
  seigs : list (option F) }.

Definition fabs (x : F) : F := if fltb x f0 then fopp x else x.
Definition fmax (x y : F) : F := if fltb x y then y else x.

(** Lines 184-232: diagonalise the projected matrix, compute lambda, phi_t and the residual
    q. Returns the state with eigs[t], phi[t], U and D updated, lambda and q. *)
Definition ritzStep (initEn : F) (ii : nat) (s : dstate) : outcome (dstate * F * V) :=
  let t := st s in
  if (length (seigs s) <=? t) || (length (sphi s) <=? t) then Err
  else if ii =? 0 then
    let! v0 := oget (sV s) 0 in
    let! av0 := oget (sAV s) 0 in
    let q := vadd av0 (vscale (cof (fopp initEn)) v0) in
    Ok (DS (sV s) (sAV s) (fun _ _ => cof initEn) (sn s) (sU s) (sD s) t (slast s) (sphi s)
           (upd t (Some initEn) (seigs s)), initEn, q)
  else
    let! (U, D) := diagHermitian (S ii) (fun i j => copp (sM s i j)) in
    let D := fun i => fopp (D i) in
    if S ii <=? t then UB
    else
      let lambda := D t in
      let! phit := combine_cols U t (S ii) (sV s) in
      let! q := combine_cols U t (S ii) (sAV s) in
      let q := vadd q (vscale (cof (fopp lambda)) phit) in
      let neg := fltb (fst (U 0 t)) f0 in
      let phit := if neg then vscale (cof (fopp f1)) phit else phit in
      let q := if neg then vscale (cof (fopp f1)) q else q in
      Ok (DS (sV s) (sAV s) (sM s) (S ii) U D t (slast s) (upd t phit (sphi s))
             (upd t (Some lambda) (seigs s)), lambda, q).

(** Lines 383-396: append the new basis vector, its image and the new column and row of M;
    the row is written last. *)
Definition expand (ni : nat) (q : V) (s : dstate) : dstate :=
  let Aq := product q in
  let Vs := sV s ++ [q] in
  let newCol := fun k => dot (nth k Vs q) Aq in
  DS Vs (sAV s ++ [Aq])
     (fun i j => if i =? ni then cconj (newCol j) else if j =? ni then newCol i else sM s i j)
     (sn s) (sU s) (sD s) (st s) (slast s) (sphi s) (seigs s).

(** Lines 177-400: the main loop; [left] counts the iterations after this one, so ii ==
    actual_maxiter when it is 0. *)
Fixpoint mainLoop (left ii : nat) (nget miniter : nat) (errgoal initEn : F) (s : dstate) : outcome dstate :=
  let! (s1, lambda, q) := ritzStep initEn ii s in
  let! qnorm := norm q in
  let converged :=
    (fltb qnorm errgoal && fltb (fabs (fsub lambda (slast s1))) errgoal)
    || fltb qnorm (fmax Approx0 (fmul errgoal c1em3)) in
  let s2 := DS (sV s1) (sAV s1) (sM s1) (sn s1) (sU s1) (sD s1) (st s1) lambda (sphi s1) (seigs s1) in
  let stop := fltb qnorm c1em20 || (converged && (miniter <=? ii)) || (left =? 0) in
  let next := (S (st s2) <? nget) && negb (left =? 0) in
  if stop && negb next then Ok s2
  else
    let s3 := if stop then DS (sV s2) (sAV s2) (sM s2) (sn s2) (sU s2) (sD s2) (S (st s2)) thousand (sphi s2) (seigs s2)
              else s2 in
    let! oq := gramSchmidt 5 1 (S ii) (sV s3) q in
    match oq with
    | None => Ok s3
    | Some v =>
        match left with
        | O => Err
        | S left' => mainLoop left' (S ii) nget miniter errgoal initEn (expand (S ii) v s3)
        end
    end.

(** Lines 413-423: the eigenvectors asked for and not yet targeted; D(j) and U(k,j) are
    read without a check. *)
Fixpoint remaining (count j : nat) (s : dstate) : outcome dstate :=
  match count with
  | O => Ok s
  | S count' =>
      if sn s <=? j then UB
      else
        let! p := combine_cols (sU s) j (sn s) (sV s) in
        remaining count' (S j)
          (DS (sV s) (sAV s) (sM s) (sn s) (sU s) (sD s) (st s) (slast s) (upd j p (sphi s))
              (upd j (Some (sD s j)) (seigs s)))
  end.

(** davidson(A,phi,args) for a list of vectors (lines 99-450). The test that (133-138)
    dim(inds(phi.front())) equals A.size() is the membership of the vectors in the space. *)
Definition davidson (fuel maxiter miniter : nat) (errgoal : F) (phi : list V) : outcome (list (option F) * list V) :=
  let nget := length phi in
  if nget =? 0 then Err
  else
    let! phi := normalizeAll fuel 0 phi in
    let actual_maxiter := Nat.min maxiter (size - 1) in
    let! v0 := oget phi 0 in
    let av0 := product v0 in
    let initEn := fst (dot v0 av0) in
    let! s := mainLoop actual_maxiter 0 nget miniter errgoal initEn
                (DS [v0] [av0] (fun _ _ => cof initEn) 0 (fun _ _ => cof f0) (fun _ => f0) 0 thousand phi (repeat None nget)) in
    let! s := remaining (nget - S (st s)) (S (st s)) s in
    Ok (seigs s, sphi s).

(** davidson(A,phi,args) for one vector (lines 86-97). *)
Definition davidson1 (fuel maxiter miniter : nat) (errgoal : F) (phi : V) : outcome (option F * V) :=
  let! (eigs, v) := davidson fuel maxiter miniter errgoal [phi] in
  let! p := oget v 0 in
  let! e := oget eigs 0 in
  Ok (e, p).

End Model.
