(** Vocabulary for property C68 (the operators of the site types): the numbers they are made of, and the algebras of spins,
    bosons and fermions. Matrices are those of PadeSpec.v: row = state after, column = state before. *)
From Coq Require Import List Arith Bool ZArith Ring Field.
From Verif Require Import Util BigSum PadeSpec.
Import ListNotations.

(** What is used of the complex numbers: the imaginary unit, and sin and cos of 2 pi/3 and 4 pi/3. *)
Record trig {T : Type} := { t_i : T; t_c2 : T; t_s2 : T; t_c4 : T; t_s4 : T }.
Arguments trig : clear implicits.
Section Sites.
Context {T : Type} (t0 t1 : T) (tadd tmul tsub : T -> T -> T) (topp : T -> T) (tdiv : T -> T -> T) (tinv : T -> T).
Context (tconj : T -> T) (rt : T -> T) (tg : trig T).
Notation N := (ofN t0 t1 tadd).
Record site_numbers : Prop := {
  sn_field : field_theory t0 t1 tadd tmul tsub topp tdiv tinv eq;
  sn_char : forall n, N (S n) <> t0;
  sn_conj : conj_ok t1 tadd tmul tconj;
  sn_root : forall n, tmul (rt (N n)) (rt (N n)) = N n;
  sn_root_real : forall n, tconj (rt (N n)) = rt (N n);
  sn_i : tmul (t_i tg) (t_i tg) = topp t1; sn_i_conj : tconj (t_i tg) = topp (t_i tg);
  sn_c2 : tmul (N 2) (t_c2 tg) = topp t1; sn_c4 : t_c4 tg = t_c2 tg;
  sn_s2 : tmul (N 4) (tmul (t_s2 tg) (t_s2 tg)) = N 3; sn_s4 : t_s4 tg = topp (t_s2 tg);
  sn_s2_real : tconj (t_s2 tg) = t_s2 tg }.

Notation mat := (@mat T). Notation mmul := (mmul t0 tadd tmul). Notation mscale := (mscale tmul). Notation madd := (madd tadd).
Definition mneg (A : mat) : mat := fun i j => topp (A i j).
Definition msub (A B : mat) : mat := fun i j => tsub (A i j) (B i j).
Definition adjoint (n : nat) (A B : mat) : Prop := meq n A (madj tconj B).
Definition commutator (n : nat) (A B : mat) : mat := msub (mmul n A B) (mmul n B A).
Definition anticommutator (n : nat) (A B : mat) : mat := madd (mmul n A B) (mmul n B A).
Definition half (x : T) : T := tmul x (tinv (N 2)).
Definition mzero : mat := fun _ _ => t0.

(** Spin D/2 on D+1 states: S- is the adjoint of S+, [Sz,S+] = S+, [S+,S-] = 2Sz, Sz is real and diagonal,
    and S.S = Sz^2 + (S+S- + S-S+)/2 = (D/2)(D/2+1). *)
Definition spin (D : nat) (Sz Sp Sm : mat) : Prop :=
  let n := S D in
  adjoint n Sm Sp /\ adjoint n Sz Sz /\ meq n (commutator n Sz Sp) Sp /\ meq n (commutator n Sz Sm) (mneg Sm) /\
  meq n (commutator n Sp Sm) (mscale (N 2) Sz) /\
  meq n (madd (mmul n Sz Sz) (mscale (half t1) (anticommutator n Sp Sm))) (mscale (tmul (half (N D)) (tadd (half (N D)) t1)) (mone t0 t1)).
(** Sx = (S+ + S-)/2, iSy = (S+ - S-)/2, Sy *)
Definition spin_x (n : nat) (Sx Sp Sm : mat) : Prop := meq n Sx (mscale (half t1) (madd Sp Sm)).
Definition spin_iy (n : nat) (ISy Sp Sm : mat) : Prop := meq n ISy (mscale (half t1) (msub Sp Sm)).
Definition spin_y (n : nat) (Sy ISy : mat) : Prop := meq n (mscale (t_i tg) Sy) ISy.

(** Bosons with at most M on a site: Adag is the adjoint of A, A takes the state with k+1 to sqrt(k+1) times the state
    with k, N = Adag A, and [A,Adag] = 1 except on the last state, where it is -M. *)
Definition boson (M : nat) (Nb A Ad : mat) : Prop :=
  let n := S M in
  adjoint n Ad A /\ (forall k, k < M -> A k (S k) = rt (N (S k))) /\
  meq n Nb (mmul n Ad A) /\ meq n (commutator n Nb Ad) Ad /\ meq n (commutator n Nb A) (mneg A) /\
  meq n (commutator n A Ad) (fun i j => if i =? j then if i =? M then topp (N M) else t1 else t0).

(** A fermionic mode: c^2 = 0, {c,c^+} = 1, number c^+ c; two modes anticommute; the parity anticommutes with each. *)
Definition fermion_mode (n : nat) (C Cd Nf : mat) : Prop :=
  adjoint n Cd C /\ meq n (mmul n C C) mzero /\ meq n (anticommutator n C Cd) (mone t0 t1) /\ meq n Nf (mmul n Cd C).
Definition anticommute (n : nat) (A B : mat) : Prop := meq n (anticommutator n A B) mzero.
(** F is the parity (-1)^Nf of the number operator of its modes: diagonal, F^2 = 1, F = product of (1 - 2 n). *)
Definition parity_of (n : nat) (F : mat) (Nf : mat) : Prop := meq n F (msub (mone t0 t1) (mscale (N 2) Nf)).
(** The number of an integer, the projector on the state n. *)
Definition ofZ (z : Z) : T := match z with Z0 => t0 | Zpos p => N (Pos.to_nat p) | Zneg p => topp (N (Pos.to_nat p)) end.
Definition projector (n : nat) : mat := fun r c => if (r =? n) && (c =? n) then t1 else t0.
End Sites.
