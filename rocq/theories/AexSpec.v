(** Vocabulary for property C67 (applyExp): the numbers, combinations of vectors, and one step of a rational
    approximation of the exponential of an operator. *)
From Coq Require Import List Arith Bool Ring Field.
From Verif Require Import Util DavSpec GmSpec PadeSpec.
Import ListNotations.

(** The scalars T (real or complex) with the real numbers F inside them. *)
Record numbers {F : Type} (f0 f1 : F) (fadd fmul : F -> F -> F) {T : Type} (t0 t1 : T) (tadd tmul : T -> T -> T)
  (tconj : T -> T) (emb : F -> T) (re : T -> F) : Prop := {
  nu_0 : emb f0 = t0; nu_1 : emb f1 = t1;
  nu_add : forall x y, emb (fadd x y) = tadd (emb x) (emb y);
  nu_mul : forall x y, emb (fmul x y) = tmul (emb x) (emb y);
  nu_conj : conj_ok t1 tadd tmul tconj;
  nu_real : forall x, tconj x = x <-> exists r, x = emb r;
  nu_re : forall r, re (emb r) = r }.

Section Aex.
Context {T : Type} (t0 : T) (tadd tmul : T -> T -> T).
Context {V : Type} (vadd : V -> V -> V) (vscale : T -> V -> V) (dot : V -> V -> T).
(** y_0 u_0 + ... + y_(n-1) u_(n-1) *)
Fixpoint comb (n : nat) (y : nat -> T) (u : nat -> V) : V :=
  match n with O => vscale t0 (u 0) | S k => vadd (comb k y u) (vscale (y k) (u k)) end.
(** res is r(zH)^n phi for the rational function r = num/den. *)
Definition rational_power (H : V -> V) (z : T) (num den : list T) (n : nat) (phi res : V) : Prop :=
  exists u : nat -> V, veq dot (u 0) phi /\ veq dot (u n) res /\
    forall k, k < n ->
      veq dot (krylov t0 vadd vscale (fun v => vscale z (H v)) (u (S k)) den)
              (krylov t0 vadd vscale (fun v => vscale z (H v)) (u k) num).
End Aex.
