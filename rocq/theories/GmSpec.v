(** Vocabulary for property C63 (gmres): the scalars of a linear system (real or complex), spaces with an inner
    product, linear operators, residuals and Krylov spaces. *)
From Coq Require Import List Arith Bool Ring Field.
From Verif Require Import Util DavSpec.
Import ListNotations.

(** Scalars T that contain the ordered field F as the numbers equal to their conjugate: T = F with the identity, or
    the complex numbers over F. [tabs] is the absolute value and [tsqrt] a square root of a
    real element that is not negative, where they are defined. *)
Record scalars {F : Type} (f0 f1 : F) (fadd fmul : F -> F -> F) (fltb : F -> F -> bool)
  {T : Type} (t0 t1 : T) (tadd tmul tsub : T -> T -> T) (topp : T -> T) (tdiv : T -> T -> T) (tinv : T -> T)
  (teqb : T -> T -> bool) (tconj : T -> T) (emb : F -> T) (tabs : T -> outcome F) (tsqrt : T -> outcome T) : Prop := {
  sc_field : field_theory t0 t1 tadd tmul tsub topp tdiv tinv eq;
  sc_eqb : forall x y, teqb x y = true <-> x = y;
  sc_0 : emb f0 = t0; sc_1 : emb f1 = t1;
  sc_add : forall x y, emb (fadd x y) = tadd (emb x) (emb y);
  sc_mul : forall x y, emb (fmul x y) = tmul (emb x) (emb y);
  sc_inj : forall x y, emb x = emb y -> x = y;
  sc_conj_add : forall x y, tconj (tadd x y) = tadd (tconj x) (tconj y);
  sc_conj_mul : forall x y, tconj (tmul x y) = tmul (tconj x) (tconj y);
  sc_conj_conj : forall x, tconj (tconj x) = x;
  sc_real : forall x, tconj x = x <-> exists r, x = emb r;
  sc_pos : forall x, exists p, tmul (tconj x) x = emb p /\ fltb p f0 = false;
  sc_abs : forall x a, tabs x = Ok a -> emb (fmul a a) = tmul (tconj x) x /\ fltb a f0 = false;
  sc_sqrt : forall x y, fltb x f0 = false -> tsqrt (emb x) = Ok y -> exists r, y = emb r /\ fmul r r = x /\ fltb r f0 = false }.

Section GmSpec.
Context {F : Type} (f0 : F) (fltb : F -> F -> bool).
Context {T : Type} (t0 t1 : T) (tadd tmul : T -> T -> T) (topp : T -> T) (tconj : T -> T) (emb : F -> T).
Context {V : Type} (vadd : V -> V -> V) (vscale : T -> V -> V) (dot : V -> V -> T).

(** Vectors are compared by their inner products with all others. *)
Definition veq (v w : V) : Prop := forall u, dot u v = dot u w.
Definition vzero (v : V) : Prop := forall u, dot u v = t0.
Record space : Prop := {
  sp_add : forall u v w, dot u (vadd v w) = tadd (dot u v) (dot u w);
  sp_scale : forall c u v, dot u (vscale c v) = tmul c (dot u v);
  sp_conj : forall u v, dot v u = tconj (dot u v);
  sp_pos : forall v, exists p, dot v v = emb p /\ fltb p f0 = false;
  sp_def : forall v, dot v v = t0 -> vzero v }.
Record linear (A : V -> V) : Prop := {
  li_add : forall v w, veq (A (vadd v w)) (vadd (A v) (A w));
  li_scale : forall c v, veq (A (vscale c v)) (vscale c (A v));
  li_ext : forall v w, veq v w -> veq (A v) (A w) }.
Definition self_adjoint (A : V -> V) : Prop := forall u v, dot u (A v) = dot (A u) v.
Definition injective (A : V -> V) : Prop := forall v, vzero (A v) -> vzero v.

(** v_0, ..., v_(n-1) are orthonormal; the dimension is the largest such n. *)
Definition orthonormal (n : nat) (v : nat -> V) : Prop := forall j k, j < n -> k < n -> dot (v j) (v k) = if j =? k then t1 else t0.
Definition dimension_at_most (n : nat) : Prop := forall v, ~ orthonormal (S n) v.

Definition vsub (v w : V) : V := vadd v (vscale (topp t1) w).
(** |b - A x|^2 = p *)
Definition residual2 (A : V -> V) (b x : V) (p : F) : Prop := dot (vsub b (A x)) (vsub b (A x)) = emb p.
(** q is (tol |b|)^2, or tol^2 for b = 0. *)
Definition goal2 (fmul : F -> F -> F) (tol : F) (b : V) (q : F) : Prop :=
  exists n, dot b b = emb n /\ (n <> f0 -> q = fmul (fmul tol tol) n) /\ (n = f0 -> q = fmul tol tol).
(** c_0 r + c_1 A r + c_2 A^2 r + ...: the vectors of the Krylov space. *)
Fixpoint krylov (A : V -> V) (r : V) (c : list T) : V :=
  match c with [] => vscale t0 r | x :: c' => vadd (vscale x r) (A (krylov A r c')) end.
End GmSpec.
