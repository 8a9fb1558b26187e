(** Vocabulary for property C53 (davidson), independent of the model:
    ordered fields, complex numbers over them, spaces with an inner product,
    Hermitian operators and Ritz pairs. *)
From Coq Require Import List Arith Lia Bool Ring Field.
From Verif Require Import Util.
Import ListNotations.

(** An ordered field: the real numbers, with a decidable "<". *)
Record ordered_field {F : Type} (f0 f1 : F) (fadd fmul fsub : F -> F -> F) (fopp : F -> F)
  (fdiv : F -> F -> F) (finv : F -> F) (fltb : F -> F -> bool) : Prop := {
  of_field : field_theory f0 f1 fadd fmul fsub fopp fdiv finv eq;
  of_irrefl : forall x, fltb x x = false;
  of_trans : forall x y z, fltb x y = true -> fltb y z = true -> fltb x z = true;
  of_total : forall x y, fltb x y = false -> fltb y x = false -> x = y;
  of_add : forall x y z, fltb x y = true -> fltb (fadd x z) (fadd y z) = true;
  of_mul : forall x y, fltb f0 x = true -> fltb f0 y = true -> fltb f0 (fmul x y) = true }.

(** A square root wherever it is defined. *)
Definition sqrt_ok {F : Type} (f0 : F) (fmul : F -> F -> F) (fltb : F -> F -> bool) (fsqrt : F -> outcome F) : Prop :=
  forall x r, fsqrt x = Ok r -> fmul r r = x /\ fltb r f0 = false.

Section Complex.
Context {F : Type} (f0 f1 : F) (fadd fmul fsub : F -> F -> F) (fopp : F -> F) (fltb : F -> F -> bool).

(** Complex numbers over F. *)
Definition cplx : Type := (F * F)%type.
Definition cof (x : F) : cplx := (x, f0).
Definition c0 : cplx := (f0, f0).
Definition c1 : cplx := (f1, f0).
Definition cadd (a b : cplx) : cplx := (fadd (fst a) (fst b), fadd (snd a) (snd b)).
Definition cmul (a b : cplx) : cplx :=
  (fsub (fmul (fst a) (fst b)) (fmul (snd a) (snd b)), fadd (fmul (fst a) (snd b)) (fmul (snd a) (fst b))).
Definition copp (a : cplx) : cplx := (fopp (fst a), fopp (snd a)).
Definition csub (a b : cplx) : cplx := (fsub (fst a) (fst b), fsub (snd a) (snd b)).
Definition cconj (a : cplx) : cplx := (fst a, fopp (snd a)).

Fixpoint csum (n : nat) (f : nat -> cplx) : cplx :=
  match n with O => c0 | S m => cadd (csum m f) (f m) end.

(** A complex vector space with an inner product, conjugate linear in its first
    argument; [inV] is the carrier. *)
Record inner_space {V : Type} (inV : V -> Prop) (vadd : V -> V -> V) (vscale : cplx -> V -> V)
  (dot : V -> V -> cplx) : Prop := {
  is_add_in : forall v w, inV v -> inV w -> inV (vadd v w);
  is_scale_in : forall c v, inV v -> inV (vscale c v);
  is_add : forall u v w, inV u -> inV v -> inV w -> dot u (vadd v w) = cadd (dot u v) (dot u w);
  is_scale : forall c u v, inV u -> inV v -> dot u (vscale c v) = cmul c (dot u v);
  is_conj : forall u v, inV u -> inV v -> dot v u = cconj (dot u v);
  is_pos : forall v, inV v -> fltb (fst (dot v v)) f0 = false }.

(** A linear Hermitian operator on it. *)
Record hermitian {V : Type} (inV : V -> Prop) (vadd : V -> V -> V) (vscale : cplx -> V -> V)
  (dot : V -> V -> cplx) (A : V -> V) : Prop := {
  h_in : forall v, inV v -> inV (A v);
  h_add : forall u v w, inV u -> inV v -> inV w -> dot u (A (vadd v w)) = cadd (dot u (A v)) (dot u (A w));
  h_scale : forall c u v, inV u -> inV v -> dot u (A (vscale c v)) = cmul c (dot u (A v));
  h_herm : forall u v, inV u -> inV v -> dot u (A v) = dot (A u) v }.

(** A normalised vector v with Rayleigh quotient e. *)
Definition ritz {V : Type} (inV : V -> Prop) (dot : V -> V -> cplx) (A : V -> V) (e : F) (v : V) : Prop :=
  inV v /\ dot v v = c1 /\ dot v (A v) = cof e.

(** What the LAPACK eigensolver promises for an n by n Hermitian matrix: a unitary
    matrix of eigenvectors, with the eigenvalues in ascending order. *)
Definition heev_ok (heev : nat -> (nat -> nat -> cplx) -> outcome ((nat -> nat -> cplx) * (nat -> F))) : Prop :=
  forall n M U w, (forall i j, i < n -> j < n -> M j i = cconj (M i j)) ->
    heev n M = Ok (U, w) ->
    (forall i j, i < j -> j < n -> fltb (w j) (w i) = false) /\
    (forall i j, i < n -> j < n -> csum n (fun k => cmul (cconj (U k i)) (U k j)) = if i =? j then c1 else c0) /\
    (forall i j, i < n -> j < n -> csum n (fun k => cmul (U i k) (cconj (U j k))) = if i =? j then c1 else c0) /\
    (forall i j, i < n -> j < n -> csum n (fun k => cmul (M i k) (U k j)) = cmul (U i j) (cof (w j))).

End Complex.
