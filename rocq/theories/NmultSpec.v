(** Vocabulary for property C61 (nmultMPO), independent of the model of the algorithm: the two site
    Indices of the tensors of an MPO, and the product of two operators. *)
From Coq Require Import List Bool Arith.
From Verif Require Import Util BigSum MpsTensor MpsSpec.
Import ListNotations.

(** The two site Indices of a tensor of an MPO, with their dimensions.  The value of the pair is
    v1 + e1 * v2, so that an MPO is a chain of tensors with one site of dimension e1 * e2. *)
Record msite (N : Type) := mkS { i1 : N; e1 : nat; i2 : N; e2 : nat }.
Arguments mkS {N}. Arguments i1 {N}. Arguments e1 {N}. Arguments i2 {N}. Arguments e2 {N}.
Definition dims {N} (st : list (msite N)) : list nat := map (fun x => e1 x * e2 x) st.

Section NmultSpec.
Context {N : Type}.
(** [o] says that the Index the other MPO does not have is the first.  Its name and dimension, and those
    of the Index the two share. *)
Definition own_name (o : bool) (x : msite N) : N := if o then i1 x else i2 x.
Definition own (o : bool) (x : msite N) : nat := if o then e1 x else e2 x.
Definition shared_name (o : bool) (x : msite N) : N := if o then i2 x else i1 x.
Definition shared (o : bool) (x : msite N) : nat := if o then e2 x else e1 x.
(** The value of the site when its own Index has the value u and the shared one m. *)
Definition both (o : bool) (x : msite N) (u m : nat) : nat := if o then u + e1 x * m else m + e1 x * u.

(** The two tensors share exactly one site Index. *)
Definition matched (oa ob : bool) (x y : msite N) : Prop :=
  shared_name oa x = shared_name ob y /\ shared oa x = shared ob y /\
  own_name oa x <> i1 y /\ own_name oa x <> i2 y /\ own_name ob y <> i1 x /\ own_name ob y <> i2 x.
Inductive all_matched : list (bool * bool) -> list (msite N) -> list (msite N) -> Prop :=
| am_nil : all_matched [] [] []
| am_cons oa ob os x xs y ys : matched oa ob x y -> all_matched os xs ys -> all_matched ((oa, ob) :: os) (x :: xs) (y :: ys).

(** The site Indices of the product: that only A has and that only B has. *)
Fixpoint product_sites (os : list (bool * bool)) (xs ys : list (msite N)) : list (msite N) :=
  match os, xs, ys with
  | (oa, ob) :: os', x :: xs', y :: ys' => mkS (own_name oa x) (own oa x) (own_name ob y) (own ob y) :: product_sites os' xs' ys'
  | _, _, _ => []
  end.
(** The dimensions of the shared Indices. *)
Fixpoint shared_dims (os : list (bool * bool)) (xs : list (msite N)) : list nat :=
  match os, xs with (oa, _) :: os', x :: xs' => shared oa x :: shared_dims os' xs' | _, _ => [] end.
(** The values of the sites of A, for the values u of its own Indices and m of the shared ones; of B; and of
    the product. *)
Fixpoint confA (os : list (bool * bool)) (xs : list (msite N)) (u m : list nat) : list nat :=
  match os, xs, u, m with (oa, _) :: os', x :: xs', u0 :: u', m0 :: m' => both oa x u0 m0 :: confA os' xs' u' m' | _, _, _, _ => [] end.
Fixpoint confB (os : list (bool * bool)) (ys : list (msite N)) (v m : list nat) : list nat :=
  match os, ys, v, m with (_, ob) :: os', y :: ys', v0 :: v', m0 :: m' => both ob y v0 m0 :: confB os' ys' v' m' | _, _, _, _ => [] end.
Fixpoint confP (ps : list (msite N)) (u v : list nat) : list nat :=
  match ps, u, v with p :: ps', u0 :: u', v0 :: v' => u0 + e1 p * v0 :: confP ps' u' v' | _, _, _ => [] end.

Context {R : Type} (r0 r1 : R) (radd rmul : R -> R -> R).
(** The product of the operators: the sum over the values of the shared Indices. *)
Definition product (os : list (bool * bool)) (xs ys : list (msite N)) (ta tb : list (@tensor R)) (u v : list nat) : R :=
  csum r0 radd (shared_dims os xs) (fun m =>
    rmul (amplitude r0 r1 radd rmul ta (confA os xs u m)) (amplitude r0 r1 radd rmul tb (confB os ys v m))).
End NmultSpec.

(** svdBond's factorisation keeps the outer link and site dimensions, and its factors share a link. *)
Definition split_shape {R} (split : @wave R -> outcome (@tensor R * @tensor R)) : Prop :=
  forall w x y, split w = Ok (x, y) -> tl x = wl w /\ tp x = wp1 w /\ tp y = wp2 w /\ tr y = wr w /\ tr x = tl y.
