(** Lattices, independently of the code: sites are points (x,y) with 1<=x<=Nx, 1<=y<=Ny;
    point (x,y) is numbered column by column. *)
From Coq Require Import List Arith.
From Verif Require Import LatticeModel.
Import ListNotations.

Definition in_grid (Nx Ny x y : nat) : Prop := 1 <= x <= Nx /\ 1 <= y <= Ny.
Definition site (Ny x y : nat) : nat := (x - 1) * Ny + y.

(** y' is one step up from y; [wrap] closes the column into a ring. A ring needs at least
    three sites (with two the wrapped bond would coincide with the ordinary one). *)
Definition up (Ny : nat) (wrap : bool) (y y' : nat) : Prop :=
  y' = y + 1 /\ y' <= Ny \/ wrap = true /\ 2 < Ny /\ y = Ny /\ y' = 1.

(** Nearest neighbours on the square lattice: one step right or one step up. *)
Definition square_step (Nx Ny : nat) (wrap : bool) (a b : nat) : Prop :=
  exists x y x' y', in_grid Nx Ny x y /\ in_grid Nx Ny x' y' /\
    a = site Ny x y /\ b = site Ny x' y' /\
    (x' = x + 1 /\ y' = y \/ x' = x /\ up Ny wrap y y').

(** Diagonal (second) neighbours: one step right and one step up or down. *)
Definition diag_step (Nx Ny : nat) (wrap : bool) (a b : nat) : Prop :=
  exists x y x' y', in_grid Nx Ny x y /\ in_grid Nx Ny x' y' /\
    a = site Ny x y /\ b = site Ny x' y' /\
    x' = x + 1 /\ (up Ny wrap y y' \/ up Ny wrap y' y).

(** Triangular lattice: right, up, and right-and-up. *)
Definition tri_step (Nx Ny : nat) (wrap : bool) (a b : nat) : Prop :=
  exists x y x' y', in_grid Nx Ny x y /\ in_grid Nx Ny x' y' /\
    a = site Ny x y /\ b = site Ny x' y' /\
    (x' = x + 1 /\ y' = y \/ x' = x /\ up Ny wrap y y' \/ x' = x + 1 /\ up Ny wrap y y').

(** The end points of the bonds. *)
Definition ends (L : list LatticeBond) : list (nat * nat) := map (fun b => (s1 b, s2 b)) L.

(** [L] lists every edge of the graph [R] exactly once (in one of the two directions). *)
Definition lists_edges (L : list (nat * nat)) (R : nat -> nat -> Prop) : Prop :=
  NoDup L /\
  (forall a b, In (a, b) L -> ~ In (b, a) L) /\
  (forall a b, In (a, b) L \/ In (b, a) L <-> R a b \/ R b a).
