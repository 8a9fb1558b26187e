(** Lattice bond lists. itensor/mps/lattice/{latticebond,square,triangular}.h *)
From Coq Require Import List ZArith Arith Bool.
From Verif Require Import Util.
Import ListNotations.

(** itensor/mps/lattice/latticebond.h:28-74. Coordinates are Real in the code but only
    integers (or nothing, NAN) are ever stored: option nat. [type] "1"/"2"/"" is 1/2/0. *)
Record LatticeBond := mkBond {
  s1 : nat; s2 : nat; btype : nat;
  coords : option (nat * nat * (nat * nat)) }.

(** itensor/mps/lattice/latticebond.h:45-54 *)
Definition bond_xy (a b x y x' y' : nat) : LatticeBond := mkBond a b 0 (Some ((x, y), (x', y'))).
(** itensor/mps/lattice/latticebond.h:62-73 *)
Definition bond_xyt (a b x y x' y' t : nat) : LatticeBond := mkBond a b t (Some ((x, y), (x', y'))).
(** itensor/mps/lattice/latticebond.h:40-43 *)
Definition bond0 (a b : nat) : LatticeBond := mkBond a b 0 None.

(** if(c) latt.emplace_back(...) *)
Definition emit (c : bool) (b : LatticeBond) : list LatticeBond := if c then [b] else [].

(** square.h:30: yperiodic && (Ny > 2) *)
Definition eff_periodic (yp : bool) (Ny : nat) : bool := (yp && (2 <? Ny))%bool.

(** square.h:37-49, body of the loop over n *)
Definition square_body (Nx Ny : nat) (yperiodic : bool) (n : nat) : list LatticeBond :=
  let x := (n - 1) / Ny + 1 in
  let y := (n - 1) mod Ny + 1 in
  emit (x <? Nx) (bond_xy n (n + Ny) x y (x + 1) y) ++
  (if 1 <? Ny then
     emit (y <? Ny) (bond_xy n (n + 1) x y x (y + 1)) ++
     emit (yperiodic && (y =? 1)) (bond_xy n (n + Ny - 1) x y x (y + Ny))
   else []).

(** square.h:23-53. Nbond is an int: Z. *)
Definition squareLattice (Nx Ny : nat) (yp : bool) : outcome (list LatticeBond) :=
  let yperiodic := eff_periodic yp Ny in
  let N := Nx * Ny in
  let Nbond := (2 * Z.of_nat N - Z.of_nat Ny + (if yperiodic then 0 else - Z.of_nat Nx))%Z in
  let latt := flat_map (square_body Nx Ny yperiodic) (seq 1 N) in
  if negb (Z.of_nat (length latt) =? Nbond)%Z then Err else Ok latt.

(** square.h:67-102 *)
Definition squareNN_body (Nx Ny : nat) (yperiodic : bool) (n : nat) : list LatticeBond :=
  let x := (n - 1) / Ny + 1 in
  let y := (n - 1) mod Ny + 1 in
  emit (x <? Nx) (bond_xyt n (n + Ny) x y (x + 1) y 1) ++
  (if 1 <? Ny then
     emit (y <? Ny) (bond_xyt n (n + 1) x y x (y + 1) 1) ++
     emit (yperiodic && (y =? 1)) (bond_xyt n (n + Ny - 1) x y x (y + Ny) 1)
   else []) ++
  (if ((x <? Nx) && (1 <? Ny))%bool then
     emit (y <? Ny) (bond_xyt n (n + Ny + 1) x y (x + 1) (y + 1) 2) ++
     emit (1 <? y) (bond_xyt n (n + Ny - 1) x y (x + 1) (y - 1) 2) ++
     emit (yperiodic && (y =? Ny)) (bond_xyt n (n + 1) x Ny (x + 1) 1 2) ++
     emit (yperiodic && (y =? 1)) (bond_xyt n (n + 2 * Ny - 1) x 1 (x + 1) Ny 2)
   else []).

(** square.h:55-105 *)
Definition squareNextNeighbor (Nx Ny : nat) (yp : bool) : list LatticeBond :=
  flat_map (squareNN_body Nx Ny (eff_periodic yp Ny)) (seq 1 (Nx * Ny)).

(** triangular.h:38-57 *)
Definition tri_body (Nx Ny : nat) (yperiodic : bool) (n : nat) : list LatticeBond :=
  let N := Nx * Ny in
  let x := (n - 1) / Ny + 1 in
  let y := (n - 1) mod Ny + 1 in
  emit (x <? Nx) (bond0 n (n + Ny)) ++
  (if 1 <? Ny then
     emit ((n + 1 <=? N) && ((y <? Ny) || yperiodic)) (bond0 n (n + 1)) ++
     emit (yperiodic && (y =? 1)) (bond0 n (n + Ny - 1)) ++
     emit ((x <? Nx) && (y <? Ny)) (bond0 n (n + Ny + 1))
   else []).

(** triangular.h:23-63 *)
Definition triangularLattice (Nx Ny : nat) (yp : bool) : outcome (list LatticeBond) :=
  let yperiodic := eff_periodic yp Ny in
  let N := Nx * Ny in
  let Nbond := (3 * Z.of_nat N - 2 * Z.of_nat Ny + (if yperiodic then 0 else - 2 * Z.of_nat Nx + 1))%Z in
  let latt := flat_map (tri_body Nx Ny yperiodic) (seq 1 N) in
  if negb (Z.of_nat (length latt) =? Nbond)%Z then Err else Ok latt.
