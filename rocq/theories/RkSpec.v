(** Vocabulary for property C70 (rungeKutta4, midpointMethod): a 1-indexed list of tensors as a point of a vector
    space, what it means for a derivative to act on it, and the Taylor polynomial of the exponential. *)
From Coq Require Import List Arith.
From Verif Require Import Util BigSum.
Import ListNotations.

Section Rk.
Context {K V Sh : Type} (k0 k1 : K) (kadd kmul : K -> K -> K) (kinv : K -> K)
  (vz : Sh -> V) (vadd : V -> V -> V) (vsc : K -> V -> V) (sh : V -> Sh).

(** Tensors with the same indices (the shape) form a vector space; vz s is the zero tensor with indices s. *)
Record space_ok : Prop := {
  sp_sh0 : forall s, sh (vz s) = s;
  sp_sha : forall a b, sh a = sh b -> sh (vadd a b) = sh a;
  sp_shs : forall c a, sh (vsc c a) = sh a;
  sp_comm : forall a b, sh a = sh b -> vadd a b = vadd b a;
  sp_assoc : forall a b c, sh a = sh b -> sh b = sh c -> vadd a (vadd b c) = vadd (vadd a b) c;
  sp_0 : forall a, vadd (vz (sh a)) a = a;
  sp_z : forall a, vsc k0 a = vz (sh a);
  sp_dist : forall c a b, sh a = sh b -> vsc c (vadd a b) = vadd (vsc c a) (vsc c b);
  sp_plus : forall c d a, vsc (kadd c d) a = vadd (vsc c a) (vsc d a);
  sp_mul : forall c d a, vsc (kmul c d) a = vsc c (vsc d a);
  sp_1 : forall a, vsc k1 a = a }.

(** A point: one tensor for each place 1..N. *)
Definition point : Type := nat -> V.
Definition shaped (N : nat) (s : nat -> Sh) (x : point) : Prop := forall j, 1 <= j <= N -> sh (x j) = s j.
(** The list w holds the point x: a null tensor stands for zero. *)
Definition shows (N : nat) (s : nat -> Sh) (w : list (option V)) (x : point) : Prop :=
  shaped N s x /\
  forall j, 1 <= j <= N -> nth_error w j = Some (Some (x j)) \/ (nth_error w j = Some None /\ x j = vz (s j)).
(** The same list, except at places 1..N. *)
Definition same_outside (N : nat) (v w : list (option V)) : Prop :=
  length w = length v /\ forall j, j = 0 \/ N < j -> nth_error w j = nth_error v j.
(** N is the last place of v with a tensor that is not null, and place 1 if there is none. *)
Definition last_place (v : list (option V)) (N : nat) : Prop :=
  1 <= N < length v /\ (forall j, N < j < length v -> nth_error v j = Some None) /\ (1 < N -> nth_error v N <> Some None).

(** On every list that differs from v at places 1..N only, D computes the map F of points. *)
Definition acts (N : nat) (s : nat -> Sh) (v : list (option V))
  (D : list (option V) -> outcome (list (option V))) (F : point -> point) : Prop :=
  (forall x, shaped N s x -> shaped N s (F x)) /\
  forall w x, same_outside N v w -> shows N s w x ->
    exists k, D w = Ok k /\ forall j, 1 <= j <= N -> nth_error k j = Some (Some (F x j)).
(** F is linear. *)
Definition linear (N : nat) (s : nat -> Sh) (F : point -> point) : Prop :=
  forall c x y, shaped N s x -> shaped N s y -> forall j, 1 <= j <= N ->
    F (fun i => vadd (x i) (vsc c (y i))) j = vadd (F x j) (vsc c (F y j)).

Fixpoint kpow (t : K) (n : nat) : K := match n with 0 => k1 | S n' => kmul t (kpow t n') end.
Fixpoint ofN (n : nat) : K := match n with 0 => k0 | S n' => kadd (ofN n') k1 end.
(** The sum of t^i/i! F^i x for i = 0..n: the Taylor polynomial of exp(t F) x. *)
Fixpoint taylor (n : nat) (t : K) (F : point -> point) (x : point) : point := fun j =>
  match n with
  | 0 => x j
  | S n' => vadd (taylor n' t F x j) (vsc (kmul (kpow t n) (kinv (ofN (fact n)))) (Nat.iter n F x j))
  end.

(** A linear functional of points: the sum over the places of linear functionals of the tensors. *)
Definition functional (phi : nat -> V -> K) : Prop :=
  (forall j a b, sh a = sh b -> phi j (vadd a b) = kadd (phi j a) (phi j b)) /\
  (forall j c a, phi j (vsc c a) = kmul c (phi j a)).
Definition total (N : nat) (phi : nat -> V -> K) (x : point) : K := bsum k0 kadd N (fun i => phi (S i) (x (S i))).
End Rk.
