(** Model of itensor/mps/integrators.h: rungeKutta4 and midpointMethod for ITensors.
    Not modelled: args (not used by the code). *)
From Coq Require Import List Arith Bool.
From Verif Require Import Util.
Import ListNotations.
Local Open Scope outcome_scope.

Section Rk.
Context {K V Sh : Type} (k1 : K) (kadd kmul : K -> K -> K) (kinv : K -> K)
  (vadd : V -> V -> V) (vsc : K -> V -> V) (sh : V -> Sh) (sheq : Sh -> Sh -> bool).

(** An ITensor: None is a default constructed one (itensor/itensor.h:94-95). V is the set of tensors up to the
    order of their indices, sh the set of the indices. *)
Notation tens := (option V).
(** std::vector::at: throws out of range. *)
Definition at_ {A} (l : list A) (j : nat) : outcome A := match nth_error l j with Some a => Ok a | None => Err end.

(** operator*(Real,ITensor): itensor/itensor.cc:1097-1098, operator*=(Real) 1014-1019; doTask throws on a null
    storage (itensor/itdata/dotask.h:476-480). Scale factors (USESCALE) are not modelled. *)
Definition t_scale (c : K) (a : tens) : outcome tens :=
  match a with None => Err | Some x => Ok (Some (vsc c x)) end.
(** operator+=: itensor/itensor.cc:1253-1264, daxpy 1207-1251 (throws if the indices differ; the check of the
    flux of QN tensors, checkSameDiv, is part of the shape here). *)
Definition t_pluseq (a b : tens) : outcome tens :=
  match a, b with
  | None, _ => Ok b
  | Some _, None => Err
  | Some x, Some y => if sheq (sh x) (sh y) then Ok (Some (vadd x y)) else Err
  end.
(** operator+(ITensor,ITensor const&): itensor.cc:1107-1108. *)
Definition t_plus (a b : tens) : outcome tens := t_pluseq a b.
(** operator+(ITensor const&,ITensor&&): itensor.cc:1109-1110, taken when the right operand is a temporary. *)
Definition t_plus_tmp (a b : tens) : outcome tens := t_pluseq b a.

(** integrators.h:33-34 and 78-79: int N = v.size()-1; while(!v.at(N) && N > 1) --N; *)
Fixpoint shrink (v : list tens) (N : nat) : outcome nat :=
  let! a := at_ v N in
  match N with
  | 0 => Ok 0
  | S N' => if (match a with None => true | Some _ => false end) && (1 <? N) then shrink v N' else Ok N
  end.
(** With the check of lines 36 and 81; v.at(-1) throws when v is empty. *)
Definition start (v : list tens) : outcome nat :=
  match length v with
  | 0 => Err
  | S n => let! N := shrink v n in if N <=? 0 then Err else Ok N
  end.

(** for(int j = 1; j <= N; ++j) d.at(j) += g(j): the loops of lines 44-47, 52-55, 60-63, 67-70, 88-91, 94-97. *)
Fixpoint pluseq_each (g : nat -> outcome tens) (js : list nat) (d : list tens) : outcome (list tens) :=
  match js with
  | [] => Ok d
  | j :: js' =>
      let! x := g j in
      let! a := at_ d j in
      let! r := t_pluseq a x in
      pluseq_each g js' (upd j r d)
  end.
(** c*k.at(j) *)
Definition times_at (c : K) (k : list tens) (j : nat) : outcome tens := let! a := at_ k j in t_scale c a.

Notation two := (kadd k1 k1).
Notation six := (kadd two (kadd two two)).

(** (tstep/6.)*(k1.at(j) + 2*k2.at(j) + 2*k3.at(j) + k4.at(j)): integrators.h:69. *)
Definition weighted (t : K) (k1_ k2 k3 k4 : list tens) (j : nat) : outcome tens :=
  let! a1 := at_ k1_ j in
  let! a2 := times_at two k2 j in
  let! s2 := t_plus_tmp a1 a2 in
  let! a3 := times_at two k3 j in
  let! s3 := t_plus_tmp s2 a3 in
  let! a4 := at_ k4 j in
  let! s4 := t_plus s3 a4 in
  t_scale (kmul t (kinv six)) s4.

(** rungeKutta4: integrators.h:28-71. The new v. *)
Definition rungeKutta4 (D : list tens -> outcome (list tens)) (t : K) (v : list tens) : outcome (list tens) :=
  let! N := start v in
  let js := seq 1 N in
  let! k1_ := D v in
  let! d := pluseq_each (times_at (kmul t (kinv two)) k1_) js v in
  let! k2 := D d in
  let! d := pluseq_each (times_at (kmul t (kinv two)) k2) js v in
  let! k3 := D d in
  let! d := pluseq_each (times_at t k3) js v in
  let! k4 := D d in
  pluseq_each (weighted t k1_ k2 k3 k4) js v.

(** midpointMethod: integrators.h:73-98. *)
Definition midpointMethod (D : list tens -> outcome (list tens)) (t : K) (v : list tens) : outcome (list tens) :=
  let! N := start v in
  let js := seq 1 N in
  let! k1_ := D v in
  let! d := pluseq_each (times_at (kmul t (kinv two)) k1_) js v in
  let! k2 := D d in
  pluseq_each (times_at t k2) js v.
End Rk.
