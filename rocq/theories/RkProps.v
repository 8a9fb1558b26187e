(** Property C70: rungeKutta4 and midpointMethod. *)
From Coq Require Import List Arith Bool Lia Field QArith Qcanon.
From Verif Require Import Util BigSum RkSpec RkModel RkProofs.
Import ListNotations.
Local Open Scope nat_scope.

Section Props.
Context {K V Sh : Type} (k0 k1 : K) (kadd kmul ksub : K -> K -> K) (kopp : K -> K) (kdiv : K -> K -> K) (kinv : K -> K).
Context (FT : field_theory k0 k1 kadd kmul ksub kopp kdiv kinv eq).
Context (vz : Sh -> V) (vadd : V -> V -> V) (vsc : K -> V -> V) (sh : V -> Sh) (sheq : Sh -> Sh -> bool).
Context (SP : space_ok k0 k1 kadd kmul vz vadd vsc sh) (SE : forall a b, sheq a b = true <-> a = b).
Notation rk4 := (rungeKutta4 k1 kadd kmul kinv vadd vsc sh sheq).
Notation midpoint := (midpointMethod k1 kadd kmul kinv vadd vsc sh sheq).
Notation two := (kadd k1 k1).
Notation three := (kadd two k1).
Notation six := (kadd two (kadd two two)).
Notation taylor := (taylor k0 k1 kadd kmul kinv vadd vsc).

(** For a linear derivative one step of rungeKutta4 replaces the tensors at places 1..N by the Taylor polynomial of
    degree 4 of exp(tstep F) applied to them, and changes nothing else in v. *)
Theorem C70_rungeKutta4 (N : nat) (s : nat -> Sh) (v : list (option V))
  (D : list (option V) -> outcome (list (option V))) (F : point -> point) (x : point) (t : K) :
  two <> k0 -> three <> k0 ->
  last_place v N -> acts vz sh N s v D F -> linear vadd vsc sh N s F -> shows vz sh N s v x ->
  exists v', rk4 D t v = Ok v' /\ same_outside N v v' /\
    forall j, 1 <= j <= N -> nth_error v' j = Some (Some (taylor 4 t F x j)).
Proof. intros. eapply rk4_linear; eauto. Qed.

(** midpointMethod: the Taylor polynomial of degree 2. *)
Theorem C70_midpoint (N : nat) (s : nat -> Sh) (v : list (option V))
  (D : list (option V) -> outcome (list (option V))) (F : point -> point) (x : point) (t : K) :
  two <> k0 ->
  last_place v N -> acts vz sh N s v D F -> linear vadd vsc sh N s F -> shows vz sh N s v x ->
  exists v', midpoint D t v = Ok v' /\ same_outside N v v' /\
    forall j, 1 <= j <= N -> nth_error v' j = Some (Some (taylor 2 t F x j)).
Proof. intros. eapply midpoint_linear; eauto. Qed.

(** For any derivative, linear or not: the classical formulas. *)
Theorem C70_any_derivative (N : nat) (s : nat -> Sh) (v : list (option V))
  (D : list (option V) -> outcome (list (option V))) (F : point -> point) (x : point) (t : K) :
  last_place v N -> acts vz sh N s v D F -> shows vz sh N s v x ->
  let moved c y : point := fun j => vadd (x j) (vsc c (y j)) in
  let h := kmul t (kinv two) in
  let a1 := F x in let a2 := F (moved h a1) in let a3 := F (moved h a2) in let a4 := F (moved t a3) in
  (exists v', rk4 D t v = Ok v' /\ same_outside N v v' /\ forall j, 1 <= j <= N ->
     nth_error v' j = Some (Some (moved (kmul t (kinv six)) (fun j =>
       vadd (vadd (vadd (a1 j) (vsc two (a2 j))) (vsc two (a3 j))) (a4 j)) j))) /\
  (exists v', midpoint D t v = Ok v' /\ same_outside N v v' /\ forall j, 1 <= j <= N ->
     nth_error v' j = Some (Some (moved t a2 j))).
Proof.
  intros HN A Hx moved h a1 a2 a3 a4. split.
  - destruct (rk4_tableau k0 k1 kadd kmul kinv vz vadd vsc sh sheq SP SE N s v D F t x HN A Hx) as (v' & E & So & H).
    exists v'. split; [exact E|]. split; [exact So|]. intros j Hj. rewrite (H j Hj). cbv zeta.
    change (F x) with a1. change (F (axpy vadd vsc x (kmul t (kinv two)) a1)) with a2.
    change (F (axpy vadd vsc x (kmul t (kinv two)) a2)) with a3. change (F (axpy vadd vsc x t a3)) with a4.
    pose proof (proj1 A) as SF. pose proof (proj1 Hx) as Sx.
    assert (T1 : shaped sh N s a1) by (apply SF; auto).
    assert (T2 : shaped sh N s a2) by (apply SF; eapply shaped_axpy; eauto).
    assert (T3 : shaped sh N s a3) by (apply SF; eapply shaped_axpy; eauto).
    unfold moved. do 5 f_equal.
    rewrite (sp_comm _ _ _ _ _ _ _ _ SP (vsc two (a2 j)) (a1 j)).
    + apply (sp_comm _ _ _ _ _ _ _ _ SP). rewrite (sp_sha _ _ _ _ _ _ _ _ SP), ?(sp_shs _ _ _ _ _ _ _ _ SP).
      * rewrite (T1 j Hj), (T3 j Hj). reflexivity.
      * rewrite (sp_shs _ _ _ _ _ _ _ _ SP), (T1 j Hj), (T2 j Hj). reflexivity.
    + rewrite (sp_shs _ _ _ _ _ _ _ _ SP), (T1 j Hj), (T2 j Hj). reflexivity.
  - exact (midpoint_tableau k0 k1 kadd kmul kinv vz vadd vsc sh sheq SP SE N s v D F t x HN A Hx).
Qed.

(** A linear functional that no derivative changes is conserved exactly, for every step size. *)
Theorem C70_conserved (N : nat) (s : nat -> Sh) (v : list (option V))
  (D : list (option V) -> outcome (list (option V))) (F : point -> point) (x : point) (t : K) (phi : nat -> V -> K) :
  last_place v N -> acts vz sh N s v D F -> shows vz sh N s v x -> functional kadd kmul vadd vsc sh phi ->
  (forall y, shaped sh N s y -> total k0 kadd N phi (F y) = k0) ->
  (exists v' x', rk4 D t v = Ok v' /\ same_outside N v v' /\ shows vz sh N s v' x' /\
     total k0 kadd N phi x' = total k0 kadd N phi x) /\
  (exists v' x', midpoint D t v = Ok v' /\ same_outside N v v' /\ shows vz sh N s v' x' /\
     total k0 kadd N phi x' = total k0 kadd N phi x).
Proof. intros. split; [eapply rk4_conserved|eapply midpoint_conserved]; eauto. Qed.

(** With fewer than two entries in v both throw; with two or more the last place exists and is unique. *)
Theorem C70_starts (v : list (option V)) (D : list (option V) -> outcome (list (option V))) (t : K) :
  (length v <= 1 -> rk4 D t v = Err /\ midpoint D t v = Err) /\
  (2 <= length v -> exists N, last_place v N /\ forall N', last_place v N' -> N' = N).
Proof.
  split.
  - intros H. unfold rungeKutta4, midpointMethod. rewrite start_throws by assumption. split; reflexivity.
  - intros H. destruct (last_place_ex v H) as (N & HN). exists N. split; [exact HN|]. intros N' HN'.
    pose proof (start_ok v N HN) as E. rewrite (start_ok v N' HN') in E. now injection E.
Qed.

(** They throw if the derivative throws, and if it returns no tensor, or a null one, at a place 1..N. *)
Theorem C70_throws (N : nat) (v : list (option V)) (D : list (option V) -> outcome (list (option V))) (t : K) :
  last_place v N ->
  D v = Err \/ (exists k j, D v = Ok k /\ 1 <= j <= N /\ (nth_error k j = None \/ nth_error k j = Some None)) ->
  rk4 D t v = Err /\ midpoint D t v = Err.
Proof.
  intros HN H. unfold rungeKutta4, midpointMethod. rewrite (start_ok v N HN). cbn [obind].
  destruct H as [-> | (k & j & -> & Hj & Hk)]; [split; reflexivity|]. cbn [obind].
  rewrite each_throws; [split; reflexivity| |].
  - exists j. split; [lia|]. now apply times_at_throws.
  - intros. apply times_at_noUB.
Qed.
End Props.

(** * A case that meets the hypotheses: x1' = x2, x2' = -x1 over the rationals, entry 0 and entry 3 null. *)
Definition qspace : space_ok (Q2Qc 0) (Q2Qc 1) Qcplus Qcmult (fun _ : unit => Q2Qc 0) Qcplus Qcmult (fun _ => tt).
Proof.
  constructor; intros; try ring.
  - now destruct s.
  - reflexivity.
  - reflexivity.
Qed.
Definition rot_at (w : list (option Qc)) (j : nat) : Qc := match nth_error w j with Some (Some q) => q | _ => Q2Qc 0 end.
Definition rot (w : list (option Qc)) : outcome (list (option Qc)) :=
  Ok [None; Some (rot_at w 2); Some (Qcopp (rot_at w 1)); None].
Definition rotF (x : @point Qc) : @point Qc := fun j => match j with 1 => x 2 | _ => Qcopp (x 1) end.
Definition v0 : list (option Qc) := [None; Some (Q2Qc 1); None; None; None].
Definition v1 : list (option Qc) := [None; Some (Q2Qc 1); Some (Q2Qc 3); None; None].
Definition x1 : @point Qc := fun j => match j with 1 => Q2Qc 1 | _ => Q2Qc 3 end.

Example C70_nonvacuous :
  last_place v1 2 /\
  acts (fun _ => Q2Qc 0) (fun _ => tt) 2 (fun _ => tt) v1 rot rotF /\
  linear Qcplus Qcmult (fun _ => tt) 2 (fun _ => tt) rotF /\
  shows (fun _ => Q2Qc 0) (fun _ => tt) 2 (fun _ => tt) v1 x1 /\
  (exists v', rungeKutta4 (Q2Qc 1) Qcplus Qcmult Qcinv Qcplus Qcmult (fun _ => tt) (fun _ _ => true) rot (Q2Qc 1) v1 = Ok v' /\
     nth_error v' 1 = Some (Some (Q2Qc (73 # 24))) /\ nth_error v' 3 = Some None) /\
  last_place v0 1.
Proof.
  assert (SH : forall j, 1 <= j <= 2 -> j = 1 \/ j = 2) by (intros; lia).
  repeat apply conj.
  - cbn; lia.
  - cbn; lia.
  - intros j Hj. cbn in Hj. destruct j as [|[|[|[|[|j]]]]]; try lia; reflexivity.
  - discriminate.
  - intros x _ j _. reflexivity.
  - intros w x _ [_ H]. eexists. split; [reflexivity|]. intros j Hj.
    assert (G : forall i, 1 <= i <= 2 -> rot_at w i = x i).
    { intros i Hi. unfold rot_at. destruct (H i Hi) as [E | [E E0]]; rewrite E; auto. }
    destruct (SH j Hj) as [-> | ->]; cbn [nth_error rotF]; rewrite G by lia; reflexivity.
  - intros c x y _ _ j Hj. destruct (SH j Hj) as [-> | ->]; cbn [rotF]; ring.
  - intros j _. reflexivity.
  - intros j Hj. left. destruct (SH j Hj) as [-> | ->]; reflexivity.
  - eexists. split; [vm_compute; reflexivity|]. split; [|reflexivity]. cbn [nth_error]. do 2 f_equal.
  - cbn; lia.
  - cbn; lia.
  - intros j Hj. cbn in Hj. destruct j as [|[|[|[|[|j]]]]]; try lia; reflexivity.
  - intros; lia.
Qed.

Print Assumptions C70_rungeKutta4.
Print Assumptions C70_midpoint.
Print Assumptions C70_any_derivative.
Print Assumptions C70_conserved.
Print Assumptions C70_starts.
Print Assumptions C70_throws.
