(** Lemmas: an MPS that pages to disk behaves as one kept in memory. *)
From Coq Require Import ZArith List Bool Arith Lia.
From Verif Require Import Util BigSum MpsModel MpsTensor MpsSpec MpsProofs MpsPosition.
Import ListNotations.
Local Open Scope Z_scope.
Local Open Scope outcome_scope.
Local Arguments Z.add : simpl never.
Local Arguments Z.sub : simpl never.

Section Paging.
Context {T W : Type}.
Notation mps := (mps T).
Notation disk := (disk T).

(** The tensor a slot stands for: in memory, or else in its file. *)
Definition content (d : disk) (s : mps) (j : Z) : option T :=
  match mA s j with
  | Some t => Some t
  | None => if mdo s then match d (mdir s) j with Some x => x | None => None end else None
  end.
Definition slot (s : mps) (j : Z) : Prop := 0 <= j <= mN s + 1.
(** Slots that are not in memory have a file. *)
Definition filed (d : disk) (s : mps) : Prop :=
  forall j, slot s j -> mA s j = None -> d (mdir s) j <> None.
Definition loaded (d : disk) (s : mps) (j : Z) : Prop := mA s j = content d s j.
(** Two states that differ in what is in memory only. *)
Definition moved (d : disk) (s : mps) (d' : disk) (s' : mps) : Prop :=
  mN s' = mN s /\ ml s' = ml s /\ mr s' = mr s /\ mdo s' = mdo s /\ mdir s' = mdir s /\
  (forall j, slot s j -> content d' s' j = content d s j) /\
  (forall dir j, dir <> mdir s -> d' dir j = d dir j).
Definition paged (d : disk) (s : mps) : Prop :=
  mdo s = true /\ 1 <= mN s /\ 0 <= matb s <= mN s /\ filed d s /\
  (forall j, 1 <= j <= mN s -> matb s <= j <= matb s + 1 -> loaded d s j).

Lemma moved_refl : forall d s, moved d s d s.
Proof. intros. repeat split; auto. Qed.
Lemma moved_trans : forall d s d1 s1 d2 s2, moved d s d1 s1 -> moved d1 s1 d2 s2 -> moved d s d2 s2.
Proof.
  intros d s d1 s1 d2 s2 (A1 & A2 & A3 & A4 & A5 & A6 & A7) (B1 & B2 & B3 & B4 & B5 & B6 & B7).
  repeat split; try congruence.
  - intros j Hj. rewrite B6; [apply A6; assumption|]. unfold slot in *. rewrite A1. assumption.
  - intros dir j Hd. rewrite B7 by congruence. apply A7. assumption.
Qed.
Lemma inrange_slot : forall (s : mps) j, slot s j -> inrange s j = true.
Proof. intros s j H. unfold inrange, slot in *. apply andb_true_intro. split; apply Z.leb_le; lia. Qed.
Lemma wfile_same : forall (d : disk) dir j x, wfile d dir j x dir j = Some x.
Proof. intros. unfold wfile. rewrite Nat.eqb_refl, Z.eqb_refl. reflexivity. Qed.
Lemma wfile_other : forall (d : disk) dir j x k, k <> j -> wfile d dir j x dir k = d dir k.
Proof. intros. unfold wfile. rewrite Nat.eqb_refl. destruct (Z.eqb_spec k j); [contradiction|reflexivity]. Qed.

Lemma spill_spec : forall (d : disk) (s : mps) j drop, mdo s = true -> filed d s -> slot s j ->
  exists d' s', spill d s j drop = Ok (d', s') /\ moved d s d' s' /\ filed d' s' /\ matb s' = matb s.
Proof.
  intros d s j drop Hm F Hj. unfold spill. rewrite inrange_slot by assumption.
  destruct (mA s j) as [t|] eqn:Ej.
  2:{ exists d, s. split; [reflexivity|]. split; [apply moved_refl|]. auto. }
  eexists. eexists. split; [reflexivity|].
  assert (O : forall dir k, dir <> mdir s -> wfile d (mdir s) j (Some t) dir k = d dir k).
  { intros dir k Hd. unfold wfile. destruct (Nat.eqb_spec dir (mdir s)); [contradiction|reflexivity]. }
  destruct drop.
  - split; [|split; [|reflexivity]].
    + repeat split; auto. intros k Hk. unfold content. cbn. rewrite Hm. unfold setA.
      destruct (Z.eqb_spec k j) as [->|N].
      * rewrite Ej, wfile_same. reflexivity.
      * rewrite wfile_other by assumption. reflexivity.
    + intros k Hk Hn. cbn in *. unfold setA in Hn. destruct (Z.eqb_spec k j) as [->|N].
      * rewrite wfile_same. discriminate.
      * rewrite wfile_other by assumption. apply F; assumption.
  - split; [|split; [|reflexivity]].
    + repeat split; auto. intros k Hk. unfold content. rewrite Hm.
      destruct (Z.eq_dec k j) as [->|N].
      * rewrite Ej. reflexivity.
      * rewrite wfile_other by assumption. reflexivity.
    + intros k Hk Hn. destruct (Z.eq_dec k j) as [->|N].
      * rewrite wfile_same. discriminate.
      * rewrite wfile_other by assumption. apply F; assumption.
Qed.

Lemma withatb_moved : forall (d : disk) (s : mps) b, moved d s d (withatb s b).
Proof. intros. repeat split; auto. Qed.

Lemma page_spec : forall (d : disk) (s : mps) x y c, mdo s = true -> filed d s -> 0 <= matb s <= mN s ->
  exists d' s',
    (let a := matb s in
     let! (d1, s1) := spill d s a x in let! (d2, s2) := spill d1 s1 (a + 1) y in Ok (d2, withatb s2 c)) = Ok (d', s') /\
    moved d s d' s' /\ filed d' s' /\ matb s' = c.
Proof.
  intros d s x y c Hm F Ha. cbn zeta.
  destruct (spill_spec d s (matb s) x Hm F) as (d1 & s1 & E1 & M1 & F1 & B1). { unfold slot. lia. }
  rewrite E1. cbn [obind]. pose proof M1 as (A1 & A2 & A3 & A4 & A5 & A6 & A7).
  destruct (spill_spec d1 s1 (matb s + 1) y) as (d2 & s2 & E2 & M2 & F2 & B2); [congruence|assumption|unfold slot; lia|].
  rewrite E2. cbn [obind]. eexists. eexists. split; [reflexivity|]. split; [|split; [exact F2|reflexivity]].
  eapply moved_trans; [exact M1|]. eapply moved_trans; [exact M2|]. apply withatb_moved.
Qed.

Lemma iter_up : forall n (d : disk) (s : mps) b, mdo s = true -> filed d s -> 0 <= matb s -> matb s + Z.of_nat n <= mN s ->
  exists d' s', iter_page (page_up b) n d s = Ok (d', s') /\ moved d s d' s' /\ filed d' s' /\ matb s' = matb s + Z.of_nat n.
Proof.
  induction n as [|n IH]; intros d s b Hm F Ha Hn; cbn [iter_page].
  - exists d, s. split; [reflexivity|]. split; [apply moved_refl|]. split; [assumption|lia].
  - unfold page_up at 1.
    destruct (page_spec d s true (negb (matb s + 1 =? b)) (matb s + 1) Hm F ltac:(lia)) as (d1 & s1 & E & M & F1 & B).
    cbn zeta in E |- *. rewrite E. cbn [obind]. pose proof M as (A1 & A2 & A3 & A4 & A5 & A6 & A7).
    destruct (IH d1 s1 b) as (d2 & s2 & E2 & M2 & F2 & B2); [congruence|assumption|lia|lia|].
    rewrite E2. exists d2, s2. split; [reflexivity|]. split; [eapply moved_trans; eauto|]. split; [assumption|lia].
Qed.
Lemma iter_down : forall n (d : disk) (s : mps) b, mdo s = true -> filed d s -> matb s <= mN s -> 0 <= matb s - Z.of_nat n ->
  exists d' s', iter_page (page_down b) n d s = Ok (d', s') /\ moved d s d' s' /\ filed d' s' /\ matb s' = matb s - Z.of_nat n.
Proof.
  induction n as [|n IH]; intros d s b Hm F Ha Hn; cbn [iter_page].
  - exists d, s. split; [reflexivity|]. split; [apply moved_refl|]. split; [assumption|lia].
  - unfold page_down at 1.
    destruct (page_spec d s (negb (matb s =? b + 1)) true (matb s - 1) Hm F ltac:(lia)) as (d1 & s1 & E & M & F1 & B).
    cbn zeta in E |- *. rewrite E. cbn [obind]. pose proof M as (A1 & A2 & A3 & A4 & A5 & A6 & A7).
    destruct (IH d1 s1 b) as (d2 & s2 & E2 & M2 & F2 & B2); [congruence|assumption|lia|lia|].
    rewrite E2. exists d2, s2. split; [reflexivity|]. split; [eapply moved_trans; eauto|]. split; [assumption|lia].
Qed.

Lemma load_spec : forall (d : disk) (s : mps) j, mdo s = true -> filed d s -> slot s j ->
  exists s', load d s j = Ok s' /\ moved d s d s' /\ filed d s' /\ matb s' = matb s /\ loaded d s' j /\
    (forall k, loaded d s k -> loaded d s' k).
Proof.
  intros d s j Hm F Hj. unfold load. rewrite inrange_slot by assumption.
  destruct (mA s j) as [t|] eqn:Ej.
  { exists s. split; [reflexivity|]. split; [apply moved_refl|]. split; [assumption|]. split; [reflexivity|].
    split; [|auto]. unfold loaded, content. rewrite Ej. reflexivity. }
  destruct (d (mdir s) j) as [x|] eqn:Ed. 2:{ exfalso. now apply (F j Hj Ej). }
  eexists. split; [reflexivity|].
  assert (C : forall k, content d (withA s (setA (mA s) j x)) k = content d s k).
  { intros k. unfold content. cbn. rewrite Hm. unfold setA. destruct (Z.eqb_spec k j) as [->|N]; [|reflexivity].
    rewrite Ej, Ed. destruct x; reflexivity. }
  split; [|split; [|split; [reflexivity|split]]].
  - repeat split; auto.
  - intros k Hk Hn. cbn in *. unfold setA in Hn. destruct (Z.eqb_spec k j) as [->|N]; [congruence|]. apply F; assumption.
  - unfold loaded. rewrite C. unfold content. rewrite Ej, Hm, Ed. cbn. unfold setA. now rewrite Z.eqb_refl.
  - intros k Hk. unfold loaded in *. rewrite C. cbn. unfold setA. destruct (Z.eqb_spec k j) as [->|N]; [|assumption].
    unfold content. rewrite Ej, Hm, Ed. reflexivity.
Qed.

Lemma setBond_paged : forall (d : disk) (s : mps) b, paged d s -> 1 <= b < mN s ->
  exists d' s', setBond d s b = Ok (d', s') /\ moved d s d' s' /\ paged d' s' /\ matb s' = b.
Proof.
  intros d s b (Hm & HN & Ha & F & L) Hb. unfold setBond. destruct (Z.eqb_spec b (matb s)) as [E|E].
  { exists d, s. split; [reflexivity|]. split; [apply moved_refl|]. split; [|auto]. repeat split; auto; lia. }
  rewrite Hm. cbn [negb]. destruct (Z.ltb_spec b 1); [lia|]. destruct (Z.leb_spec (mN s) b); [lia|]. cbn [orb].
  destruct (iter_up (Z.to_nat (b - matb s)) d s b Hm F) as (d1 & s1 & E1 & M1 & F1 & B1); [lia|lia|].
  rewrite E1. cbn [obind]. pose proof M1 as (A1 & A2 & A3 & A4 & A5 & A6 & A7).
  destruct (iter_down (Z.to_nat (matb s1 - b)) d1 s1 b) as (d2 & s2 & E2 & M2 & F2 & B2); [congruence|assumption|lia|lia|].
  rewrite E2. cbn [obind]. pose proof M2 as (C1 & C2 & C3 & C4 & C5 & C6 & C7).
  destruct (load_spec d2 s2 b) as (s3 & E3 & M3 & F3 & B3 & L3 & K3); [congruence|assumption|unfold slot; lia|].
  rewrite E3. cbn [obind]. pose proof M3 as (D1 & D2 & D3 & D4 & D5 & D6 & D7).
  destruct (load_spec d2 s3 (b + 1)) as (s4 & E4 & M4 & F4 & B4 & L4 & K4); [congruence|assumption|unfold slot; lia|].
  rewrite E4. cbn [obind]. pose proof M4 as (G1 & G2 & G3 & G4 & G5 & G6 & G7).
  exists d2, s4. split; [reflexivity|].
  assert (M : moved d s d2 s4).
  { eapply moved_trans; [exact M1|]. eapply moved_trans; [exact M2|]. eapply moved_trans; [exact M3|exact M4]. }
  split; [exact M|]. assert (Eb : matb s4 = b) by lia. split; [|exact Eb].
  split; [congruence|]. split; [lia|]. split; [lia|]. split; [assumption|].
  intros j Hj Hj'. rewrite Eb in Hj'. destruct (Z.eq_dec j b) as [->|]; [apply K4; assumption|].
  replace j with (b + 1) by lia. assumption.
Qed.
Lemma setSite_paged : forall (d : disk) (s : mps) j, paged d s -> 1 <= j <= mN s ->
  exists d' s', setSite d s j = Ok (d', s') /\ moved d s d' s' /\ paged d' s' /\ matb s' <= j <= matb s' + 1.
Proof.
  intros d s j P Hj. unfold setSite. pose proof P as (Hm & HN & Ha & F & L). rewrite Hm. cbn [negb].
  destruct (Z.ltb_spec j 1); [lia|]. destruct (Z.ltb_spec (mN s) j); [lia|]. cbn [orb].
  destruct (Z.ltb_spec j (matb s)).
  - destruct (setBond_paged d s j P) as (d' & s' & E & M & P' & B); [lia|]. exists d', s'. repeat split; try assumption; try apply M; try apply P'; lia.
  - destruct (Z.ltb_spec (matb s + 1) j).
    + destruct (setBond_paged d s (j - 1) P) as (d' & s' & E & M & P' & B); [lia|].
      exists d', s'. split; [assumption|]. split; [assumption|]. split; [assumption|lia].
    + exists d, s. split; [reflexivity|]. split; [apply moved_refl|]. split; [assumption|lia].
Qed.

(** The simulation relation between a state in either mode and one in memory. *)
Definition sim (d : disk) (s s0 : mps) : Prop :=
  mdo s0 = false /\ mN s0 = mN s /\ ml s0 = ml s /\ mr s0 = mr s /\ 1 <= mN s /\ 0 <= matb s <= mN s /\
  (forall j, 1 <= j <= mN s -> content d s j = mA s0 j) /\ (mdo s = true -> paged d s).
(** Only the files of this object change. *)
Definition frame (d : disk) (s : mps) (d' : disk) (s' : mps) : Prop :=
  mdo s' = mdo s /\ mdir s' = mdir s /\ mN s' = mN s /\
  (mdo s = true -> forall dir j, dir <> mdir s -> d' dir j = d dir j) /\ (mdo s = false -> d' = d).
Lemma frame_refl : forall d s, frame d s d s.
Proof. intros. repeat split; auto. Qed.
Lemma frame_trans : forall d s d1 s1 d2 s2, frame d s d1 s1 -> frame d1 s1 d2 s2 -> frame d s d2 s2.
Proof.
  intros d s d1 s1 d2 s2 (A1 & A2 & A3 & A4 & A5) (B1 & B2 & B3 & B4 & B5).
  split; [congruence|]. split; [congruence|]. split; [congruence|]. split.
  - intros H dir j Hd. rewrite B4 by congruence. apply A4; assumption.
  - intros H. rewrite B5 by congruence. auto.
Qed.
Lemma moved_frame : forall d s d' s', moved d s d' s' -> mdo s = true -> frame d s d' s'.
Proof.
  intros d s d' s' (A1 & A2 & A3 & A4 & A5 & A6 & A7) H. repeat split; auto. congruence.
Qed.

Lemma sim_moved : forall d s d' s' s0, sim d s s0 -> moved d s d' s' -> paged d' s' -> sim d' s' s0.
Proof.
  intros d s d' s' s0 (H1 & H2 & H3 & H4 & H5 & H6 & H7 & H8) (A1 & A2 & A3 & A4 & A5 & A6 & A7) P.
  pose proof P as (P1 & P2 & P3 & P4 & P5).
  split; [assumption|]. split; [congruence|]. split; [congruence|]. split; [congruence|]. split; [lia|]. split; [assumption|].
  split; [|intros; assumption]. intros j Hj. rewrite A6 by (unfold slot; lia). apply H7. lia.
Qed.

Lemma mem_content : forall (d : disk) (s : mps) j, mdo s = false -> content d s j = mA s j.
Proof. intros d s j H. unfold content. rewrite H. destruct (mA s j); reflexivity. Qed.

Lemma sim_setBond : forall d s s0 b, sim d s s0 -> 1 <= b < mN s ->
  exists d' s' s0', setBond d s b = Ok (d', s') /\ sim d' s' s0' /\ frame d s d' s' /\ matb s' = b /\
  (forall dd, setBond dd s0 b = Ok (dd, s0')).
Proof.
  intros d s s0 b S Hb. pose proof S as (H1 & H2 & H3 & H4 & H5 & H6 & H7 & H8).
  assert (E0 : exists s0', (forall dd : disk, setBond dd s0 b = Ok (dd, s0')) /\ mN s0' = mN s0 /\ mA s0' = mA s0 /\ ml s0' = ml s0 /\ mr s0' = mr s0 /\ mdo s0' = false).
  { unfold setBond. rewrite H1. destruct (b =? matb s0); cbn; eexists; repeat split; auto. }
  destruct E0 as (s0' & E0 & N0 & A0 & L0 & R0 & D0).
  assert (S0 : forall d' s', sim d' s' s0 -> sim d' s' s0').
  { intros d' s' (K1 & K2 & K3 & K4 & K5 & K6 & K7 & K8).
    split; [assumption|]. split; [congruence|]. split; [congruence|]. split; [congruence|]. split; [assumption|]. split; [assumption|].
    split; [|assumption]. intros j Hj. rewrite A0. auto. }
  destruct (mdo s) eqn:Hm.
  - destruct (setBond_paged d s b (H8 eq_refl) Hb) as (d' & s' & E & M & P & B).
    exists d', s', s0'. split; [assumption|]. split; [apply S0; eapply sim_moved; eauto|].
    split; [apply moved_frame; assumption|]. auto.
  - destruct (setBond_mem d s b Hm) as (s' & E & N1 & A1 & L1 & R1 & D1 & I1 & B1).
    exists d, s', s0'. split; [assumption|]. split.
    + apply S0. split; [assumption|]. split; [congruence|]. split; [congruence|]. split; [congruence|]. split; [lia|]. split; [lia|].
      split; [|congruence]. intros j Hj. rewrite mem_content by assumption. rewrite A1.
      rewrite <- (mem_content d s j Hm). apply H7. lia.
    + split; [|auto]. repeat split; auto. congruence.
Qed.
Lemma sim_setSite : forall d s s0 j, sim d s s0 -> 1 <= j <= mN s ->
  exists d' s' s0', setSite d s j = Ok (d', s') /\ sim d' s' s0' /\ frame d s d' s' /\ mA s' j = mA s0' j /\
  (matb s' <= j <= matb s' + 1) /\
  (forall dd, setSite dd s0 j = Ok (dd, s0')) /\ mA s0' = mA s0.
Proof.
  intros d s s0 j S Hb. pose proof S as (H1 & H2 & H3 & H4 & H5 & H6 & H7 & H8).
  assert (E0 : exists s0', (forall dd : disk, setSite dd s0 j = Ok (dd, s0')) /\ mN s0' = mN s0 /\ mA s0' = mA s0 /\ ml s0' = ml s0 /\ mr s0' = mr s0 /\ mdo s0' = false).
  { unfold setSite. rewrite H1. cbn. eexists; repeat split; auto. }
  destruct E0 as (s0' & E0 & N0 & A0 & L0 & R0 & D0).
  assert (S0 : forall d' s', sim d' s' s0 -> sim d' s' s0').
  { intros d' s' (K1 & K2 & K3 & K4 & K5 & K6 & K7 & K8).
    split; [assumption|]. split; [congruence|]. split; [congruence|]. split; [congruence|]. split; [assumption|]. split; [assumption|].
    split; [|assumption]. intros k Hk. rewrite A0. auto. }
  destruct (mdo s) eqn:Hm.
  - destruct (setSite_paged d s j (H8 eq_refl) Hb) as (d' & s' & E & M & P & B).
    exists d', s', s0'. split; [assumption|].
    assert (Sm : sim d' s' s0') by (apply S0; eapply sim_moved; eauto). split; [assumption|].
    split; [apply moved_frame; assumption|]. split; [|auto].
    pose proof P as (P1 & P2 & P3 & P4 & P5). pose proof Sm as (K1 & K2 & K3 & K4 & K5 & K6 & K7 & K8).
    pose proof M as (M1 & _). rewrite (P5 j) by lia. apply K7. lia.
  - destruct (setSite_mem d s j Hm) as (s' & E & N1 & A1 & L1 & R1 & D1 & I1 & B1).
    exists d, s', s0'. split; [assumption|]. split; [|split; [|split; [|split; [|auto]]]].
    + apply S0. split; [assumption|]. split; [congruence|]. split; [congruence|]. split; [congruence|]. split; [lia|].
      split; [rewrite B1, N1; zb; lia|].
      split; [|congruence]. intros k Hk. rewrite mem_content by assumption. rewrite A1.
      rewrite <- (mem_content d s k Hm). apply H7. lia.
    + repeat split; auto. congruence.
    + rewrite A1, A0, <- H7 by assumption. symmetry. apply mem_content. assumption.
    + rewrite B1. zb; lia.
Qed.

(** In memory and unchanged: overwriting a slot that is in memory. *)
Lemma sim_overwrite : forall d s s0 j f, sim d s s0 -> 1 <= j <= mN s -> mA s j = mA s0 j -> matb s <= j <= matb s + 1 ->
  (forall t, f (Some t) <> None) -> (f None = None \/ f None <> None) ->
  (f (mA s j) = None -> mA s j = None) ->
  sim d (withA s (setA (mA s) j (f (mA s j)))) (withA s0 (setA (mA s0) j (f (mA s0 j)))).
Proof.
  intros d s s0 j f S Hj E Hb Hf _ Hn. pose proof S as (H1 & H2 & H3 & H4 & H5 & H6 & H7 & H8).
  assert (C : forall k, 1 <= k <= mN s -> content d (withA s (setA (mA s) j (f (mA s j)))) k
     = mA (withA s0 (setA (mA s0) j (f (mA s0 j)))) k).
  { intros k Hk. cbn. unfold content. cbn. unfold setA. destruct (Z.eqb_spec k j) as [->|N].
    - rewrite <- E. destruct (f (mA s j)) as [t|] eqn:Ef; [reflexivity|].
      pose proof (Hn eq_refl) as En.
      destruct (mdo s) eqn:Hm; [|reflexivity].
      pose proof (H7 j Hj) as Q. unfold content in Q. rewrite En, Hm in Q. rewrite Q, <- E. assumption.
    - specialize (H7 k Hk). unfold content in H7. exact H7. }
  split; [assumption|]. split; [assumption|]. split; [assumption|]. split; [assumption|]. split; [assumption|]. split; [assumption|].
  split; [exact C|]. cbn. intros Hm. destruct (H8 Hm) as (P1 & P2 & P3 & P4 & P5).
  split; [assumption|]. split; [assumption|]. split; [assumption|]. split.
  - intros k Hk Hk'. cbn in *. unfold setA in Hk'. destruct (Z.eqb_spec k j) as [->|N]; [|apply P4; assumption].
    apply P4; [assumption|]. apply Hn. assumption.
  - intros k Hk Hk'. unfold loaded. rewrite C by assumption. cbn. unfold setA.
    destruct (Z.eqb_spec k j) as [->|N]; [congruence|]. rewrite <- H7 by assumption. apply P5; assumption.
Qed.

Lemma sim_lims : forall d s s0 l r, sim d s s0 -> sim d (withlims s l r) (withlims s0 l r).
Proof.
  intros d s s0 l r (H1 & H2 & H3 & H4 & H5 & H6 & H7 & H8).
  split; [assumption|]. split; [assumption|]. split; [reflexivity|]. split; [reflexivity|]. split; [assumption|]. split; [assumption|].
  split; [exact H7|]. intros Hm. exact (H8 Hm).
Qed.

Lemma sim_wrap : forall d s s0 i, sim d s s0 -> wrap s0 i = wrap s i.
Proof. intros d s s0 i (H1 & H2 & _). unfold wrap. now rewrite H2. Qed.

Lemma sim_ref : forall d s s0 i, sim d s s0 -> at_site (mN s) i ->
  exists d' s' s0', ref d s i = Ok (d', s') /\ sim d' s' s0' /\ frame d s d' s' /\ mA s' (wrap s i) = mA s0' (wrap s i) /\
  (matb s' <= wrap s i <= matb s' + 1) /\ (forall dd, ref dd s0 i = Ok (dd, s0')).
Proof.
  intros d s s0 i S Hi. assert (Hw : 1 <= wrap s i <= mN s) by (destruct Hi; unfold wrap; zb; lia).
  unfold ref. rewrite (sim_wrap _ _ _ i S). set (j := wrap s i) in *.
  destruct (sim_setSite d s s0 j S Hw) as (d1 & s1 & s01 & E1 & S1 & F1 & A1 & B1 & E0 & A0).
  pose proof F1 as (D1 & I1 & N1 & _ & _). pose proof S1 as (K1 & K2 & K3 & K4 & K5 & K6 & K7 & K8).
  rewrite E1. cbn [obind].
  assert (I : inrange (ref_lims s1 j) j = true). { apply inrange_slot. unfold slot, ref_lims. cbn. lia. }
  rewrite I. exists d1, (ref_lims s1 j), (ref_lims s01 j). split; [reflexivity|].
  split. { unfold ref_lims. rewrite K3, K4. apply sim_lims. assumption. }
  split. { destruct F1 as (? & ? & ? & ? & ?). repeat split; auto. }
  split; [exact A1|]. split; [exact B1|].
  intros dd. rewrite E0. cbn [obind].
  assert (I' : inrange (ref_lims s01 j) j = true). { apply inrange_slot. unfold slot, ref_lims. cbn. lia. }
  now rewrite I'.
Qed.

Definition total_fun (f : option T -> option T) : Prop := (forall t, f (Some t) <> None).

Lemma sim_modify : forall d s s0 i f, sim d s s0 -> at_site (mN s) i -> total_fun f ->
  exists d' s' s0', modify d s i f = Ok (d', s') /\ sim d' s' s0' /\ frame d s d' s' /\
  (forall dd, modify dd s0 i f = Ok (dd, s0')).
Proof.
  intros d s s0 i f S Hi Hf. unfold modify. rewrite (sim_wrap _ _ _ i S).
  assert (Hw : 1 <= wrap s i <= mN s) by (destruct Hi; unfold wrap; zb; lia).
  destruct (sim_ref d s s0 i S Hi) as (d1 & s1 & s01 & E1 & S1 & F1 & A1 & B1 & E0).
  rewrite E1. cbn [obind]. pose proof F1 as (D1 & I1 & N1 & G1 & G2).
  eexists. eexists. eexists. split; [reflexivity|]. split; [|split].
  2:{ repeat split; cbn; auto. }
  2:{ intros dd. rewrite E0. cbn [obind]. reflexivity. }
  apply sim_overwrite; try assumption; try lia.
  - destruct (f None); [right; discriminate|left; reflexivity].
  - destruct (mA s1 (wrap s i)) as [t|]; [intros H; exfalso; now apply (Hf t)|auto].
Qed.
Lemma sim_get : forall d s s0 i, sim d s s0 -> at_site (mN s) i ->
  exists d' s' s0' x, get d s i = Ok (d', s', x) /\ sim d' s' s0' /\ frame d s d' s' /\ x = mA s' (wrap s i) /\
  (matb s' <= wrap s i <= matb s' + 1) /\
  (forall dd, get dd s0 i = Ok (dd, s0', x)).
Proof.
  intros d s s0 i S Hi. assert (Hw : 1 <= wrap s i <= mN s) by (destruct Hi; unfold wrap; zb; lia).
  unfold get. rewrite (sim_wrap _ _ _ i S). set (j := wrap s i) in *.
  destruct (sim_setSite d s s0 j S Hw) as (d1 & s1 & s01 & E1 & S1 & F1 & A1 & B1 & E0 & A0).
  pose proof F1 as (D1 & I1 & N1 & _ & _). pose proof S1 as (K1 & K2 & K3 & K4 & K5 & K6 & K7 & K8).
  rewrite E1. cbn [obind].
  assert (I : inrange s1 j = true). { apply inrange_slot. unfold slot. lia. }
  rewrite I. exists d1, s1, s01, (mA s1 j). split; [reflexivity|]. split; [assumption|]. split; [assumption|].
  split; [reflexivity|]. split; [exact B1|].
  intros dd. rewrite E0. cbn [obind].
  assert (I' : inrange s01 j = true). { apply inrange_slot. unfold slot. lia. }
  rewrite I', A1. reflexivity.
Qed.

(** Where the window ends up. *)
Lemma setSite_window : forall (d d' : disk) (s s' : mps) j, paged d s -> 1 <= j <= mN s -> setSite d s j = Ok (d', s') ->
  matb s' = (if j <? matb s then j else if matb s + 1 <? j then j - 1 else matb s).
Proof.
  intros d d' s s' j P Hj H. unfold setSite in H. pose proof P as (Hm & HN & Ha & F & L). rewrite Hm in H. cbn [negb] in H.
  destruct (Z.ltb_spec j 1); [lia|]. destruct (Z.ltb_spec (mN s) j); [lia|]. cbn [orb] in H.
  destruct (Z.ltb_spec j (matb s)).
  - destruct (setBond_paged d s j P) as (d1 & s1 & E & M & P' & B); [lia|]. rewrite E in H. injection H as <- <-. assumption.
  - destruct (Z.ltb_spec (matb s + 1) j).
    + destruct (setBond_paged d s (j - 1) P) as (d1 & s1 & E & M & P' & B); [lia|]. rewrite E in H. injection H as <- <-. assumption.
    + injection H as <- <-. reflexivity.
Qed.
(** psi(i)*psi(j) with i, j neighbours: both references are alive. *)
Lemma sim_get2 : forall d s s0 i j, sim d s s0 -> 1 <= i <= mN s -> 1 <= j <= mN s -> Z.abs (i - j) <= 1 ->
  exists d' s' s0' x, get2 d s i j = Ok (d', s', x) /\ sim d' s' s0' /\ frame d s d' s' /\
  (forall dd, get2 dd s0 i j = Ok (dd, s0', x)).
Proof.
  intros d s s0 i j S Hi Hj Hij. unfold get2. rewrite (sim_wrap _ _ _ i S).
  assert (Wi : wrap s i = i) by (unfold wrap; zb; lia). rewrite Wi.
  destruct (sim_get d s s0 i S) as (d1 & s1 & s01 & x & E1 & S1 & F1 & X1 & B1 & E01). { left; lia. }
  rewrite Wi in *. rewrite E1. cbn [obind]. pose proof F1 as (_ & _ & N1 & _).
  destruct (sim_get d1 s1 s01 j S1) as (d2 & s2 & s02 & y & E2 & S2 & F2 & X2 & B2 & E02). { left; lia. }
  rewrite E2. cbn [obind]. pose proof F2 as (D2 & _ & N2 & _).
  assert (Wj : wrap s1 j = j) by (unfold wrap; zb; lia). rewrite Wj in *.
  eexists. exists s2, s02. eexists. split; [reflexivity|]. split; [assumption|].
  split; [eapply frame_trans; eauto|]. intros dd. rewrite E01. cbn [obind]. rewrite E02. cbn [obind].
  f_equal. f_equal. f_equal. symmetry.
  pose proof S2 as (Q1 & Q2 & Q3 & Q4 & Q5 & Q6 & Q7 & Q8). rewrite <- Q7 by lia.
  destruct (mdo s2) eqn:Hm; [|symmetry; apply mem_content; assumption].
  destruct (Q8 eq_refl) as (P1 & P2 & P3 & P4 & P5). apply P5; [lia|].
  assert (Wn : matb s2 = (if j <? matb s1 then j else if matb s1 + 1 <? j then j - 1 else matb s1)).
  { unfold get in E2. rewrite Wj in E2. destruct (setSite d1 s1 j) as [[d3 s3]| |] eqn:E3; try discriminate. cbn [obind] in E2.
    destruct (inrange s3 j); [|discriminate]. injection E2 as <- <- _. eapply setSite_window; eauto; [|lia].
    pose proof S1 as (_ & _ & _ & _ & _ & _ & _ & R8). apply R8. congruence. }
  rewrite Wn. zb; lia.
Qed.

(** Outcomes of the same call in the two modes. *)
Definition sim_res (d : disk) (s s0 : mps) (r : outcome (disk * mps)) (r0 : outcome (disk * mps)) (dd : disk) : Prop :=
  match r with
  | Ok (d', s') => exists s0', r0 = Ok (dd, s0') /\ sim d' s' s0' /\ frame d s d' s'
  | Err => r0 = Err
  | UB => r0 = UB
  end.

Section Ops.
Variable orthL orthR : T -> T -> outcome (T * T).
Variable splitL splitR : W -> outcome (T * T).
Variable pair : T -> T -> W.

(** Overwrite the two tensors of the current bond. *)
Lemma sim_two : forall d s s0 b x y, sim d s s0 -> 1 <= b < mN s -> matb s = b ->
  sim d (withA s (setA (setA (mA s) b (Some x)) (b + 1) (Some y)))
        (withA s0 (setA (setA (mA s0) b (Some x)) (b + 1) (Some y))).
Proof.
  intros d s s0 b x y S Hb Ea. pose proof S as (H1 & H2 & H3 & H4 & H5 & H6 & H7 & H8).
  assert (C : forall k, 1 <= k <= mN s -> content d (withA s (setA (setA (mA s) b (Some x)) (b + 1) (Some y))) k
     = mA (withA s0 (setA (setA (mA s0) b (Some x)) (b + 1) (Some y))) k).
  { intros k Hk. cbn. unfold content. cbn. unfold setA. destruct (Z.eqb_spec k (b + 1)); [reflexivity|].
    destruct (Z.eqb_spec k b); [reflexivity|]. specialize (H7 k Hk). exact H7. }
  split; [assumption|]. split; [assumption|]. split; [assumption|]. split; [assumption|]. split; [assumption|]. split; [assumption|].
  split; [exact C|]. cbn. intros Hm. destruct (H8 Hm) as (P1 & P2 & P3 & P4 & P5).
  split; [assumption|]. split; [assumption|]. split; [assumption|]. split.
  - intros k Hk Hk'. cbn in *. unfold setA in Hk'. destruct (Z.eqb_spec k (b + 1)); [discriminate|].
    destruct (Z.eqb_spec k b); [discriminate|]. apply P4; assumption.
  - intros k Hk Hk'. cbn in Hk'. unfold loaded. rewrite C by assumption. cbn. unfold setA.
    destruct (Z.eqb_spec k (b + 1)); [reflexivity|]. destruct (Z.eqb_spec k b); [reflexivity|]. lia.
Qed.
Lemma sim_bond : forall d s s0 b, sim d s s0 -> 1 <= b < mN s -> matb s = b -> 
  mA s b = mA s0 b /\ mA s (b + 1) = mA s0 (b + 1).
Proof.
  intros d s s0 b (H1 & H2 & H3 & H4 & H5 & H6 & H7 & H8) Hb Ea. destruct (mdo s) eqn:Hm.
  - destruct (H8 eq_refl) as (P1 & P2 & P3 & P4 & P5). split.
    + rewrite (P5 b) by lia. apply H7. lia.
    + rewrite (P5 (b + 1)) by lia. apply H7. lia.
  - split; [rewrite <- (H7 b) by lia|rewrite <- (H7 (b + 1)) by lia]; symmetry; apply mem_content; assumption.
Qed.

Lemma frame_lims : forall (d : disk) (s : mps) l r, frame d s d (withlims s l r).
Proof. intros. repeat split; auto. Qed.

(** setBond(b); ref(b); ref(b+1) keeps the bond at b. *)
Lemma ref_keeps_bond : forall (d d' : disk) (s s' : mps) i b, ref d s i = Ok (d', s') -> matb s = b -> 1 <= b < mN s ->
  i = b \/ i = b + 1 -> matb s' = b /\ mN s' = mN s.
Proof.
  intros d d' s s' i b H E Hb Hi. unfold ref in H.
  assert (Ew : wrap s i = i) by (unfold wrap; zb; lia). rewrite Ew in H. unfold setSite in H.
  destruct (mdo s); cbn [negb obind] in H.
  - destruct (Z.ltb_spec i 1); [lia|]. destruct (Z.ltb_spec (mN s) i); [lia|]. cbn [orb] in H.
    destruct (Z.ltb_spec i (matb s)); [lia|]. destruct (Z.ltb_spec (matb s + 1) i); [lia|]. cbn [obind] in H.
    destruct (inrange (ref_lims s i) i); [|discriminate]. injection H as <- <-. cbn. auto.
  - match type of H with (if ?c then _ else _) = _ => destruct c; [|discriminate] end.
    injection H as <- <-. cbn. split; [zb; lia|reflexivity].
Qed.
Lemma get_keeps_bond : forall (d d' : disk) (s s' : mps) i b x, get d s i = Ok (d', s', x) -> matb s = b -> 1 <= b < mN s ->
  i = b \/ i = b + 1 -> matb s' = b /\ mN s' = mN s /\ mA s' = mA s.
Proof.
  intros d d' s s' i b x H E Hb Hi. unfold get in H.
  assert (Ew : wrap s i = i) by (unfold wrap; zb; lia). rewrite Ew in H. unfold setSite in H.
  destruct (mdo s); cbn [negb obind] in H.
  - destruct (Z.ltb_spec i 1); [lia|]. destruct (Z.ltb_spec (mN s) i); [lia|]. cbn [orb] in H.
    destruct (Z.ltb_spec i (matb s)); [lia|]. destruct (Z.ltb_spec (matb s + 1) i); [lia|]. cbn [obind] in H.
    destruct (inrange s i); [|discriminate]. injection H as <- <- <-. cbn. auto.
  - match type of H with (if ?c then _ else _) = _ => destruct c; [|discriminate] end.
    injection H as <- <- <-. cbn. split; [zb; lia|auto].
Qed.

(** One turn of position: select the bond, take both references, factor. *)
Lemma sim_turn : forall (o : T -> T -> outcome (T * T)) (fin : mps -> Z * Z) d s s0 b,
  (forall a c, mN a = mN c -> ml a = ml c -> mr a = mr c -> fin a = fin c) ->
  sim d s s0 -> 1 <= b < mN s -> forall dd,
  sim_res d s s0
   (let! (d1, s1) := setBond d s b in let! (d2, s2) := ref d1 s1 b in let! (d3, s3) := ref d2 s2 (b + 1) in
    let! s4 := orth o s3 b in Ok (d3, withlims s4 (fst (fin s4)) (snd (fin s4))))
   (let! (d1, s1) := setBond dd s0 b in let! (d2, s2) := ref d1 s1 b in let! (d3, s3) := ref d2 s2 (b + 1) in
    let! s4 := orth o s3 b in Ok (d3, withlims s4 (fst (fin s4)) (snd (fin s4)))) dd.
Proof.
  intros o fin d s s0 b Hfin S Hb dd.
  destruct (sim_setBond d s s0 b S Hb) as (d1 & s1 & s01 & E1 & S1 & F1 & B1 & E1').
  rewrite E1, E1'. cbn [obind]. pose proof F1 as (_ & _ & N1 & _ & _).
  destruct (sim_ref d1 s1 s01 b S1) as (d2 & s2 & s02 & E2 & S2 & F2 & _ & _ & E2'). { left; lia. }
  rewrite E2, E2'. cbn [obind]. pose proof F2 as (_ & _ & N2 & _ & _).
  destruct (ref_keeps_bond _ _ _ _ _ b E2) as (B2 & _); [assumption|lia|auto|].
  destruct (sim_ref d2 s2 s02 (b + 1) S2) as (d3 & s3 & s03 & E3 & S3 & F3 & _ & _ & E3'). { left; lia. }
  rewrite E3, E3'. cbn [obind]. pose proof F3 as (_ & _ & N3 & _ & _).
  destruct (ref_keeps_bond _ _ _ _ _ b E3) as (B3 & _); [assumption|lia|auto|].
  destruct (sim_bond d3 s3 s03 b S3) as (Q1 & Q2); [lia|assumption|].
  assert (FF : frame d s d3 s3) by (eapply frame_trans; [exact F1|]; eapply frame_trans; [exact F2|exact F3]).
  pose proof S3 as (K1 & K2 & K3 & K4 & _).
  unfold orth. rewrite <- Q1, <- Q2.
  assert (Triv : sim_res d s s0 (Ok (d3, withlims s3 (fst (fin s3)) (snd (fin s3))))
     (Ok (dd, withlims s03 (fst (fin s03)) (snd (fin s03)))) dd).
  { cbn. exists (withlims s03 (fst (fin s03)) (snd (fin s03))). split; [reflexivity|].
    rewrite (Hfin s03 s3) by congruence. split; [apply sim_lims; assumption|].
    eapply frame_trans; [exact FF|apply frame_lims]. }
  destruct (mA s3 b) as [x|]; [|exact Triv]. destruct (mA s3 (b + 1)) as [y|]; [|exact Triv].
  destruct (o x y) as [[x' y']| |]; cbn [obind sim_res]; try reflexivity.
  eexists. split; [reflexivity|].
  match goal with |- sim _ (withlims ?a _ _) (withlims ?c _ _) /\ _ => rewrite (Hfin c a) by (cbn; congruence) end.
  split; [apply sim_lims; apply sim_two; try assumption; lia|].
  eapply frame_trans; [exact FF|]. repeat split; auto.
Qed.

Lemma sim_svdBond : forall d s s0 b w fl, sim d s s0 -> 1 <= b < mN s -> forall dd,
  sim_res d s s0 (svdBond splitL splitR d s b w fl) (svdBond splitL splitR dd s0 b w fl) dd.
Proof.
  intros d s s0 b w fl S Hb dd. unfold svdBond.
  destruct (sim_setBond d s s0 b S Hb) as (d1 & s1 & s01 & E1 & S1 & F1 & B1 & E1').
  rewrite E1, E1'. cbn [obind]. pose proof F1 as (_ & _ & N1 & _ & _). pose proof S1 as (K1 & K2 & K3 & K4 & _).
  rewrite K3, K4.
  destruct (fl && (ml s1 <? b - 1)); [reflexivity|]. destruct (negb fl && (b + 2 <? mr s1)); [reflexivity|].
  assert (G : forall sp l r, sim_res d s s0
    (let! (x, y) := sp w in Ok (d1, withlims (withA s1 (setA (setA (mA s1) b (Some x)) (b + 1) (Some y))) l r))
    (let! (x, y) := sp w in Ok (dd, withlims (withA s01 (setA (setA (mA s01) b (Some x)) (b + 1) (Some y))) l r)) dd).
  { intros sp l r. destruct (sp w) as [[x y]| |]; cbn [obind sim_res]; try reflexivity.
    eexists. split; [reflexivity|]. split; [apply sim_lims; apply sim_two; try assumption; lia|].
    eapply frame_trans; [exact F1|]. repeat split; auto. }
  destruct fl.
  - specialize (G splitL b (if mr s1 <? b + 2 then b + 2 else mr s1)).
    destruct (splitL w) as [[x y]| |]; cbn [obind] in *; try reflexivity. cbn. rewrite K4. exact G.
  - specialize (G splitR (if b - 1 <? ml s1 then b - 1 else ml s1) (b + 1)).
    destruct (splitR w) as [[x y]| |]; cbn [obind] in *; try reflexivity. cbn. rewrite K3. exact G.
Qed.

(** One turn of position with DoSVDBond. *)
Lemma sim_svd_turn : forall d s s0 b fl, sim d s s0 -> 1 <= b < mN s -> forall dd,
  sim_res d s s0
   (let! (d1, s1) := setBond d s b in let! (d2, s2, x) := get d1 s1 b in let! (d3, s3, y) := get d2 s2 (b + 1) in
    match x, y with Some x, Some y => svdBond splitL splitR d3 s3 b (pair x y) fl | _, _ => Err end)
   (let! (d1, s1) := setBond dd s0 b in let! (d2, s2, x) := get d1 s1 b in let! (d3, s3, y) := get d2 s2 (b + 1) in
    match x, y with Some x, Some y => svdBond splitL splitR d3 s3 b (pair x y) fl | _, _ => Err end) dd.
Proof.
  intros d s s0 b fl S Hb dd.
  destruct (sim_setBond d s s0 b S Hb) as (d1 & s1 & s01 & E1 & S1 & F1 & B1 & E1').
  rewrite E1, E1'. cbn [obind]. pose proof F1 as (_ & _ & N1 & _ & _).
  destruct (sim_get d1 s1 s01 b S1) as (d2 & s2 & s02 & x & E2 & S2 & F2 & _ & _ & E2'). { left; lia. }
  rewrite E2, E2'. cbn [obind]. pose proof F2 as (_ & _ & N2 & _ & _).
  destruct (sim_get d2 s2 s02 (b + 1) S2) as (d3 & s3 & s03 & y & E3 & S3 & F3 & _ & _ & E3'). { left; lia. }
  rewrite E3, E3'. cbn [obind]. pose proof F3 as (_ & _ & N3 & _ & _).
  assert (FF : frame d s d3 s3) by (eapply frame_trans; [exact F1|]; eapply frame_trans; [exact F2|exact F3]).
  destruct x as [x|]; [|reflexivity]. destruct y as [y|]; [|reflexivity].
  pose proof (sim_svdBond d3 s3 s03 b (pair x y) fl S3 ltac:(lia) dd) as Q.
  unfold sim_res in *. destruct (svdBond splitL splitR d3 s3 b (pair x y) fl) as [[d4 s4]| |]; try assumption.
  destruct Q as (s04 & Q1 & Q2 & Q3). exists s04. split; [assumption|]. split; [assumption|]. eapply frame_trans; eauto.
Qed.


(** Limits as the operations on sites 1..N keep them. *)
Definition bounds (s : mps) : Prop := 0 <= ml s /\ ml s + 2 <= mr s <= mN s + 1.

Lemma sim_while : forall c stp (Inv : mps -> Prop),
  (forall a e, mN a = mN e -> ml a = ml e -> mr a = mr e -> c a = c e) ->
  (forall d s s0 dd, sim d s s0 -> c s = true -> Inv s0 -> sim_res d s s0 (stp d s) (stp dd s0) dd) ->
  (forall dd dd' s0 s0', mdo s0 = false -> c s0 = true -> Inv s0 -> stp dd s0 = Ok (dd', s0') -> Inv s0') ->
  forall n d s s0 dd, sim d s s0 -> Inv s0 ->
  sim_res d s s0 (while n c stp d s) (while n c stp dd s0) dd /\
  (forall d' s0', while n c stp dd s0 = Ok (d', s0') -> Inv s0').
Proof.
  intros c stp Inv Hc Hs Hi. induction n as [|n IH]; intros d s s0 dd S I; cbn [while];
    pose proof S as (K1 & K2 & K3 & K4 & _); rewrite (Hc s0 s K2 K3 K4); destruct (c s) eqn:Ec.
  - split; [reflexivity|discriminate].
  - split; [|intros ? ? H; injection H as <- <-; assumption].
    exists s0. split; [reflexivity|]. split; [assumption|apply frame_refl].
  - pose proof (Hs d s s0 dd S Ec I) as Q. unfold sim_res in Q.
    destruct (stp d s) as [[d1 s1]| |]; cbn [obind].
    + destruct Q as (s01 & E & Q1 & Q2). rewrite E. cbn [obind].
      assert (I1 : Inv s01). { apply (Hi dd dd s0); try assumption. rewrite (Hc s0 s K2 K3 K4). assumption. }
      destruct (IH d1 s1 s01 dd Q1 I1) as (IHa & IHb). split; [|assumption]. unfold sim_res in *.
      destruct (while n c stp d1 s1) as [[d2 s2]| |]; try assumption.
      destruct IHa as (s02 & J1 & J2 & J3). exists s02. split; [assumption|]. split; [assumption|]. eapply frame_trans; eauto.
    + rewrite Q. split; [reflexivity|discriminate].
    + rewrite Q. split; [reflexivity|discriminate].
  - split; [|intros ? ? H; injection H as <- <-; assumption].
    exists s0. split; [reflexivity|]. split; [assumption|apply frame_refl].
Qed.

Lemma sim_res_lims : forall d s s0 l r l' r' x x0 dd,
  sim_res d (withlims s l r) (withlims s0 l' r') x x0 dd -> sim_res d s s0 x x0 dd.
Proof.
  intros d s s0 l r l' r' x x0 dd H. unfold sim_res in *. destruct x as [[d1 s1]| |]; auto.
Qed.

Lemma sim_pos_left : forall d s s0 dd, sim d s s0 -> 0 <= ml s -> ml s + 1 < mN s ->
  sim_res d s s0 (pos_left orthL d s) (pos_left orthL dd s0) dd.
Proof.
  intros d s s0 dd S Hl Hb. unfold pos_left. pose proof S as (K1 & K2 & K3 & K4 & K5 & _). rewrite K3, K4.
  destruct (Z.ltb_spec (ml s) 0); [lia|]. cbn [ml withlims].
  eapply sim_res_lims.
  apply (sim_turn orthL (fun s4 => (ml s4 + 1, if mr s4 <? ml s4 + 1 + 2 then ml s4 + 1 + 2 else mr s4))).
  - intros a c _ -> ->. reflexivity.
  - apply sim_lims. assumption.
  - cbn. lia.
Qed.
Lemma sim_pos_right : forall d s s0 dd, sim d s s0 -> 3 <= mr s -> mr s <= mN s + 1 ->
  sim_res d s s0 (pos_right orthR d s) (pos_right orthR dd s0) dd.
Proof.
  intros d s s0 dd S Hl Hb. unfold pos_right. pose proof S as (K1 & K2 & K3 & K4 & K5 & _). rewrite K3, K4, K2.
  destruct (Z.ltb_spec (mN s + 1) (mr s)); [lia|]. cbn [mr withlims].
  eapply sim_res_lims.
  apply (sim_turn orthR (fun s4 => (if mr s4 - 1 - 2 <? ml s4 then mr s4 - 1 - 2 else ml s4, mr s4 - 1))).
  - intros a c _ -> ->. reflexivity.
  - apply sim_lims. assumption.
  - cbn. lia.
Qed.
Lemma sim_svd_left : forall d s s0 dd, sim d s s0 -> 0 <= ml s -> ml s + 1 < mN s ->
  sim_res d s s0 (svd_left splitL splitR pair d s) (svd_left splitL splitR pair dd s0) dd.
Proof.
  intros d s s0 dd S Hl Hb. unfold svd_left. pose proof S as (K1 & K2 & K3 & K4 & K5 & _). rewrite K3, K4.
  destruct (Z.ltb_spec (ml s) 0); [lia|]. cbn [ml withlims].
  eapply sim_res_lims. apply sim_svd_turn; [apply sim_lims; assumption|cbn; lia].
Qed.
Lemma sim_svd_right : forall d s s0 dd, sim d s s0 -> 3 <= mr s -> mr s <= mN s + 1 ->
  sim_res d s s0 (svd_right splitL splitR pair d s) (svd_right splitL splitR pair dd s0) dd.
Proof.
  intros d s s0 dd S Hl Hb. unfold svd_right. pose proof S as (K1 & K2 & K3 & K4 & K5 & _). rewrite K3, K4, K2.
  destruct (Z.ltb_spec (mN s + 1) (mr s)); [lia|]. cbn [mr withlims].
  eapply sim_res_lims. apply sim_svd_turn; [apply sim_lims; assumption|cbn; lia].
Qed.

Lemma sim_loops : forall (oL oR : T -> T -> outcome (T * T)) stepL stepR n i k,
  1 <= i <= n ->
  (forall d s s0 dd, sim d s s0 -> 0 <= ml s -> ml s + 1 < mN s -> sim_res d s s0 (stepL d s) (stepL dd s0) dd) ->
  (forall d s s0 dd, sim d s s0 -> 3 <= mr s -> mr s <= mN s + 1 -> sim_res d s s0 (stepR d s) (stepR dd s0) dd) ->
  (forall (d d' : disk) (s s' : mps), mdo s = false -> 0 <= ml s -> ml s + 2 <= mr s ->
    ml s + 1 < mN s -> stepL d s = Ok (d', s') ->
    d' = d /\ mdo s' = false /\ mN s' = mN s /\ ml s' = ml s + 1 /\ mr s' = Z.max (mr s) (ml s + 3) /\
    orth_eff oL (mA s) (mA s') (ml s + 1)) ->
  (forall (d d' : disk) (s s' : mps), mdo s = false -> mr s <= mN s + 1 -> ml s + 2 <= mr s ->
    3 <= mr s -> stepR d s = Ok (d', s') ->
    d' = d /\ mdo s' = false /\ mN s' = mN s /\ mr s' = mr s - 1 /\ ml s' = Z.min (ml s) (mr s - 3) /\
    orth_eff oR (mA s) (mA s') (mr s - 2)) ->
  forall d s s0 dd, sim d s s0 -> mN s = n -> bounds s0 ->
  sim_res d s s0
    (let! (d1, s1) := while k (fun s => ml s <? i - 1) stepL d s in while k (fun s => i + 1 <? mr s) stepR d1 s1)
    (let! (d1, s1) := while k (fun s => ml s <? i - 1) stepL dd s0 in while k (fun s => i + 1 <? mr s) stepR d1 s1) dd.
Proof.
  intros oL oR stepL stepR n i k Hi HL HR ML MR d s s0 dd S HN B.
  set (Inv1 := fun a : mps => bounds a /\ mN a = n).
  assert (I0 : Inv1 s0). { split; [assumption|]. destruct S as (_ & E & _). congruence. }
  destruct (sim_while (fun s => ml s <? i - 1) stepL Inv1) with (n := k) (d := d) (s := s) (s0 := s0) (dd := dd) as (Q1 & Q2); try assumption.
  { intros a e _ -> _. reflexivity. }
  { intros d1 s1 s01 dd1 S1 C1 ((B1 & B2) & B3). pose proof S1 as (K1 & K2 & K3 & K4 & _).
    apply Z.ltb_lt in C1. apply HL; try assumption; lia. }
  { intros dd1 dd2 s01 s02 Hm C ((B1 & B2) & B3) E. apply Z.ltb_lt in C.
    apply ML in E; try assumption; try lia. destruct E as (_ & E1 & E2 & E3 & E4 & _).
    split; [|congruence]. unfold bounds. lia. }
  unfold sim_res in Q1 at 1. destruct (while k _ stepL d s) as [[d1 s1]| |]; cbn [obind].
  2:{ rewrite Q1. reflexivity. }
  2:{ rewrite Q1. reflexivity. }
  destruct Q1 as (s01 & E & S1 & F1). rewrite E. cbn [obind].
  pose proof (Q2 _ _ E) as I1.
  destruct (sim_while (fun s => i + 1 <? mr s) stepR Inv1) with (n := k) (d := d1) (s := s1) (s0 := s01) (dd := dd) as (Q3 & _); try assumption.
  { intros a e _ _ ->. reflexivity. }
  { intros d2 s2 s02 dd1 S2 C1 ((B1 & B2) & B3). pose proof S2 as (K1 & K2 & K3 & K4 & _).
    apply Z.ltb_lt in C1. apply HR; try assumption; lia. }
  { intros dd1 dd2 s02 s03 Hm C ((B1 & B2) & B3) E3. apply Z.ltb_lt in C.
    apply MR in E3; try assumption; try lia. destruct E3 as (_ & G1 & G2 & G3 & G4 & _).
    split; [|congruence]. unfold bounds. lia. }
  unfold sim_res in *. destruct (while k _ stepR d1 s1) as [[d2 s2]| |]; try assumption.
  destruct Q3 as (s02 & J1 & J2 & J3). exists s02. split; [assumption|]. split; [assumption|]. eapply frame_trans; eauto.
Qed.

Lemma sim_position : forall d s s0 i dd, sim d s s0 -> 1 <= i <= mN s -> bounds s0 ->
  sim_res d s s0 (position orthL orthR d s i) (position orthL orthR dd s0 i) dd.
Proof.
  intros d s s0 i dd S Hi B. unfold position. pose proof S as (K1 & K2 & K3 & K4 & K5 & _). rewrite K2.
  destruct (mN s =? 0); [reflexivity|].
  apply (sim_loops orthL orthR (pos_left orthL) (pos_right orthR) (mN s) i); try assumption; try reflexivity.
  - intros; apply sim_pos_left; assumption.
  - intros; apply sim_pos_right; assumption.
  - apply pos_left_mem.
  - apply pos_right_mem.
Qed.
Lemma sim_position_svd : forall d s s0 i dd, sim d s s0 -> 1 <= i <= mN s -> bounds s0 ->
  sim_res d s s0 (position_svd splitL splitR pair d s i) (position_svd splitL splitR pair dd s0 i) dd.
Proof.
  intros d s s0 i dd S Hi B. unfold position_svd. pose proof S as (K1 & K2 & K3 & K4 & K5 & _). rewrite K2.
  destruct (mN s =? 0); [reflexivity|].
  apply (sim_loops (fun x y => splitL (pair x y)) (fun x y => splitR (pair x y))
    (svd_left splitL splitR pair) (svd_right splitL splitR pair) (mN s) i); try assumption; try reflexivity.
  - intros; apply sim_svd_left; assumption.
  - intros; apply sim_svd_right; assumption.
  - apply svd_left_mem.
  - apply svd_right_mem.
Qed.

(** Switching disk mode on. *)
Lemma sim_page : forall d s s0 all dir, sim d s s0 ->
  exists d' s', doWrite d s true all dir = Ok (d', s') /\ sim d' s' s0 /\ mdo s' = true /\ mN s' = mN s /\
    (mdo s = true -> d' = d /\ s' = s) /\
    (mdo s = false -> mdir s' = dir /\ forall dir' j, dir' <> dir -> d' dir' j = d dir' j).
Proof.
  intros d s s0 all dir S. unfold doWrite. destruct (mdo s) eqn:Hm.
  { cbn. exists d, s. split; [reflexivity|]. split; [assumption|]. split; [assumption|]. split; [reflexivity|]. split; [auto|discriminate]. }
  cbn [Bool.eqb]. unfold initWrite. rewrite Hm. eexists. eexists. split; [reflexivity|].
  pose proof S as (H1 & H2 & H3 & H4 & H5 & H6 & H7 & H8).
  match goal with |- sim ?a ?b _ /\ _ => set (d' := a); set (s' := b) end.
  assert (C : forall j, slot s j -> content d' s' j = mA s j).
  { intros j Hj. unfold content, d', s'. cbn [mA mdo mdir]. rewrite Nat.eqb_refl, inrange_slot by assumption. cbn [andb].
    destruct all; cbn [andb].
    - destruct ((j <? matb s) || (matb s + 1 <? j)); cbn; destruct (mA s j); reflexivity.
    - destruct (mA s j); reflexivity. }
  split; [|split; [reflexivity|split; [reflexivity|split; [discriminate|]]]].
  2:{ intros _. split; [reflexivity|]. intros dir' j Hd. cbn. destruct (Nat.eqb_spec dir' dir); [contradiction|reflexivity]. }
  split; [assumption|]. split; [assumption|]. split; [assumption|]. split; [assumption|]. split; [assumption|]. split; [assumption|].
  split.
  { intros j Hj. rewrite C by (unfold slot; cbn in Hj; lia). rewrite <- (mem_content d s j Hm). apply H7. assumption. }
  intros _. split; [reflexivity|]. split; [assumption|]. split; [assumption|]. split.
  - intros j Hj Hn. change (slot s j) in Hj. unfold s' in Hn. cbn [mA] in Hn. rewrite (inrange_slot s j Hj) in Hn.
    unfold d', s'. cbn [mdir]. rewrite Nat.eqb_refl, (inrange_slot s j Hj). cbn [andb].
    destruct (mA s j) eqn:Ej; [|discriminate]. destruct all; cbn [andb] in Hn; [discriminate|congruence].
  - intros j Hj Hj'. cbn in Hj, Hj'. unfold loaded. rewrite C by (unfold slot; lia). cbn.
    destruct (Z.ltb_spec j (matb s)); [lia|]. destruct (Z.ltb_spec (matb s + 1) j); [lia|]. cbn. rewrite andb_false_r. reflexivity.
Qed.
End Ops.
End Paging.
