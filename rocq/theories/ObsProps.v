(** C58: when dmrg with a DMRGObserver stops. *)
From Coq Require Import List QArith Qabs Arith Bool Lia Lqa.
From Verif Require Import Util ObsSpec ObsModel.
Import ListNotations.
Open Scope outcome_scope.
Open Scope nat_scope.
Local Arguments Nat.div : simpl never.
Local Arguments Nat.modulo : simpl never.

Lemma qltb_lt a b : qltb a b = true <-> (a < b)%Q.
Proof. unfold qltb. rewrite negb_true_iff. split; intros H. - apply Qnot_le_lt. intros K. apply Qle_bool_iff in K. congruence. - destruct (Qle_bool b a) eqn:E; auto. apply Qle_bool_iff in E. lra. Qed.
Lemma qltb_ge a b : qltb a b = false <-> ~ (a < b)%Q.
Proof. rewrite <- qltb_lt. destruct (qltb a b); split; congruence. Qed.

Section Props.
Context (entropy : list Q -> Q).
Notation measure := (measure entropy).
Notation watch := (watch entropy).
Notation run := (run entropy).
Notation sweeps_from := (sweeps_from entropy).

(** What the user fixed: the goals and whether the entropy is computed. *)
Definition same_goals (o o' : obs) : Prop :=
  energy_errgoal o = energy_errgoal o' /\ entropy_errgoal o = entropy_errgoal o' /\ printeigs o = printeigs o'.

Lemma watch_keeps N silent spec : forall l o, let o' := fold_left (fun o v => measure N (fst v) (snd v) silent (set_spec (spec (fst v) (snd v)) o)) l o in
  same_goals o o' /\ done_ o' = done_ o /\ last_energy_ o' = last_energy_ o /\ last_entropy_ o' = last_entropy_ o /\
  (silent = true \/ printeigs o = false \/ ~ In (N / 2, 2) l -> entS o' = entS o).
Proof.
  induction l as [|[b ha] l IH]; intros o; [cbn; unfold same_goals; intuition|]. cbn [fold_left fst snd].
  set (o1 := measure N b ha silent (set_spec (spec b ha) o)).
  assert (A : same_goals o o1 /\ done_ o1 = done_ o /\ last_energy_ o1 = last_energy_ o /\ last_entropy_ o1 = last_entropy_ o /\
    (silent = true \/ printeigs o = false \/ (b, ha) <> (N / 2, 2) -> entS o1 = entS o)).
  { unfold o1, ObsModel.measure. cbn [set_spec printeigs]. unfold same_goals. destruct silent, (printeigs o) eqn:P; cbn; try (now intuition).
    destruct (Nat.eqb_spec b (N / 2)), (Nat.eqb_spec ha 2); cbn; rewrite ?P; subst; repeat split; intuition congruence. }
  destruct A as ((G1 & G2 & G3) & A2 & A3 & A4 & A5). destruct (IH o1) as ((H1 & H2 & H3) & B2 & B3 & B4 & B5). cbv zeta in *.
  repeat split; try congruence. intros K. rewrite B5, A5; auto.
  - destruct K as [K|[K|K]]; auto. right. right. intros Q. apply K. now left.
  - destruct K as [K|[K|K]]; auto. + right. left. congruence. + right. right. intros Q. apply K. now right.
Qed.

(** After a sweep the member S is the entropy of the middle bond. *)
Lemma watch_S N silent spec o : 2 <= N -> silent = false -> printeigs o = true -> entS (watch N silent spec o) = Some (entropy (spec (N / 2) 2)).
Proof.
  intros HN -> HP. unfold ObsModel.watch, visits. rewrite fold_left_app. set (o1 := fold_left _ _ o).
  assert (P1 : printeigs o1 = true). { destruct (watch_keeps N false spec (map (fun b => (b, 1)) (seq 1 (N - 1))) o) as ((_ & _ & K) & _). unfold o1. congruence. }
  assert (HB : 1 <= N / 2 <= N - 1) by (pose proof (Nat.div_lt N 2 ltac:(lia) ltac:(lia)); pose proof (Nat.div_le_lower_bound N 2 1 ltac:(lia) ltac:(lia)); lia).
  assert (IN : In (N / 2) (rev (seq 1 (N - 1)))) by (apply -> in_rev; apply in_seq; lia).
  assert (ND : NoDup (rev (seq 1 (N - 1)))) by (apply NoDup_rev, seq_NoDup).
  apply in_split in IN as (l1 & l2 & E). rewrite E in ND |- *. rewrite map_app, fold_left_app. set (o2 := fold_left _ _ o1).
  assert (P2 : printeigs o2 = true). { destruct (watch_keeps N false spec (map (fun b => (b, 2)) l1) o1) as ((_ & _ & K) & _). unfold o2. congruence. }
  cbn [map fold_left fst snd]. set (o3 := measure N (N / 2) 2 false _).
  assert (E3 : entS o3 = Some (entropy (spec (N / 2) 2))).
  { unfold o3, ObsModel.measure. cbn [negb andb set_spec printeigs last_spec_]. rewrite P2, !Nat.eqb_refl. reflexivity. }
  destruct (watch_keeps N false spec (map (fun b => (b, 2)) l2) o3) as (_ & _ & _ & _ & K). rewrite K; [exact E3|]. right. right. intros Q.
  apply in_map_iff in Q as (x & Qx & Hx). injection Qx as ->. apply NoDup_remove_2 in ND. apply ND, in_or_app. now right.
Qed.

Section Run.
Context (N : nat) (silent : bool) (E : nat -> Q) (spec : nat -> nat -> nat -> list Q) (created : nat -> bool * bool).
(** The entropy of the middle bond after sweep sw. *)
Definition mid (sw : nat) : Q := entropy (spec sw (N / 2) 2).

(** The entropy goal can be used: it is not set, or the entropy is computed. *)
Definition usable (o : obs) : Prop := (entropy_errgoal o < 0)%Q \/ 2 <= N /\ silent = false /\ printeigs o = true.

(** The files that are there at the end of sweep sw, in a run whose first sweep is st: the files fs of the
    beginning are looked at after the first sweep. *)
Definition there (st : nat) (fs : bool * bool) (sw : nat) : bool * bool :=
  (fst (created sw) || (sw =? st) && fst fs, snd (created sw) || (sw =? st) && snd fs).
(** The goals are met, or somebody asks to stop. *)
Definition halts (st : nat) (o : obs) (fs : bool * bool) (sw : nat) : Prop :=
  goals_met E mid (energy_errgoal o) (entropy_errgoal o) sw \/ fst (there st fs sw) = true \/ snd (there st fs sw) = true \/ done_ o = true.

(** What the observer remembers before sweep sw. *)
Definition before (sw : nat) (o : obs) : Prop :=
  1 < sw -> last_energy_ o = E (sw - 1) /\ ((entropy_errgoal o < 0)%Q \/ last_entropy_ o = Some (mid (sw - 1))).

Lemma even_mod sw : (sw mod 2 =? 0) = Nat.even sw.
Proof.
  destruct (Nat.even sw) eqn:H. - apply Nat.even_spec in H as [k ->]. rewrite Nat.mul_comm, Nat.mod_mul by lia. reflexivity.
  - rewrite <- Nat.negb_odd in H. apply negb_false_iff, Nat.odd_spec in H as [k ->]. rewrite Nat.add_comm, Nat.mul_comm, Nat.mod_add by lia. reflexivity. Qed.

Lemma check_spec sw o fs : 1 <= sw -> usable o -> before sw o -> exists r,
  checkDone sw (E sw) (watch N silent (spec sw) o) fs = Ok r /\ same_goals o (snd (fst r)) /\
  (goals_met E mid (energy_errgoal o) (entropy_errgoal o) sw -> fst (fst r) = true /\ done_ (snd (fst r)) = done_ o /\ snd r = fs) /\
  (~ goals_met E mid (energy_errgoal o) (entropy_errgoal o) sw -> before (S sw) (snd (fst r)) /\
     fst (fst r) = (fst fs || snd fs || done_ o) /\ done_ (snd (fst r)) = (done_ o || negb (fst fs) && snd fs) /\
     snd r = (false, if fst fs then snd fs else false)).
Proof.
  intros Hsw HU HB. destruct (watch_keeps N silent (spec sw) (visits N) o) as ((G1 & G2 & G3) & D1 & D2 & D3 & D4). fold (watch N silent (spec sw) o) in *.
  pose proof (fun H => watch_S N silent (spec sw) o H) as WS. set (o1 := watch N silent (spec sw) o) in *.
  unfold checkDone. rewrite even_mod. set (o2 := if sw =? 1 then set_last 1000 (Some 1000%Q) o1 else o1).
  assert (F : same_goals o o2 /\ done_ o2 = done_ o /\ entS o2 = entS o1) by (unfold o2, same_goals; destruct (sw =? 1); cbn; auto).
  destruct F as ((F1 & F2 & F3) & F4 & F5). rewrite <- F1, <- F2.
  assert (EV : Nat.even sw = true -> last_energy_ o2 = E (sw - 1) /\ ((entropy_errgoal o < 0)%Q \/ last_entropy_ o2 = Some (mid (sw - 1)))).
  { intros K. assert (1 < sw) by (destruct sw as [|[|]]; [lia|discriminate|lia]). unfold o2. destruct (Nat.eqb_spec sw 1); [lia|]. rewrite D2, D3. auto. }
  assert (EN : (entropy_errgoal o < 0)%Q \/ entS o2 = Some (mid sw)).
  { destruct HU as [HU|(U1 & U2 & U3)]; auto. right. rewrite F5. now apply WS. }
  clear WS D4. set (eg := energy_errgoal o) in *. set (sg := entropy_errgoal o) in *.
  unfold goals_met, change. 
  (* the rest, when no goal was met *)
  assert (REST : forall met : Prop, ~ met -> exists r, (let o0 := set_last (E sw) (entS o2) o2 in if fst fs then Ok (true, o0, (false, snd fs)) else if snd fs then Ok (true, set_done o0, (fst fs, false)) else Ok (done_ o0, o0, fs)) = Ok r /\
     same_goals o (snd (fst r)) /\ (met -> fst (fst r) = true /\ done_ (snd (fst r)) = done_ o /\ snd r = fs) /\
     (~ met -> before (S sw) (snd (fst r)) /\ fst (fst r) = (fst fs || snd fs || done_ o) /\ done_ (snd (fst r)) = (done_ o || negb (fst fs) && snd fs) /\ snd r = (false, if fst fs then snd fs else false))).
  { intros met NM. cbv zeta. assert (BF : before (S sw) (set_last (E sw) (entS o2) o2)).
    { intros _. cbn [set_last last_energy_ last_entropy_ entropy_errgoal]. replace (S sw - 1) with sw by lia. split; auto. rewrite <- F2. exact EN. }
    destruct fs as [f1 f2]. cbn [fst snd]. destruct f1; [|destruct f2]; eexists; (split; [reflexivity|]); cbn [fst snd set_last set_done done_ energy_errgoal entropy_errgoal printeigs]; rewrite ?F4.
    - split; [unfold same_goals; cbn; auto|]. split; [tauto|]. intros _. split; [exact BF|]. cbn. rewrite orb_false_r. auto.
    - split; [unfold same_goals; cbn; auto|]. split; [tauto|]. intros _. split; [exact BF|]. cbn. rewrite orb_true_r. auto.
    - split; [unfold same_goals; cbn; auto|]. split; [tauto|]. intros _. split; [exact BF|]. cbn. rewrite orb_false_r. auto. }
  assert (MET : forall met : Prop, met -> forall o', same_goals o o' -> done_ o' = done_ o -> exists r, Ok (true, o', fs) = Ok r /\ same_goals o (snd (fst r)) /\
     (met -> fst (fst r) = true /\ done_ (snd (fst r)) = done_ o /\ snd r = fs) /\
     (~ met -> before (S sw) (snd (fst r)) /\ fst (fst r) = (fst fs || snd fs || done_ o) /\ done_ (snd (fst r)) = (done_ o || negb (fst fs) && snd fs) /\ snd r = (false, if fst fs then snd fs else false))).
  { intros met HM o' HS HD. eexists. split; [reflexivity|]. cbn [fst snd]. split; [exact HS|]. split; [auto|]. intros K. contradiction. }
  destruct (Nat.even sw) eqn:EVN.
  2:{ rewrite !andb_false_r. cbn [obind]. apply REST. intros [K _]. discriminate. }
  destruct (EV eq_refl) as [L1 L2]. rewrite !andb_true_r, L1. clear EV.
  destruct (qltb 0 eg) eqn:Q1; [apply qltb_lt in Q1|apply qltb_ge in Q1].
  - assert (qltb eg 0 = false) as -> by (apply qltb_ge; lra). cbn [andb obind].
    destruct (qltb sg 0) eqn:Q2; [apply qltb_lt in Q2|apply qltb_ge in Q2].
    + assert (qltb 0 sg = false) as -> by (apply qltb_ge; lra). cbn [andb obind]. destruct (qltb (Qabs (E sw - E (sw - 1))%Q) eg) eqn:Q3; [apply qltb_lt in Q3|apply qltb_ge in Q3].
      * apply MET; [intuition|unfold same_goals; cbn; auto|exact F4].
      * apply REST. intros (_ & _ & [[_ K]|K] & _); [contradiction|lra].
    + destruct L2 as [L2|L2]; [lra|]. destruct EN as [EN|EN]; [lra|]. destruct (qltb 0 sg) eqn:Q4; [apply qltb_lt in Q4|apply qltb_ge in Q4].
      * rewrite EN, L2. cbn [andb obind get]. destruct (qltb (Qabs (E sw - E (sw - 1))%Q) eg) eqn:Q3; [apply qltb_lt in Q3|apply qltb_ge in Q3].
        -- destruct (qltb (Qabs (mid sw - mid (sw - 1))%Q) sg) eqn:Q5; [apply qltb_lt in Q5|apply qltb_ge in Q5]; cbn [andb].
           ++ apply MET; [intuition|unfold same_goals; cbn; auto|exact F4].
           ++ rewrite <- EN. apply REST. intros (_ & _ & _ & [[_ K]|K]); [contradiction|lra].
        -- cbn [andb]. rewrite <- EN. apply REST. intros (_ & _ & [[_ K]|K] & _); [contradiction|lra].
      * cbn [andb obind]. apply REST. intros (_ & _ & _ & [[K _]|K]); lra.
  - cbn [andb obind]. destruct (qltb 0 sg) eqn:Q4; [apply qltb_lt in Q4|apply qltb_ge in Q4].
    + destruct L2 as [L2|L2]; [lra|]. destruct EN as [EN|EN]; [lra|]. destruct (qltb eg 0) eqn:Q2; [apply qltb_lt in Q2|apply qltb_ge in Q2].
      * rewrite EN, L2. cbn [andb obind get]. destruct (qltb (Qabs (mid sw - mid (sw - 1))%Q) sg) eqn:Q5; [apply qltb_lt in Q5|apply qltb_ge in Q5]; cbn [andb obind].
        -- apply MET; [intuition|unfold same_goals; cbn; auto|exact F4].
        -- rewrite <- EN. apply REST. intros (_ & _ & _ & [[_ K]|K]); [contradiction|lra].
      * cbn [andb obind]. apply REST. intros (_ & _ & [[K _]|K] & _); [contradiction|contradiction].
    + rewrite andb_false_r. cbn [andb obind]. apply REST. intros (_ & [K|K] & _); contradiction.
Qed.

Lemma met_dec eg sg sw : goals_met E mid eg sg sw \/ ~ goals_met E mid eg sg sw.
Proof.
  unfold goals_met. generalize (change E sw) (change mid sw). intros x y. destruct (Nat.even sw); [|right; intuition discriminate].
  assert (D : forall a b : Q, (a < b)%Q \/ ~ (a < b)%Q) by (intros a b; destruct (Qlt_le_dec a b); [now left|right; lra]).
  destruct (D 0%Q eg), (D 0%Q sg), (D x eg), (D y sg), (D eg 0%Q), (D sg 0%Q); tauto.
Qed.

Lemma loop_spec : forall n sw o fs, 1 <= sw -> usable o -> before sw o ->
  exists k o' fs', sweeps_from (S n) sw N silent E spec created o fs = Ok (k, o', fs') /\ sw <= k < sw + S n /\ same_goals o o' /\
    (forall j, sw <= j < k -> ~ halts sw o fs j) /\ (k + 1 < sw + S n -> halts sw o fs k) /\
    (goals_met E mid (energy_errgoal o) (entropy_errgoal o) k -> done_ o' = done_ o /\ fs' = there sw fs k) /\
    (~ goals_met E mid (energy_errgoal o) (entropy_errgoal o) k ->
       let f := there sw fs k in done_ o' = (done_ o || negb (fst f) && snd f)%bool /\ fs' = (false, if fst f then snd f else false)).
Proof.
  induction n as [|n IH]; intros sw o fs Hsw HU HB; cbn [ObsModel.sweeps_from]; fold (sweeps_from);
    set (f := (fst fs || fst (created sw), snd fs || snd (created sw))%bool);
    assert (EF : f = there sw fs sw) by (unfold f, there; rewrite Nat.eqb_refl; cbn [andb]; f_equal; apply orb_comm);
    destruct (check_spec sw o f Hsw HU HB) as ([[b o1] fs1] & E1 & SG & M1 & M2); cbn [fst snd] in *; rewrite E1; cbn [obind fst snd].
  - exists sw, o1, fs1. split; [destruct b; [reflexivity|]; replace (S sw - 1) with sw by lia; reflexivity|]. split; [lia|]. split; [exact SG|]. split; [intros; lia|]. split; [intros; lia|]. rewrite <- EF. split; [intros K; now apply M1|intros K; cbv zeta; now apply M2].
  - destruct b.
    + exists sw, o1, fs1. split; [reflexivity|]. split; [lia|]. split; [exact SG|]. split; [intros; lia|]. split.
      * intros _. unfold halts. rewrite <- EF. destruct (met_dec (energy_errgoal o) (entropy_errgoal o) sw) as [K|K]; [now left|]. right. destruct (M2 K) as (_ & K2 & _). destruct (fst f), (snd f), (done_ o); auto.
      * rewrite <- EF. split; [intros K; now apply M1|intros K; cbv zeta; now apply M2].
    + destruct (met_dec (energy_errgoal o) (entropy_errgoal o) sw) as [K|K]; [destruct (M1 K); discriminate|]. destruct (M2 K) as (B1 & B2 & B3 & B4). clear M1 M2.
      symmetry in B2. apply orb_false_iff in B2 as [B2 B5]. apply orb_false_iff in B2 as [B2 B6]. rewrite B2 in B4. rewrite B2, B6, B5 in B3. cbn in B3, B4. destruct SG as (S1 & S2 & S3).
      assert (HU1 : usable o1) by (unfold usable; rewrite <- S2, <- S3; exact HU).
      destruct (IH (S sw) o1 fs1 ltac:(lia) HU1 B1) as (k & o' & fs' & E2 & R1 & (T1 & T2 & T3) & R3 & R4 & R5 & R6).
      assert (TH : forall j, sw < j -> there (S sw) fs1 j = there sw fs j).
      { intros j Hj. unfold there. rewrite B4. cbn [fst snd]. rewrite !andb_false_r. destruct (Nat.eqb_spec j sw); [lia|]. reflexivity. }
      assert (HH : forall j, sw < j -> halts (S sw) o1 fs1 j <-> halts sw o fs j).
      { intros j Hj. unfold halts. rewrite TH, <- S1, <- S2, B3, B5 by lia. reflexivity. }
      exists k, o', fs'. split; [exact E2|]. split; [lia|]. split; [unfold same_goals; repeat split; congruence|]. split.
      * intros j Hj. destruct (Nat.eq_dec j sw) as [->|].
        -- unfold halts. rewrite <- EF, B2, B6, B5. intros [Q|[Q|[Q|Q]]]; auto; discriminate.
        -- rewrite <- HH by lia. apply R3. lia.
      * split; [intros Hk; rewrite <- HH by lia; apply R4; lia|]. rewrite <- TH, S1, S2 by lia. split; [intros Q; destruct (R5 Q) as [-> ->]; split; [congruence|reflexivity]|].
        intros Q. destruct (R6 Q) as [-> ->]. split; [congruence|reflexivity].
Qed.

(** C58.  A run of nsweep sweeps does sweeps until one at which the goals are met or somebody asks to stop:
    not fewer and not more. *)
Theorem C58_stop : forall nsweep o fs, 1 <= nsweep -> usable o ->
  exists k o' fs', run nsweep N silent E spec created o fs = Ok (k, o', fs') /\ 1 <= k <= nsweep /\ same_goals o o' /\
    (forall sw, 1 <= sw < k -> ~ halts 1 o fs sw) /\ (k < nsweep -> halts 1 o fs k).
Proof.
  intros nsweep o fs Hn HU. destruct nsweep as [|n]; [lia|]. destruct (loop_spec n 1 o fs) as (k & o' & fs' & E1 & R1 & SG & R3 & R4 & _); auto; [unfold before; lia|].
  exists k, o', fs'. split; [exact E1|]. split; [lia|]. split; [exact SG|]. split; [exact R3|]. intros. apply R4. lia.
Qed.

(** A run that ends without meeting its goals has used up the file STOP_DMRG, or if there was none the file
    STOP_DMRG_ALL, that was there at its last sweep, and remembers STOP_DMRG_ALL; one that meets its goals
    leaves the files alone. *)
Theorem C58_files : forall nsweep o fs k o' fs', 1 <= nsweep -> usable o -> run nsweep N silent E spec created o fs = Ok (k, o', fs') ->
  (goals_met E mid (energy_errgoal o) (entropy_errgoal o) k -> done_ o' = done_ o /\ fs' = there 1 fs k) /\
  (~ goals_met E mid (energy_errgoal o) (entropy_errgoal o) k ->
     (there 1 fs k = (false, false) -> done_ o' = done_ o /\ fs' = (false, false)) /\
     (fst (there 1 fs k) = true -> done_ o' = done_ o /\ fs' = (false, snd (there 1 fs k))) /\
     (there 1 fs k = (false, true) -> done_ o' = true /\ fs' = (false, false))).
Proof.
  intros nsweep o fs k o' fs' Hn HU HR. destruct nsweep as [|n]; [lia|]. destruct (loop_spec n 1 o fs) as (k1 & o1 & fs1 & E1 & R1 & SG & R3 & R4 & R5 & R6); auto; [unfold before; lia|].
  unfold ObsModel.run in HR. rewrite E1 in HR. injection HR as -> -> ->. split; [exact R5|]. intros K. destruct (R6 K) as [-> ->]. clear.
  destruct (there 1 fs k) as [f1 f2]. cbn [fst snd]. destruct f1, f2, (done_ o); cbn; repeat split; intros; auto; try discriminate; try congruence.
Qed.

(** STOP_DMRG_ALL: every later run with the same observer does one sweep. *)
Theorem C58_stop_all : forall nsweep o fs, 1 <= nsweep -> usable o -> done_ o = true ->
  exists o' fs', run nsweep N silent E spec created o fs = Ok (1, o', fs') /\ done_ o' = true.
Proof.
  intros nsweep o fs Hn HU HD. destruct nsweep as [|n]; [lia|]. destruct (loop_spec n 1 o fs) as (k & o' & fs' & E1 & R1 & SG & R3 & R4 & R5 & R6); auto; [unfold before; lia|].
  assert (k = 1) as -> by (destruct (Nat.eq_dec k 1); auto; elim (R3 1 ltac:(lia)); unfold halts; auto).
  exists o', fs'. split; [exact E1|]. destruct (met_dec (energy_errgoal o) (entropy_errgoal o) 1) as [K|K]; [destruct (R5 K); congruence|]. destruct (R6 K) as [-> _]. now rewrite HD.
Qed.
End Run.

(** C58.  The entropy goal with Silent, or with PrintEigs false: the entropy is never computed, and the
    second sweep compares a number that was never set. *)
Theorem C58_entropy_goal_unset_refuted : forall nsweep N silent E spec sg pe, 2 <= nsweep -> (0 < sg)%Q -> silent = true \/ pe = Some false ->
  run nsweep N silent E spec (fun _ => (false, false)) (new_obs None (Some sg) pe) (false, false) = UB.
Proof.
  intros nsweep N silent E spec sg pe Hn Hsg Hs. destruct nsweep as [|[|n]]; try lia. unfold ObsModel.run. cbn [ObsModel.sweeps_from fst snd orb].
  set (o := new_obs None (Some sg) pe).
  assert (NP : forall o1, same_goals o o1 -> silent = true \/ printeigs o1 = false \/ ~ In (N / 2, 2) (visits N)).
  { intros o1 (_ & _ & K). destruct Hs as [Hs|Hs]; auto. right. left. rewrite <- K. unfold o. rewrite Hs. reflexivity. }
  destruct (watch_keeps N silent (spec 1) (visits N) o) as ((G1 & G2 & G3) & D1 & D2 & D3 & D4). fold (watch N silent (spec 1) o) in *. specialize (D4 (NP o (conj eq_refl (conj eq_refl eq_refl)))).
  set (o1 := watch N silent (spec 1) o) in *.
  assert (C1 : checkDone 1 (E 1) o1 (false, false) = Ok (false, set_last (E 1) None o1, (false, false))).
  { unfold checkDone. cbn [Nat.eqb set_last energy_errgoal entropy_errgoal entS last_energy_ last_entropy_ done_ printeigs last_spec_]. change (1 mod 2 =? 0) with false. rewrite !andb_false_r. cbn [obind fst snd]. rewrite D4, D1. reflexivity. }
  rewrite C1. cbn [obind fst snd orb]. set (o2 := set_last (E 1) None o1).
  destruct (watch_keeps N silent (spec 2) (visits N) o2) as ((H1 & H2 & H3) & F1 & F2 & F3 & F4). fold (watch N silent (spec 2) o2) in *.
  assert (SG2 : same_goals o o2) by (unfold o2, same_goals; cbn; auto). specialize (F4 (NP o2 SG2)). set (o3 := watch N silent (spec 2) o2) in *.
  unfold checkDone. change (2 =? 1) with false. change (2 mod 2 =? 0) with true. cbv iota. rewrite !andb_true_r, <- H1, <- H2, F4.
  assert (A : energy_errgoal o2 = (-1)%Q /\ entropy_errgoal o2 = sg /\ entS o2 = None) by (unfold o2; cbn; rewrite <- G1, <- G2, D4; auto). destruct A as (-> & -> & ->).
  change (qltb 0 (-1)) with false. change (qltb (-1) 0) with true. rewrite (proj2 (qltb_lt 0 sg) Hsg). reflexivity.
Qed.

(** C58.  An entropy goal of zero, which is not the default -1, switches the energy goal off: all sweeps are
    done although the energy does not change at all. *)
Theorem C58_zero_goal_refuted : forall nsweep N silent spec eg pe, 1 <= nsweep -> (0 < eg)%Q -> 2 <= N -> silent = false -> pe = Some true ->
  exists o' fs', run nsweep N silent (fun _ => 0%Q) spec (fun _ => (false, false)) (new_obs (Some eg) (Some 0%Q) pe) (false, false) = Ok (nsweep, o', fs').
Proof.
  intros nsweep N silent spec eg pe Hn Heg HN -> ->. destruct (C58_stop N false (fun _ => 0%Q) spec (fun _ => (false, false)) nsweep (new_obs (Some eg) (Some 0%Q) (Some true)) (false, false) Hn) as (k & o' & fs' & E1 & R1 & _ & _ & R4).
  { right. auto. }
  exists o', fs'. rewrite E1. do 3 f_equal. destruct (Nat.eq_dec k nsweep) as [->|]; auto. assert (K : k < nsweep) by lia. apply R4 in K. unfold halts, there in K. cbn [fst snd new_obs done_ orb energy_errgoal entropy_errgoal] in K.
  rewrite andb_false_r in K. destruct K as [(_ & _ & _ & [[K _]|K])|[K|[K|K]]]; try discriminate; lra.
Qed.

End Props.

(** ** concrete runs; the entropy of a spectrum is its first number *)
Definition ent1 (l : list Q) : Q := hd 0%Q l.
(** The energies 8, 4, 2, 1, 1, ...; the entropies 0, 5, 0, 5, ... *)
Definition exE (sw : nat) : Q := nth sw [8; 8; 4; 2; 1]%Q 1%Q.
Definition exS (sw b ha : nat) : list Q := [if Nat.even sw then 5%Q else 0%Q].
Definition no_files (sw : nat) : bool * bool := (false, false).

(** C58.  The comment in the source says that with both goals set the run stops when one of them is met; it
    goes on until both are. *)
Theorem C58_either_goal_refuted : exists nsweep N E spec,
  (forall sw, 1 < sw -> (change E sw < 1)%Q) /\
  exists o' fs', run ent1 nsweep N false E spec no_files (new_obs (Some 1%Q) (Some 1%Q) None) (false, false) = Ok (nsweep, o', fs') /\ 2 < nsweep.
Proof.
  exists 4, 6, (fun _ => 0%Q), exS. split; [intros; reflexivity|]. do 2 eexists. split; [vm_compute; reflexivity|lia].
Qed.

(** An energy goal of 1/2 is met after six sweeps; a goal file STOP_DMRG made during sweep 3 stops the run
    then; STOP_DMRG_ALL also stops the next run. *)
Example C58_nonvacuous :
  usable 6 false (new_obs (Some (1 # 2)%Q) None None) /\ usable 6 false (new_obs (Some 1%Q) (Some 1%Q) None) /\
  (exists o fs, run ent1 10 6 false exE exS no_files (new_obs (Some (1 # 2)%Q) None None) (false, false) = Ok (6, o, fs)) /\
  (exists o fs, run ent1 10 6 false exE exS (fun sw => (sw =? 3, false)) (new_obs None None None) (false, false) = Ok (3, o, fs) /\ done_ o = false /\ fs = (false, false)) /\
  (exists o fs o' fs', run ent1 10 6 false exE exS (fun sw => (false, sw =? 3)) (new_obs None None None) (false, false) = Ok (3, o, fs) /\
     run ent1 10 6 false exE exS no_files o fs = Ok (1, o', fs')) /\
  goals_met exE (mid ent1 6 exS) (1 # 2) (-1) 6 /\ ~ goals_met exE (mid ent1 6 exS) (1 # 2) (-1) 4.
Proof.
  split; [left; reflexivity|]. split; [right; split; [lia|split; reflexivity]|]. split; [do 2 eexists; vm_compute; reflexivity|].
  split; [do 2 eexists; split; [vm_compute; reflexivity|]; split; reflexivity|].
  split; [do 4 eexists; split; [vm_compute; reflexivity|]; vm_compute; reflexivity|].
  split. - split; [reflexivity|]. split; [left; reflexivity|]. split; [left; split; reflexivity|]. right. reflexivity.
  - intros (_ & _ & [[_ K]|K] & _); discriminate K.
Qed.

Print Assumptions C58_stop.
Print Assumptions C58_files.
Print Assumptions C58_stop_all.
Print Assumptions C58_entropy_goal_unset_refuted.
Print Assumptions C58_zero_goal_refuted.
Print Assumptions C58_either_goal_refuted.
