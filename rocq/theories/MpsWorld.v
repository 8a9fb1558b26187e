(** Lemmas: programs with several MPS. *)
From Coq Require Import ZArith List Bool Arith Lia.
From Verif Require Import Util BigSum MpsModel MpsTensor MpsSpec MpsProofs MpsPosition MpsPaging.
Import ListNotations.
Local Open Scope Z_scope.
Local Open Scope outcome_scope.
Local Arguments Z.add : simpl never.
Local Arguments Z.sub : simpl never.

Section World.
Context {T W : Type}.
Notation mps := (mps T).
Notation disk := (disk T).
Variable orthL orthR : T -> T -> outcome (T * T).
Variable splitL splitR : W -> outcome (T * T).
Variable pair : T -> T -> W.
Notation stp := (step orthL orthR splitL splitR pair).
Notation wstp := (wstep orthL orthR splitL splitR pair).
Notation wrn := (wrun orthL orthR splitL splitR pair).

(** Operations in memory keep the limits in range. *)
Lemma step_bounds : forall (d d' : disk) (s s' : mps) fr o l, mdo s = false -> 1 <= mN s -> bounds s -> valid_op (mN s) o ->
  is_page o = false -> stp d s fr o = Ok (d', s', l) -> d' = d /\ mdo s' = false /\ mN s' = mN s /\ bounds s'.
Proof.
  intros d d' s s' fr o l Hm HN (B1 & B2) V Pg H.
  assert (MB : forall i f d' s', at_site (mN s) i -> modify d s i f = Ok (d', s') ->
     d' = d /\ mdo s' = false /\ mN s' = mN s /\ bounds s').
  { intros i f d1 s1 Hi Hq. assert (Hw : 1 <= wrap s i <= mN s) by (destruct Hi; unfold wrap; zb; lia).
    apply modify_mem in Hq; [|assumption|lia]. cbn zeta in Hq. destruct Hq as (-> & H1 & H2 & H3 & H4 & _).
    split; [reflexivity|]. split; [assumption|]. split; [assumption|]. unfold bounds. rewrite H2, H3, H4. zb; lia. }
  destruct o as [i|i j|i t|i f|f|i|i|b w fl|al]; cbn in H, V, Pg; try discriminate.
  - assert (Hw : 1 <= wrap s i <= mN s) by (destruct V; unfold wrap; zb; lia).
    unfold get in H. destruct (setSite_mem d s (wrap s i) Hm) as (s1 & K & H1 & H2 & H3 & H4 & H5 & H6 & H7).
    rewrite K in H. cbn [obind] in H. destruct (inrange s1 (wrap s i)); [|discriminate]. cbn [obind] in H.
    injection H as <- <- <-. split; [reflexivity|]. split; [assumption|]. split; [assumption|]. unfold bounds. lia.
  - destruct V as (V1 & V2 & V3). unfold get2 in H. destruct (get_mem d s i Hm) as (s1 & K & H1 & H2 & H3 & H4 & H5 & H6 & H7); [lia|].
    rewrite K in H. cbn [obind] in H. destruct (get_mem d s1 j H5) as (s2 & K2 & G1 & G2 & G3 & G4 & G5 & G6 & G7); [lia|].
    rewrite K2 in H. cbn [obind] in H. injection H as <- <- _. split; [reflexivity|]. split; [assumption|]. split; [congruence|]. unfold bounds. lia.
  - destruct (modify d s i _) as [[d1 s1]| |] eqn:E; try discriminate. cbn in H. injection H as <- <- <-. eapply MB; eauto.
  - destruct (modify d s i _) as [[d1 s1]| |] eqn:E; try discriminate. cbn in H. injection H as <- <- <-. eapply MB; eauto.
  - unfold scale in H. destruct (modify d s (ml s + 1) _) as [[d1 s1]| |] eqn:E; try discriminate. cbn in H.
    injection H as <- <- <-. apply MB in E; [assumption|left; lia].
  - destruct (position _ _ d s i) as [[d1 s1]| |] eqn:E; try discriminate. cbn in H. injection H as <- <- <-.
    destruct (position_ind orthL orthR (fun _ _ => True) (mN s) i d V) with (s := s) (d' := d1) (s' := s1) as (-> & _ & N1 & D1 & L1 & R1); auto.
    { repeat split; auto. }
    split; [reflexivity|]. split; [assumption|]. split; [assumption|]. unfold bounds. lia.
  - destruct (position_svd _ _ _ d s i) as [[d1 s1]| |] eqn:E; try discriminate. cbn in H. injection H as <- <- <-.
    destruct (position_svd_ind splitL splitR pair (fun _ _ => True) (mN s) i d V) with (s := s) (d' := d1) (s' := s1) as (-> & _ & N1 & D1 & L1 & R1); auto.
    { repeat split; auto. }
    split; [reflexivity|]. split; [assumption|]. split; [assumption|]. unfold bounds. lia.
  - destruct (svdBond _ _ d s b w fl) as [[d1 s1]| |] eqn:E; try discriminate. cbn in H. injection H as <- <- <-.
    apply svdBond_mem in E; [|assumption]. destruct E as (-> & H1 & H2 & H3 & _).
    split; [reflexivity|]. split; [assumption|]. split; [assumption|]. unfold bounds. destruct fl; lia.
Qed.

(** One operation in the two modes: same observation, or the same failure. *)
Definition sim_step (d : disk) (s : mps) (r r0 : outcome (disk * mps * list (@obs T))) (dd : disk) : Prop :=
  match r with
  | Ok (d', s', l) => exists s0', r0 = Ok (dd, s0', l) /\ sim d' s' s0' /\ frame d s d' s'
  | Err => r0 = Err
  | UB => r0 = UB
  end.
Lemma sim_see : forall d s s0 r r0 dd, sim_res d s s0 r r0 dd -> sim_step d s (see r) (see r0) dd.
Proof.
  intros d s s0 r r0 dd H. unfold sim_res, sim_step, see in *. destruct r as [[d1 s1]| |]; cbn [obind].
  - destruct H as (s0' & -> & S & F). cbn [obind]. exists s0'. pose proof S as (_ & _ & -> & -> & _). auto.
  - now rewrite H.
  - now rewrite H.
Qed.
Lemma sim_modify_res : forall (d : disk) (s s0 : mps) i f (dd : disk), sim d s s0 -> at_site (mN s) i -> total_fun f ->
  sim_res d s s0 (modify d s i f) (modify dd s0 i f) dd.
Proof.
  intros d s s0 i f dd S Hi Hf. destruct (sim_modify d s s0 i f S Hi Hf) as (d' & s' & s0' & E & S' & F & E').
  rewrite E, E'. cbn. eauto.
Qed.
Lemma sim_op : forall d s s0 fr o dd fr', sim d s s0 -> bounds s0 -> valid_op (mN s) o -> is_page o = false ->
  sim_step d s (stp d s fr o) (stp dd s0 fr' o) dd.
Proof.
  intros d s s0 fr o dd fr' S B V Pg. pose proof S as (K1 & K2 & K3 & K4 & K5 & _).
  destruct o as [i|i j|i t|i f|f|i|i|b w fl|al]; cbn in V, Pg |- *; try discriminate.
  - destruct (sim_get d s s0 i S V) as (d' & s' & s0' & x & E & S' & F & _ & _ & E').
    rewrite E, E'. cbn. exists s0'. pose proof S' as (_ & _ & -> & -> & _). auto.
  - destruct V as (V1 & V2 & V3). destruct (sim_get2 d s s0 i j S V1 V2 V3) as (d' & s' & s0' & [x y] & E & S' & F & E').
    rewrite E, E'. cbn. exists s0'. pose proof S' as (_ & _ & -> & -> & _). auto.
  - apply (sim_see d s s0). apply sim_modify_res; try assumption. intros t0. discriminate.
  - apply (sim_see d s s0). apply sim_modify_res; try assumption. intros t0. discriminate.
  - apply (sim_see d s s0). unfold scale. rewrite K3. destruct B as (B1 & B2). apply sim_modify_res; try assumption.
    + left; lia.
    + intros t0. discriminate.
  - apply (sim_see d s s0). apply sim_position; assumption.
  - apply (sim_see d s s0). apply sim_position_svd; assumption.
  - apply (sim_see d s s0). apply sim_svdBond; assumption.
Qed.

Lemma sim_disk : forall (d d' : disk) (s s0 : mps), (mdo s = true -> forall j, d' (mdir s) j = d (mdir s) j) -> sim d s s0 -> sim d' s s0.
Proof.
  intros d d' s s0 Hd (H1 & H2 & H3 & H4 & H5 & H6 & H7 & H8).
  assert (C : forall j, content d' s j = content d s j).
  { intros j. unfold content. destruct (mdo s) eqn:Hm; [|reflexivity]. rewrite Hd by reflexivity. reflexivity. }
  split; [assumption|]. split; [assumption|]. split; [assumption|]. split; [assumption|]. split; [assumption|]. split; [assumption|].
  split. { intros j Hj. rewrite C. auto. }
  intros Hm. destruct (H8 Hm) as (P1 & P2 & P3 & P4 & P5). split; [assumption|]. split; [assumption|]. split; [assumption|].
  split.
  - intros j Hj Hn. rewrite Hd by assumption. apply P4; assumption.
  - intros j Hj Hj'. unfold loaded. rewrite C. apply P5; assumption.
Qed.

Definition wsim (n : Z) (w w0 : world T) : Prop :=
  (forall k, sim (wdisk w) (wobj w k) (wobj w0 k) /\ mN (wobj w k) = n /\ bounds (wobj w0 k)) /\
  (forall k, mdo (wobj w k) = true -> (mdir (wobj w k) < wfresh w)%nat) /\
  (forall k k', k <> k' -> mdo (wobj w k) = true -> mdo (wobj w k') = true -> mdir (wobj w k) <> mdir (wobj w k')).

Lemma wsim_set : forall n w w0 d k s s0 dd fr, wsim n w w0 -> sim d s s0 -> mN s = n -> bounds s0 ->
  (forall k', k' <> k -> mdo (wobj w k') = true -> forall j, d (mdir (wobj w k')) j = wdisk w (mdir (wobj w k')) j) ->
  (mdo s = true -> (mdir s < S (wfresh w))%nat /\ forall k', k' <> k -> mdo (wobj w k') = true -> mdir s <> mdir (wobj w k')) ->
  wsim n (wset w d k s) (mkWorld dd (fun k' => if Nat.eqb k' k then s0 else wobj w0 k') fr).
Proof.
  intros n w w0 d k s s0 dd fr (H1 & H2 & H3) S HN B Hd Hm. split; [|split].
  - intros k'. cbn. destruct (Nat.eqb_spec k' k) as [->|N]; [auto|]. destruct (H1 k') as (A1 & A2 & A3).
    split; [|auto]. eapply sim_disk; [|exact A1]. intros Hq j. apply Hd; assumption.
  - intros k'. cbn. destruct (Nat.eqb_spec k' k) as [->|N]; intros Hq; [apply Hm; assumption|].
    specialize (H2 k' Hq). lia.
  - intros k1 k2 N. cbn. destruct (Nat.eqb_spec k1 k) as [->|N1]; destruct (Nat.eqb_spec k2 k) as [->|N2]; intros Q1 Q2.
    + contradiction.
    + destruct (Hm Q1) as (_ & Q). apply Q; assumption.
    + destruct (Hm Q2) as (_ & Q). intros E. symmetry in E. revert E. apply Q; assumption.
    + apply H3; assumption.
Qed.

Lemma wsim_fresh : forall n w w0 fr, wsim n w w0 -> wsim n w (mkWorld (wdisk w0) (wobj w0) fr).
Proof. intros n w w0 fr H. exact H. Qed.

Lemma wrun_sim : forall os n w w0, wsim n w w0 -> Forall (valid_wop n) os -> wrn w os = wrn w0 (in_memory os).
Proof.
  induction os as [|o os IH]; intros n w w0 H F; [reflexivity|].
  inversion F as [|? ? V F']; subst. cbn [wrun]. pose proof H as (H1 & H2 & H3).
  destruct o as [k o|k k'].
  - destruct (is_page o) eqn:Pg.
    + (* a switch to disk mode *)
      destruct o; cbn in Pg; try discriminate. cbn [in_memory filter is_wpage is_page negb].
      destruct (H1 k) as (S & N1 & B1).
      destruct (sim_page (wdisk w) (wobj w k) (wobj w0 k) all (wfresh w) S) as (d' & s' & E & S' & D' & N' & Q1 & Q2).
      cbn [wstep step]. rewrite E. cbn [obind]. fold (in_memory os).
      assert (G : wsim n (wset w d' k s') (mkWorld (wdisk w0) (fun k' => if Nat.eqb k' k then wobj w0 k else wobj w0 k') 0)).
      { apply wsim_set; try assumption; try congruence.
        - intros k' Nk Hk j. destruct (mdo (wobj w k)) eqn:Em.
          + destruct (Q1 eq_refl) as (-> & _). reflexivity.
          + destruct (Q2 eq_refl) as (_ & Q). apply Q. specialize (H2 k' Hk). lia.
        - intros _. destruct (mdo (wobj w k)) eqn:Em.
          + destruct (Q1 eq_refl) as (_ & ->). split; [specialize (H2 k Em); lia|]. intros k' Nk Hk. apply H3; auto.
          + destruct (Q2 eq_refl) as (-> & _). split; [lia|]. intros k' Nk Hk. specialize (H2 k' Hk). lia. }
      rewrite (IH n _ (mkWorld (wdisk w0) (wobj w0) (wfresh w0))); [|clear IH|assumption].
      * destruct w0 as [a b c]. cbn. destruct (wrn _ _); reflexivity.
      * destruct G as (G1 & G2 & G3). split; [|split; assumption]. intros k'. specialize (G1 k'). cbn in G1 |- *.
        destruct (Nat.eqb k' k) eqn:Ek; [apply Nat.eqb_eq in Ek; rewrite Ek|]; assumption.
    + (* any other operation *)
      cbn [in_memory filter is_wpage]. rewrite Pg. cbn [negb wrun wstep]. fold (in_memory os).
      destruct (H1 k) as (S & N1 & B1). cbn in V. rewrite <- N1 in V.
      pose proof (sim_op (wdisk w) (wobj w k) (wobj w0 k) (wfresh w) o (wdisk w0) (wfresh w0) S B1 V Pg) as Q.
      unfold sim_step in Q. destruct (stp (wdisk w) (wobj w k) (wfresh w) o) as [[[d' s'] l]| |]; cbn [obind].
      * destruct Q as (s0' & E & S' & Fr). rewrite E. cbn [obind].
        pose proof S as (K1 & K2 & _ & _ & K5 & _).
        assert (BB : bounds s0').
        { apply step_bounds in E; try assumption; try (rewrite K2; assumption). destruct E as (_ & _ & _ & E). exact E. }
        rewrite (IH n (wset w d' k s') (wset w0 (wdisk w0) k s0')); [reflexivity| |assumption].
        destruct Fr as (F1 & F2 & F3 & F4 & F5).
        apply wsim_set; try assumption; try congruence.
        -- intros k' Nk Hk j. destruct (mdo (wobj w k)) eqn:Em.
           ++ apply F4; [reflexivity|]. apply H3; auto.
           ++ rewrite F5 by reflexivity. reflexivity.
        -- intros Hq. rewrite F1 in Hq. rewrite F2. split; [specialize (H2 k Hq); lia|]. intros k' Nk Hk. apply H3; auto.
      * rewrite Q. reflexivity.
      * rewrite Q. reflexivity.
  - (* a copy *)
    cbn [in_memory filter is_wpage negb wrun wstep]. fold (in_memory os).
    destruct (H1 k) as (S & N1 & B1). pose proof S as (K1 & K2 & K3 & K4 & K5 & K6 & K7 & K8).
    unfold copy at 2. rewrite K1. unfold copy. destruct (mdo (wobj w k)) eqn:Em.
    + cbn [obind].
      set (d' := fun dir' j => if Nat.eqb dir' (wfresh w) then wdisk w (mdir (wobj w k)) j else wdisk w dir' j).
      set (s' := mkMps (mN (wobj w k)) (mA (wobj w k)) (ml (wobj w k)) (mr (wobj w k)) (matb (wobj w k)) true (wfresh w)).
      rewrite (IH n (wset w d' k' s') (wset w0 (wdisk w0) k' (wobj w0 k))); [reflexivity| |assumption].
      assert (C : forall j, content d' s' j = content (wdisk w) (wobj w k) j).
      { intros j. unfold content, d', s'. cbn [mA mdo mdir]. rewrite Nat.eqb_refl, Em. reflexivity. }
      apply wsim_set; try assumption.
      * split; [assumption|]. split; [assumption|]. split; [assumption|]. split; [assumption|]. split; [assumption|]. split; [assumption|].
        split. { intros j Hj. rewrite C. apply K7. assumption. }
        intros _. destruct (K8 eq_refl) as (P1 & P2 & P3 & P4 & P5). split; [reflexivity|]. split; [assumption|]. split; [assumption|].
        split.
        -- intros j Hj Hn. unfold d', s'. cbn [mdir]. rewrite Nat.eqb_refl. apply P4; assumption.
        -- intros j Hj Hj'. unfold loaded. rewrite C. apply P5; assumption.
      * intros k1 Nk Hk j. unfold d'. specialize (H2 k1 Hk). destruct (Nat.eqb_spec (mdir (wobj w k1)) (wfresh w)); [lia|reflexivity].
      * intros _. split; [cbn; lia|]. intros k1 Nk Hk. specialize (H2 k1 Hk). cbn. lia.
    + cbn [obind].
      rewrite (IH n (wset w (wdisk w) k' (wobj w k)) (wset w0 (wdisk w0) k' (wobj w0 k))); [reflexivity| |assumption].
      apply wsim_set; try assumption.
      * intros; reflexivity.
      * congruence.
Qed.
End World.
