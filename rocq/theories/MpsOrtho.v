(** Lemmas: every operation keeps the claims made by the orthogonality limits. *)
From Coq Require Import ZArith List Bool Arith Lia Ring Setoid.
From Verif Require Import Util BigSum MpsModel MpsTensor MpsSpec MpsProofs MpsPosition.
Import ListNotations.
Local Open Scope Z_scope.
Local Open Scope outcome_scope.
Local Arguments Z.add : simpl never.
Local Arguments Z.sub : simpl never.

Section Ortho.
Context {R : Type} (r0 r1 : R) (radd rmul rsub : R -> R -> R) (ropp conj : R -> R).
Context (RT : ring_theory r0 r1 radd rmul rsub ropp eq).
Notation tensor := (@tensor R).
Notation wave := (@wave R).
Notation LO := (left_orth r0 r1 radd rmul conj).
Notation RO := (right_orth r0 r1 radd rmul conj).
Variable svdl svdr : tensor -> outcome (tensor * @matrix R).
Variable splitL splitR : wave -> outcome (tensor * tensor).
Hypothesis SL : svdl_ok r0 r1 radd rmul conj svdl.
Hypothesis SR : svdr_ok r0 r1 radd rmul conj svdr.
Hypothesis PL : splitl_ok r0 r1 radd rmul conj splitL.
Hypothesis PR : splitr_ok r0 r1 radd rmul conj splitR.
Notation oL := (orthL r0 radd rmul svdl).
Notation oR := (orthR r0 radd rmul svdr).
Notation pair := (pair2 r0 radd rmul).

Notation claims := (MpsSpec.claims r0 r1 radd rmul conj).
Notation good := (MpsSpec.good r0 r1 radd rmul conj).
Notation same_state := (MpsSpec.same_state r0 r1 radd rmul).

(** What a local factorisation promises about orthogonality. *)
Definition fac_left (o : tensor -> tensor -> outcome (tensor * tensor)) : Prop :=
  forall x y x' y', o x y = Ok (x', y') -> tj x = true -> LO x' /\ tj x' = true /\ tj y' = tj y.
Definition fac_right (o : tensor -> tensor -> outcome (tensor * tensor)) : Prop :=
  forall x y x' y', o x y = Ok (x', y') -> tj x = true -> RO y' /\ tj x' = true /\ tj y' = tj y.
Definition fac_same (o : tensor -> tensor -> outcome (tensor * tensor)) : Prop :=
  forall x y x' y', o x y = Ok (x', y') -> tj x = true -> tr x = tl y ->
  same_pair r0 radd rmul x y x' y'.

Lemma eff_parts : forall (o : tensor -> tensor -> outcome (tensor * tensor)) A A' b x y, orth_eff o A A' b -> A b = Some x -> A (b + 1) = Some y ->
  exists x' y', o x y = Ok (x', y') /\ A' b = Some x' /\ A' (b + 1) = Some y' /\
    forall k, k <> b -> k <> b + 1 -> A' k = A k.
Proof. intros o A A' b x y H E1 E2. unfold orth_eff in H. rewrite E1, E2 in H. exact H. Qed.

Lemma filled_eff : forall o (s s' : mps tensor) b, 
  (forall x y x' y', o x y = Ok (x', y') -> tj x = true -> tj x' = true /\ tj y' = tj y) ->
  filled s -> mN s' = mN s -> 1 <= b < mN s -> orth_eff o (mA s) (mA s') b -> filled s'.
Proof.
  intros o s s' b Ho F HN Hb E.
  destruct (F b) as (x & Ex & Jx); [lia|]. destruct (F (b + 1)) as (y & Ey & Jy); [lia|].
  destruct (eff_parts _ _ _ _ _ _ E Ex Ey) as (x' & y' & O & E1 & E2 & E3).
  destruct (Ho _ _ _ _ O (Jx ltac:(lia))) as (J1 & J2).
  intros j Hj. rewrite HN in Hj. destruct (Z.eq_dec j b) as [->|N1].
  - exists x'. split; [assumption|]. intros; assumption.
  - destruct (Z.eq_dec j (b + 1)) as [->|N2].
    + exists y'. split; [assumption|]. rewrite HN, J2. assumption.
    + rewrite E3 by assumption. rewrite HN. apply F. lia.
Qed.

Lemma left_step : forall o (s s' : mps tensor) b, fac_left o -> filled s -> claims s ->
  1 <= b < mN s -> b = ml s + 1 -> mN s' = mN s -> ml s' = ml s + 1 -> ml s + 3 <= mr s' -> mr s <= mr s' ->
  orth_eff o (mA s) (mA s') b -> filled s' /\ claims s'.
Proof.
  intros o s s' b Ho F (C1 & C2) Hb Eb HN Hl Hr Hr' E. split.
  { eapply filled_eff; eauto. intros ? ? ? ? Hq Hj. destruct (Ho _ _ _ _ Hq Hj) as (? & ? & ?). auto. }
  destruct (F b) as (x & Ex & Jx); [lia|]. destruct (F (b + 1)) as (y & Ey & Jy); [lia|].
  destruct (eff_parts _ _ _ _ _ _ E Ex Ey) as (x' & y' & O & E1 & E2 & E3).
  destruct (Ho _ _ _ _ O (Jx ltac:(lia))) as (J0 & J1 & J2). split.
  - intros j t Hj Ht. destruct (Z.eq_dec j b) as [->|N1]; [first [rewrite E1 in Ht|rewrite E2 in Ht|rewrite H5 in Ht|rewrite H6 in Ht]; injection Ht as <-; assumption|].
    rewrite E3 in Ht by lia. apply (C1 j); [lia|assumption].
  - intros j t Hj Ht. rewrite E3 in Ht by lia. apply (C2 j); [lia|assumption].
Qed.
Lemma right_step : forall o (s s' : mps tensor) b, fac_right o -> filled s -> claims s ->
  1 <= b < mN s -> b = mr s - 2 -> mN s' = mN s -> mr s' = mr s - 1 -> ml s' <= mr s - 3 -> ml s' <= ml s ->
  orth_eff o (mA s) (mA s') b -> filled s' /\ claims s'.
Proof.
  intros o s s' b Ho F (C1 & C2) Hb Eb HN Hl Hr Hr' E. split.
  { eapply filled_eff; eauto. intros ? ? ? ? Hq Hj. destruct (Ho _ _ _ _ Hq Hj) as (? & ? & ?). auto. }
  destruct (F b) as (x & Ex & Jx); [lia|]. destruct (F (b + 1)) as (y & Ey & Jy); [lia|].
  destruct (eff_parts _ _ _ _ _ _ E Ex Ey) as (x' & y' & O & E1 & E2 & E3).
  destruct (Ho _ _ _ _ O (Jx ltac:(lia))) as (J0 & J1 & J2). split.
  - intros j t Hj Ht. rewrite E3 in Ht by lia. apply (C1 j); [lia|assumption].
  - intros j t Hj Ht. destruct (Z.eq_dec j (b + 1)) as [->|N1]; [first [rewrite E1 in Ht|rewrite E2 in Ht|rewrite H5 in Ht|rewrite H6 in Ht]; injection Ht as <-; assumption|].
    rewrite E3 in Ht by lia. apply (C2 j); [lia|assumption].
Qed.

Lemma same_state_refl : forall s, same_state s s.
Proof. intros s ts H P. exists ts. split; [assumption|]. split; [assumption|]. split; [reflexivity|]. reflexivity. Qed.
Lemma same_state_trans : forall a b c, same_state a b -> same_state b c -> same_state a c.
Proof.
  intros a b c H1 H2 ts Ht P. destruct (H1 ts Ht P) as (t1 & A1 & A2 & A3 & A4).
  destruct (H2 t1 A1 A2) as (t2 & B1 & B2 & B3 & B4).
  exists t2. split; [assumption|]. split; [assumption|]. split; [congruence|].
  intros g Hg. rewrite B4 by congruence. auto.
Qed.

Lemma split_two : forall {X} (l : list X) k x y, nth_error l k = Some x -> nth_error l (S k) = Some y ->
  exists pre post, l = pre ++ x :: y :: post /\ length pre = k.
Proof.
  induction l as [|h l IH]; intros [|k] x y H1 H2; cbn in H1, H2; try discriminate.
  - injection H1 as ->. destruct l as [|z l]; [discriminate|]. injection H2 as ->. exists [], l. auto.
  - destruct (IH k x y H1 H2) as (pre & post & -> & L). exists (h :: pre), post. cbn. auto.
Qed.

Lemma same_eff : forall o (s s' : mps tensor) b, fac_same o -> filled s -> 1 <= b < mN s -> mN s' = mN s ->
  orth_eff o (mA s) (mA s') b -> same_state s s'.
Proof.
  intros o s s' b Ho F Hb HN E ts (HL & HA) P.
  destruct (F b) as (x & Ex & Jx); [lia|]. destruct (F (b + 1)) as (y & Ey & Jy); [lia|].
  destruct (eff_parts _ _ _ _ _ _ E Ex Ey) as (x' & y' & O & E1 & E2 & E3).
  pose proof (HA (Z.to_nat (b - 1)) ltac:(lia)) as Q1. replace (1 + Z.of_nat (Z.to_nat (b - 1))) with b in Q1 by lia.
  pose proof (HA (S (Z.to_nat (b - 1))) ltac:(lia)) as Q2. replace (1 + Z.of_nat (S (Z.to_nat (b - 1)))) with (b + 1) in Q2 by lia.
  rewrite Ex in Q1. rewrite Ey in Q2. symmetry in Q1, Q2.
  destruct (split_two ts _ x y Q1 Q2) as (pre & post & -> & Lp).
  assert (El : tr x = tl y).
  { unfold proper in P. apply linked_app in P. destruct P as (m & _ & P). cbn in P. destruct P as (_ & P & _). auto. }
  pose proof (Ho _ _ _ _ O (Jx ltac:(lia)) El) as SP.
  destruct (amplitude_pair r0 r1 radd rmul rsub ropp RT pre x y x' y' post SP P) as (G1 & G2 & G3).
  exists (pre ++ x' :: y' :: post). split; [|auto].
  split. { rewrite HN, HL. rewrite !app_length. reflexivity. }
  intros k Hk. rewrite app_length in Hk. cbn [length] in Hk.
  assert (Hk' : (k < length (pre ++ x :: y :: post))%nat) by (rewrite app_length; cbn [length]; lia).
  specialize (HA k Hk').
  destruct (Nat.lt_trichotomy k (length pre)) as [L|[L|L]].
  - rewrite E3 by lia. rewrite HA. rewrite !nth_error_app1 by assumption. reflexivity.
  - replace (1 + Z.of_nat k) with b by lia. rewrite E1. rewrite nth_error_app2 by lia. rewrite L, Nat.sub_diag. reflexivity.
  - destruct (Nat.eq_dec k (S (length pre))) as [L2|L2].
    + replace (1 + Z.of_nat k) with (b + 1) by lia. rewrite E2. rewrite nth_error_app2 by lia.
      replace (k - length pre)%nat with 1%nat by lia. reflexivity.
    + rewrite E3 by lia. rewrite HA. rewrite !nth_error_app2 by lia.
      destruct (k - length pre)%nat as [|[|m]] eqn:Em; try lia. reflexivity.
Qed.

Lemma fl_orth : fac_left oL.
Proof. intros x y x' y' H J. destruct (orthL_orth r0 r1 radd rmul conj svdl SL _ _ _ _ H J) as (? & E & ?). rewrite J in E. auto. Qed.
Lemma fr_orth : fac_right oR.
Proof. intros x y x' y' H J. destruct (orthR_orth r0 r1 radd rmul conj svdr SR _ _ _ _ H J) as (? & E & ?). rewrite J in E. auto. Qed.
Lemma fs_left : fac_same oL.
Proof. intros x y x' y' H J E. destruct (orthL_spec r0 r1 radd rmul rsub ropp conj RT svdl SL _ _ _ _ H J E) as (? & ?). auto. Qed.
Lemma fs_right : fac_same oR.
Proof. intros x y x' y' H J E. destruct (orthR_spec r0 r1 radd rmul rsub ropp conj RT svdr SR _ _ _ _ H J E) as (? & ?). auto. Qed.
Lemma fl_split : fac_left (fun x y => splitL (pair x y)).
Proof. intros x y x' y' H J. destruct (PL _ _ _ H) as (? & ? & ?). auto. Qed.
Lemma fr_split : fac_right (fun x y => splitR (pair x y)).
Proof. intros x y x' y' H J. destruct (PR _ _ _ H) as (? & ? & ?). auto. Qed.
Lemma fs_split : forall sp, split_exact r0 radd rmul sp -> fac_same (fun x y => sp (pair x y)).
Proof.
  intros sp Hs x y x' y' H J E. destruct (Hs _ _ _ H) as (H1 & H2 & H3 & H4 & H5 & H6). cbn in *.
  unfold same_pair. repeat split; assumption.
Qed.

(** One relation for the induction over the loops. *)
Definition keeps (amp : bool) (s s' : mps tensor) : Prop :=
  filled s -> claims s -> filled s' /\ claims s' /\ (amp = true -> same_state s s').
Lemma keeps_steps : forall amp ol orr n i, fac_left ol -> fac_right orr ->
  (amp = true -> fac_same ol /\ fac_same orr) -> steps_of ol orr n i (keeps amp).
Proof.
  intros amp ol orr n i H1 H2 H3. split; [|split; [|split]].
  - intros s F C. split; [assumption|]. split; [assumption|]. intros _. apply same_state_refl.
  - intros x y z K1 K2 F C. destruct (K1 F C) as (F1 & C1 & S1). destruct (K2 F1 C1) as (F2 & C2 & S2).
    split; [assumption|]. split; [assumption|]. intros E. eapply same_state_trans; eauto.
  - intros s s' b Hm HN Hl Hr Eb Hb Hm' HN' El Er E F C.
    destruct (left_step ol s s' b) as (F' & C'); try assumption; try lia.
    split; [assumption|]. split; [assumption|]. intros Ea. destruct (H3 Ea).
    apply (same_eff ol s s' b); try assumption; lia.
  - intros s s' b Hm HN Hl Hr Eb Hb Hm' HN' El Er E F C.
    destruct (right_step orr s s' b) as (F' & C'); try assumption; try lia.
    split; [assumption|]. split; [assumption|]. intros Ea. destruct (H3 Ea).
    apply (same_eff orr s s' b); try assumption; lia.
Qed.

Lemma position_good : forall d d' s s' i, good s -> 1 <= i <= mN s ->
  position oL oR d s i = Ok (d', s') ->
  d' = d /\ good s' /\ mN s' = mN s /\ ml s' = i - 1 /\ mr s' = i + 1 /\ same_state s s'.
Proof.
  intros d d' s s' i (G1 & G2 & G3 & G4 & G5 & G6) Hi H.
  destruct (position_ind oL oR (keeps true) (mN s) i d Hi
    (keeps_steps true oL oR _ i fl_orth fr_orth (fun _ => Logic.conj fs_left fs_right)) s d' s' G1 eq_refl G3 G4 H)
    as (-> & K & EN & Em & El & Er).
  destruct (K G5 G6) as (K1 & K2 & K3). split; [reflexivity|].
  split; [|auto]. unfold MpsSpec.good. rewrite EN, El, Er. repeat split; auto; try lia; apply K2.
Qed.
Lemma position_svd_good : forall amp d d' s s' i, good s -> 1 <= i <= mN s ->
  (amp = true -> split_exact r0 radd rmul splitL /\ split_exact r0 radd rmul splitR) ->
  position_svd splitL splitR pair d s i = Ok (d', s') ->
  d' = d /\ good s' /\ mN s' = mN s /\ ml s' = i - 1 /\ mr s' = i + 1 /\ (amp = true -> same_state s s').
Proof.
  intros amp d d' s s' i (G1 & G2 & G3 & G4 & G5 & G6) Hi HA H.
  assert (HA' : amp = true -> fac_same (fun x y => splitL (pair x y)) /\ fac_same (fun x y => splitR (pair x y))).
  { intros E. destruct (HA E). split; apply fs_split; assumption. }
  destruct (position_svd_ind splitL splitR pair (keeps amp) (mN s) i d Hi
    (keeps_steps amp _ _ _ i fl_split fr_split HA') s d' s' G1 eq_refl G3 G4 H)
    as (-> & K & EN & Em & El & Er).
  destruct (K G5 G6) as (K1 & K2 & K3). split; [reflexivity|].
  split; [|auto]. unfold MpsSpec.good. rewrite EN, El, Er. repeat split; auto; try lia; apply K2.
Qed.

Lemma wrap_site : forall (s : mps tensor) i, at_site (mN s) i -> 1 <= wrap s i <= mN s.
Proof. intros s i [H|H]; unfold wrap; zb; lia. Qed.

Lemma modify_good : forall d d' s s' i f, good s -> at_site (mN s) i ->
  (forall t, exists t', f (Some t) = Some t' /\ (wrap s i < mN s -> tj t = true -> tj t' = true)) ->
  modify d s i f = Ok (d', s') -> d' = d /\ good s' /\ mN s' = mN s.
Proof.
  intros d d' s s' i f (G1 & G2 & G3 & G4 & G5 & G6) Hi Hf H. pose proof (wrap_site s i Hi) as Hw.
  apply modify_mem in H; [|assumption|lia]. cbn zeta in H.
  destruct H as (-> & H1 & H2 & H3 & H4 & H5 & H6). split; [reflexivity|]. split; [|assumption].
  unfold MpsSpec.good. rewrite H2. split; [assumption|]. split; [assumption|].
  split; [zb; lia|]. split; [zb; lia|]. split.
  - intros j Hj. rewrite H2 in Hj. destruct (Z.eq_dec j (wrap s i)) as [->|Hn].
    + destruct (G5 _ Hw) as (t & Et & Jt). destruct (Hf t) as (t' & Et' & Jt').
      exists t'. rewrite H5, Et. split; [assumption|]. rewrite H2. auto.
    + rewrite H6, H2 by assumption. apply G5. lia.
  - destruct G6 as (C1 & C2). split.
    + intros j t Hj Ht. rewrite H3 in Hj. rewrite H6 in Ht by (zb; lia). apply (C1 j); [zb; lia|assumption].
    + intros j t Hj Ht. rewrite H4, H2 in Hj. rewrite H6 in Ht by (zb; lia). apply (C2 j); [zb; lia|assumption].
Qed.
Lemma svdBond_good : forall d d' s s' b w fl, good s -> 1 <= b < mN s -> (b + 1 < mN s -> wj w = true) ->
  svdBond splitL splitR d s b w fl = Ok (d', s') -> d' = d /\ good s' /\ mN s' = mN s.
Proof.
  intros d d' s s' b w fl (G1 & G2 & G3 & G4 & G5 & G6) Hb Hw H.
  apply svdBond_mem in H; [|assumption].
  destruct H as (-> & H1 & H2 & H3 & x & y & H4 & H5 & H6 & H7). split; [reflexivity|]. split; [|assumption].
  assert (J : tj x = true /\ tj y = wj w /\ (if fl then LO x else RO y)).
  { destruct fl; [destruct (PL _ _ _ H4) as (? & ? & ?)|destruct (PR _ _ _ H4) as (? & ? & ?)]; auto. }
  destruct J as (J1 & J2 & J3). destruct G6 as (C1 & C2).
  unfold MpsSpec.good. rewrite H2. split; [assumption|]. split; [assumption|].
  split; [destruct fl; lia|]. split; [destruct fl; lia|]. split.
  - intros j Hj. rewrite H2 in Hj. rewrite H2. destruct (Z.eq_dec j b) as [->|N1].
    { exists x. auto. }
    destruct (Z.eq_dec j (b + 1)) as [->|N2].
    { exists y. split; [assumption|]. rewrite J2. assumption. }
    rewrite H7 by assumption. apply G5. lia.
  - split.
    + intros j t Hj Ht. destruct fl.
      * destruct H3 as (B1 & B2 & B3). destruct (Z.eq_dec j b) as [->|N1]; [first [rewrite E1 in Ht|rewrite E2 in Ht|rewrite H5 in Ht|rewrite H6 in Ht]; injection Ht as <-; assumption|].
        rewrite H7 in Ht by lia. apply (C1 j); [lia|assumption].
      * destruct H3 as (B1 & B2 & B3). rewrite H7 in Ht by lia. apply (C1 j); [lia|assumption].
    + intros j t Hj Ht. rewrite H2 in Hj. destruct fl.
      * destruct H3 as (B1 & B2 & B3). rewrite H7 in Ht by lia. apply (C2 j); [lia|assumption].
      * destruct H3 as (B1 & B2 & B3). destruct (Z.eq_dec j (b + 1)) as [->|N1]; [first [rewrite E1 in Ht|rewrite E2 in Ht|rewrite H5 in Ht|rewrite H6 in Ht]; injection Ht as <-; assumption|].
        rewrite H7 in Ht by lia. apply (C2 j); [lia|assumption].
Qed.

Lemma step_good : forall d d' s s' o ob fr, good s -> valid_op (mN s) o -> joined_op (mN s) o -> is_page o = false ->
  step oL oR splitL splitR pair d s fr o = Ok (d', s', ob) -> d' = d /\ good s' /\ mN s' = mN s.
Proof.
  intros d d' s s' o ob fr G V J Pg H. destruct o as [i|i j|i t|i f|f|i|i|b w fl|al]; cbn in H, V, J, Pg; try discriminate.
  - pose proof (wrap_site s i V) as Hw.
    pose proof G as (G1 & G2 & G3 & G4 & G5 & G6).
    unfold get in H. destruct (setSite_mem d s (wrap s i) G1) as (s1 & K & H1 & H2 & H3 & H4 & H5 & H6 & H7).
    rewrite K in H. cbn [obind] in H. destruct (inrange s1 (wrap s i)); [|discriminate]. cbn [obind] in H.
    injection H as <- <- <-. split; [reflexivity|]. split; [|assumption].
    unfold MpsSpec.good, filled, MpsSpec.claims. rewrite H1, H2, H3, H4. split; [assumption|]. split; [assumption|]. split; [assumption|]. auto.
  - pose proof G as (G1 & G2 & G3 & G4 & G5 & G6). destruct V as (V1 & V2 & V3). unfold get2 in H.
    destruct (get_mem d s i G1) as (s1 & K & H1 & H2 & H3 & H4 & H5 & H6 & H7); [lia|].
    rewrite K in H. cbn [obind] in H. destruct (get_mem d s1 j H5) as (s2 & K2 & I1 & I2 & I3 & I4 & I5 & I6 & I7); [lia|].
    rewrite K2 in H. cbn [obind] in H. injection H as <- <- _. split; [reflexivity|]. split; [|congruence].
    unfold MpsSpec.good, filled, MpsSpec.claims. rewrite I1, I2, I3, I4, H1, H2, H3, H4.
    split; [assumption|]. split; [assumption|]. split; [assumption|]. auto.
  - destruct (modify d s i _) as [[d1 s1]| |] eqn:E; try discriminate. cbn in H. injection H as <- <- <-.
    eapply modify_good; eauto. intros t0. exists t. split; [reflexivity|]. intros Hn _.
    destruct J as [J|[->| ->]]; [assumption| |]; unfold wrap in Hn; destruct G as (G1 & G2 & _); zb; lia.
  - destruct (modify d s i _) as [[d1 s1]| |] eqn:E; try discriminate. cbn in H. injection H as <- <- <-.
    eapply modify_good; eauto. intros t0. exists (f t0). split; [reflexivity|]. rewrite J. auto.
  - unfold scale in H. destruct (modify d s (ml s + 1) _) as [[d1 s1]| |] eqn:E; try discriminate. cbn in H. injection H as <- <- <-.
    pose proof G as (G1 & G2 & G3 & G4 & G5 & G6).
    eapply modify_good; eauto; [left; lia|]. intros t0. exists (f t0). split; [reflexivity|]. rewrite J. auto.
  - destruct (position _ _ d s i) as [[d1 s1]| |] eqn:E; try discriminate. cbn in H. injection H as <- <- <-.
    apply position_good in E; auto. destruct E as (-> & E1 & E2 & _). auto.
  - destruct (position_svd _ _ _ d s i) as [[d1 s1]| |] eqn:E; try discriminate. cbn in H. injection H as <- <- <-.
    apply (position_svd_good false) in E; auto; [|discriminate]. destruct E as (-> & E1 & E2 & _). auto.
  - destruct (svdBond _ _ d s b w fl) as [[d1 s1]| |] eqn:E; try discriminate. cbn in H. injection H as <- <- <-.
    eapply svdBond_good; eauto.
Qed.

Lemma run_good : forall os d s s', good s ->
  Forall (fun o => valid_op (mN s) o /\ joined_op (mN s) o /\ is_page o = false) os ->
  run_mem oL oR splitL splitR pair d s os = Ok s' -> good s' /\ mN s' = mN s.
Proof.
  induction os as [|o os IH]; intros d s s' G F H; cbn in H.
  - injection H as <-. auto.
  - inversion F as [|? ? (V & J & P) F']; subst.
    destruct (step _ _ _ _ _ d s 0 o) as [[[d1 s1] ob]| |] eqn:E; try discriminate. cbn in H.
    apply step_good in E; auto. destruct E as (-> & G1 & N1).
    apply IH in H; auto.
    + destruct H as (H1 & H2). split; [assumption|congruence].
    + rewrite N1. assumption.
Qed.
End Ortho.
