(** svd of a dense tensor. *)
From Coq Require Import List Arith Lia Ring Bool Permutation.
From Verif Require Import Util RangeModel RangeSpec RangeProofs TensorModel TensorSpec TensorProofs SemProofs ContractModel DenseModel DenseProofs
  ContractProps QdSum CombinerModel CombinerProps QnModel QdModel QdAdd SvdModel SvdSpec SvdRank SvdMat SvdFactor SvdBlocks.
Import ListNotations.
Open Scope outcome_scope.
Local Arguments Nat.sub : simpl never.

Section Dense.
Context {R : Type} (r0 r1 : R) (radd rmul rsub : R -> R -> R) (ropp : R -> R).
Context (RT : ring_theory r0 r1 radd rmul rsub ropp eq).
Add Ring RRsd : RT.
Context (conj : R -> R) (HC : conjugation radd rmul conj).
Context (gesdd gesvd : nat -> nat -> list R -> option (list R * list R * list R)).
Hypothesis Hdd : exact_lapack r0 r1 radd rmul conj gesdd.
Hypothesis Hvd : exact_lapack r0 r1 radd rmul conj gesvd.
Context {I : Type} (ieq : I -> I -> bool) (idim : I -> nat) (mk : nat -> nat -> I).
Hypothesis ieq_spec : forall a b, ieq a b = true <-> a = b.
Context (keep : list (list R) -> list nat).
Hypothesis Hkeep : keeps keep.
Hypothesis mk_dim : forall n d, idim (mk n d) = d.
Hypothesis mk_inj : forall n n' d d', mk n d = mk n' d' -> n = n'.
Notation cm := (cm r0).
Notation elt := (elt r0 idim).
Notation tensor := (tensor idim).
Notation svd2 := (svd2 r0 conj gesdd gesvd ieq idim mk keep).
Notation svdOrd2 := (svdOrd2 r0 conj gesdd gesvd ieq idim mk keep).
Notation dsvd := (dsvd r0 conj gesdd gesvd ieq idim mk keep).
Notation factored := (factored r0 r1 radd rmul conj).
Notation velt := (velt r0).

Lemma elt2 x y (A : list R) s : elt [x; y] A s = cm (idim x) A (s x) (s y).
Proof. unfold TensorSpec.elt, SvdSpec.cm. rewrite colmajor_enc. cbn [map enc]. f_equal. lia. Qed.
Lemma full2 x y (A : list R) : full idim [x; y] A <-> length A = idim x * idim y.
Proof. unfold full. rewrite <- size_fold. cbn [map size]. rewrite Nat.mul_1_r. reflexivity. Qed.

Lemma toMat_spec is A uI vI : tensor is A -> Permutation is [uI; vI] ->
  exists M, toMatRefc ieq idim is A uI vI = Ok M /\ good M /\ rn M = idim uI /\ cn M = idim vI /\ forall s, elt is A s = velt M (s uI) (s vI).
Proof.
  intros (ND & HP & HF) PM. assert (is = [uI; vI] \/ is = [vI; uI]) as [-> | ->].
  { pose proof (Permutation_length PM) as L. destruct is as [|a [|b [|]]]; try discriminate. apply Permutation_length_2_inv. now symmetry. }
  - cbn [toMatRefc]. rewrite (proj2 (ieq_spec uI uI) eq_refl). eexists. split; [reflexivity|]. split.
    + apply good_make; [now apply full2|apply HP; cbn; auto|apply HP; cbn; auto].
    + cbn. split; [reflexivity|]. split; [reflexivity|]. intros s. rewrite elt2. unfold SvdSpec.cm, SvdMat.velt. cbn. f_equal. lia.
  - cbn [toMatRefc]. replace (ieq uI vI) with false.
    2:{ symmetry. destruct (ieq uI vI) eqn:E; auto. apply ieq_spec in E. subst. inversion ND; subst. cbn in *; tauto. }
    eexists. split; [reflexivity|]. split.
    + apply good_trans, good_make; [now apply full2|apply HP; cbn; auto|apply HP; cbn; auto].
    + cbn. split; [reflexivity|]. split; [reflexivity|]. intros s. rewrite elt2. unfold SvdSpec.cm, SvdMat.velt. cbn. f_equal. lia.
Qed.

Lemma cm_firstn m k (u : list R) i x : i < m -> x < k -> cm m (firstn (m * k) u) i x = cm m u i x.
Proof.
  intros Hi Hx. unfold SvdSpec.cm. assert (i + m * x < m * k) by nia. revert H. generalize (i + m * x) (m * k). clear.
  intros a b. revert b u. induction a as [|a IH]; intros [|b] [|y u] H; cbn; auto; try lia. apply IH. lia.
Qed.

Lemma svd2_spec m is A uI vI : tensor is A -> Permutation is [uI; vI] ->
  (exists d U V, let ks := keep [d] in let D := kept ks [d] in let uL := mk 0 (length D) in let vL := mk 1 (length D) in
     svd2 m is A uI vI = Ok (([uI; uL], U), (uL, vL, D), ([vI; vL], V)) /\ 0 < length D /\
     length U = idim uI * length D /\ length V = idim vI * length D /\
     exists A2, (forall s, elt is A s = A2 (s uI) (s vI)) /\
       factored (idim uI) (idim vI) A2 (cm (idim uI) U) D (cm (idim vI) V) (discarded ks [d])) \/
  (svd2 m is A uI vI = Err /\ may_err gesdd gesvd m) \/ (svd2 m is A uI vI = UB /\ m = MAuto /\ fails gesdd).
Proof.
  intros HT PM. destruct (toMat_spec is A uI vI HT PM) as (M & EM & GM & RM & CM & HA). unfold SvdModel.svd2. rewrite EM. cbn [obind].
  destruct (SVDc_spec r0 r1 radd rmul rsub ropp RT conj HC gesdd gesvd Hdd Hvd m M GM) as [(u & d & w & E & (L1 & L2 & L3 & HV & OU & OW & RD))|[(E & K1)|(E & K1 & K2)]]; rewrite E; cbn [obind]; auto.
  rewrite RM, CM in *. left. exists d. set (ks := keep [d]). destruct (Hkeep [d]) as (LK & BK & NK). cbn [length] in LK. fold ks in LK, BK, NK.
  assert (EK : ks = [nth 0 ks 0]) by (destruct ks as [|k [|]]; cbn in LK; try discriminate; reflexivity).
  set (k := nth 0 ks 0) in *. assert (Hk : k <= length d) by exact (BK 0).
  assert (ED : kept ks [d] = firstn k d) by (rewrite EK; cbn [kept]; apply app_nil_r).
  assert (LD : length (kept ks [d]) = k) by (rewrite ED, firstn_length; lia).
  cbv zeta. rewrite LD.
  assert (k0 : 0 < k).
  { destruct NK as (k' & Hk' & P); [|rewrite EK in Hk'; cbn in Hk'; destruct Hk' as [<-|[]]; exact P].
    exists d. split; [now left|]. intros ->. cbn in L1. destruct GM as (_ & _ & P1 & P2). rewrite RM, CM in *. lia. }
  exists (firstn (idim uI * k) u), (firstn (idim vI * k) w). split; [rewrite ED; reflexivity|]. split; [exact k0|].
  assert (LU : idim uI * k <= length u) by (rewrite L2, L1 in *; apply Nat.mul_le_mono_l; lia).
  assert (LV : idim vI * k <= length w) by (rewrite L3, L1 in *; apply Nat.mul_le_mono_l; lia).
  split; [rewrite firstn_length; lia|]. split; [rewrite firstn_length; lia|].
  exists (velt M). split; [exact HA|]. set (ts := mterms r0 (idim uI) (idim vI) u d w).
  assert (ET : map (map td) [ts] = [d]) by (cbn; unfold ts; now rewrite mterms_td).
  assert (EKT : kept ks [ts] = firstn k ts) by (rewrite EK; cbn [kept]; apply app_nil_r).
  assert (LKT : length (kept ks [ts]) = k) by (rewrite EKT, firstn_length; unfold ts; rewrite mterms_len; lia).
  assert (NT : forall x, x < k -> nth x (kept ks [ts]) (z0 r0) = (fun i => cm (idim uI) u i x, nth x d r0, fun j => cm (idim vI) w j x)).
  { intros x Hx. rewrite EKT. rewrite <- (mterms_nth r0 (idim uI) (idim vI) u d w x) by lia. fold ts.
    clear -Hx. revert x Hx. generalize ts. induction k as [|k IH]; intros l x Hx; [lia|]. destruct l, x; cbn; auto. apply IH. lia. }
  rewrite <- ET. apply (factored_blocks r0 r1 radd rmul rsub ropp RT conj HC _ _ _ _ _ [ts] ks [fun _ => true] [fun _ => true]); auto.
  - intros i j Hi Hj. rewrite HV by assumption. cbn [concat]. rewrite app_nil_r, (rsum_nth r0 r1 radd rmul rsub ropp RT ts (z0 r0)).
    unfold ts at 1. rewrite mterms_len, L1. apply sum_ext. intros x Hx. unfold ts. rewrite mterms_nth by lia. reflexivity.
  - intros [|b] Hb; [|cbn in Hb; lia]. cbn [nth]. apply (ortho_of r0 r1 radd rmul conj _ _ (tp (z0 r0))). rewrite map_length. unfold ts. rewrite mterms_len.
    intros x y Hx Hy. rewrite !map_nth, !mterms_nth by assumption. apply OU; lia.
  - intros [|b] Hb; [|cbn in Hb; lia]. cbn [nth]. apply (ortho_of r0 r1 radd rmul conj _ _ (tq (z0 r0))). rewrite map_length. unfold ts. rewrite mterms_len.
    intros x y Hx Hy. rewrite !map_nth, !mterms_nth by assumption. apply OW; lia.
  - intros [|b] t i; [discriminate|]. cbn. destruct b; contradiction.
  - intros [|b] t i; [discriminate|]. cbn. destruct b; contradiction.
  - cbn. intros b b' i ? ?. lia.
  - cbn. intros b b' i ? ?. lia.
  - cbn [concat]. rewrite app_nil_r. intros t Ht. apply (In_nth _ _ (z0 r0)) in Ht as (x & Hx & <-). unfold ts in *. rewrite mterms_len in Hx. rewrite mterms_nth by lia. apply RD. lia.
  - intros i x Hi Hx. rewrite LKT in Hx. rewrite NT by auto. cbn. now apply cm_firstn.
  - intros i x Hi Hx. rewrite LKT in Hx. rewrite NT by auto. cbn. now apply cm_firstn.
Qed.
Notation numbering := (numbering idim).
Lemma numbering_joint cs : NoDup cs -> (forall x, In x cs -> 0 < idim x) -> numbering cs (size (map idim cs)) (joint idim cs).
Proof.
  intros ND Hp. assert (VM : forall s, inrange idim cs s -> valid (map idim cs) (map s cs)) by (intros s Hs; now apply (inrange_valid idim)).
  split; [|split; [|split]].
  - intros s s' H. unfold joint. f_equal. now apply map_ext_in.
  - intros s Hs. unfold joint. rewrite colmajor_enc. apply enc_lt. auto.
  - intros s s' Hs Hs' E x Hx. unfold joint in E. rewrite !colmajor_enc in E.
    assert (K : map s cs = map s' cs) by (rewrite <- (decode_enc (map idim cs) (map s cs)), E by auto; apply decode_enc; auto).
    now apply (fun H => ext_in_map H x Hx).
  - intros v s Hv. destruct (decode_enc_assign ieq idim ieq_spec cs v ND Hv Hp s) as (H1 & H2 & H3). eauto.
Qed.

Lemma split_spec debug AA Uis Vis Ui Vi : svd_split ieq debug AA Uis Vis = Ok (Ui, Vi) ->
  (forall x, In x Ui <-> In x AA /\ to_U Uis Vis x) /\ (forall x, In x Vi <-> In x AA /\ ~ to_U Uis Vis x) /\ (NoDup AA -> NoDup Ui /\ NoDup Vi).
Proof.
  assert (EX : forall x l, existsb (ieq x) l = true <-> In x l).
  { intros x l. rewrite existsb_exists. split; [intros (y & Hy & E); apply ieq_spec in E; congruence|]. intros H. exists x. split; auto. now apply ieq_spec. }
  assert (EN : forall x l, negb (existsb (ieq x) l) = true <-> ~ In x l).
  { intros x l. rewrite <- EX. destruct (existsb (ieq x) l); cbn; intuition discriminate. }
  assert (DN : forall (x : I) l, ~ ~ In x l <-> In x l).
  { intros x l. rewrite <- EX. destruct (existsb (ieq x) l); intuition discriminate. }
  unfold svd_split, to_U. destruct Uis as [u|], Vis as [v|]; cbn.
  1,2: intros E; injection E as <- <-; split; [intros x; rewrite filter_In, EX; tauto|]; split; [intros x; rewrite filter_In, EN; tauto|]; intros ND; split; now apply NoDup_filter.
  - intros E; injection E as <- <-; split; [intros x; rewrite filter_In, EN; tauto|]; split; [intros x; rewrite filter_In, EX, DN; tauto|]; intros ND; split; now apply NoDup_filter.
  - destruct debug; [discriminate|]. intros E; injection E as <- <-. split; [tauto|]. split; [intros x; cbn; tauto|]. intros ND. split; [exact ND|constructor].
Qed.
Lemma split_perm debug AA Uis Vis Ui Vi : NoDup AA -> svd_split ieq debug AA Uis Vis = Ok (Ui, Vi) -> Permutation AA (Ui ++ Vi).
Proof.
  intros ND E. pose proof (split_spec _ _ _ _ _ _ E) as (HU & HV & HN). destruct (HN ND) as [NU NV]. apply NoDup_Permutation; auto.
  - apply NoDup_app_intro; auto. intros x K1 K2. apply HU in K1. apply HV in K2. tauto.
  - intros x. rewrite in_app_iff, HU, HV. split; [|tauto]. intros Hx.
    assert (D : to_U Uis Vis x \/ ~ to_U Uis Vis x).
    { unfold to_U. destruct Uis as [u|], Vis as [v|]; auto; try (destruct (in_dec (ieq_dec ieq ieq_spec) x u); auto; fail). destruct (in_dec (ieq_dec ieq ieq_spec) x v); tauto. }
    tauto.
Qed.

Lemma joint_withc c cs cs' s : ~ In c cs' -> joint idim cs' (withc ieq idim c cs s) = joint idim cs' s.
Proof. intros H. unfold joint. f_equal. apply map_ext_in. intros x Hx. unfold withc. apply (override_ne ieq ieq_spec). congruence. Qed.

Lemma dsvd_spec debug m AA A Uis Vis junk Ui Vi : tensor AA A -> (forall n d, ~ In (mk n d) AA) ->
  svd_split ieq debug AA Uis Vis = Ok (Ui, Vi) -> Ui <> [] -> Vi <> [] ->
  (exists Uix U l r D Vix V d, dsvd debug m AA A Uis Vis junk = Ok ((Uix, U), (l, r, D), (Vix, V)) /\
     tensor Uix U /\ tensor Vix V /\ ~ In l AA /\ ~ In r AA /\ l <> r /\ idim l = length D /\ idim r = length D /\ 0 < length D /\
     (forall x, In x Uix <-> x = l \/ In x Ui) /\ (forall x, In x Vix <-> x = r \/ In x Vi) /\
     svd_of r0 r1 radd rmul conj ieq idim rsub AA Ui Vi (elt AA A) (elt Uix U) l r D (elt Vix V) [d] (keep [d])) \/
  (dsvd debug m AA A Uis Vis junk = Err /\ may_err gesdd gesvd m) \/ (dsvd debug m AA A Uis Vis junk = UB /\ m = MAuto /\ fails gesdd).
Proof.
  intros HT Hfr ES HUn HVn. pose proof HT as (ND & Hp & _). pose proof (split_spec _ _ _ _ _ _ ES) as (HU & HV & HN). destruct (HN ND) as [NU NV].
  pose proof (split_perm _ _ _ _ _ _ ND ES) as HPm.
  assert (IU : incl Ui AA) by (intros x Hx; now apply HU). assert (IV : incl Vi AA) by (intros x Hx; now apply HV).
  assert (DIS : forall x, In x Ui -> ~ In x Vi) by (intros x K1 K2; apply HU in K1; apply HV in K2; tauto).
  set (nu := size (map idim Ui)). set (nv := size (map idim Vi)). set (uI := mk 2 nu). set (vI := mk 3 nv).
  assert (CU : combiner_dim idim Ui = Ok nu).
  { pose proof (prod_loop_spec idim Ui 1) as K. unfold combiner_dim. destruct Ui; [congruence|]. rewrite K, Nat.mul_1_l. reflexivity. }
  assert (CV : combiner_dim idim Vi = Ok nv).
  { pose proof (prod_loop_spec idim Vi 1) as K. unfold combiner_dim. destruct Vi; [congruence|]. rewrite K, Nat.mul_1_l. reflexivity. }
  assert (DU : idim uI = nu) by apply mk_dim. assert (DV : idim vI = nv) by apply mk_dim.
  assert (uNV : uI <> vI) by (intros E; apply mk_inj in E; discriminate).
  assert (CBU : combines idim uI Ui) by (split; [now rewrite DU|constructor; auto; intros K; apply (Hfr 2 nu), IU, K]).
  assert (CBV : combines idim vI Vi) by (split; [now rewrite DV|constructor; auto; intros K; apply (Hfr 3 nv), IV, K]).
  unfold SvdModel.dsvd. rewrite ES. cbn [obind].
  destruct Ui as [|x0 Ui0] eqn:EUi; [congruence|]. rewrite <- EUi in *. destruct Vi as [|y0 Vi0] eqn:EVi; [congruence|]. rewrite <- EVi in *.
  rewrite CU. cbn [obind]. fold uI.
  destruct (C17_combine r0 ieq idim ieq_spec debug AA A uI Ui (junk 0) HT CBU (Hfr 2 nu) IU) as (N1 & A1 & E1 & T1 & M1 & V1). rewrite E1. cbn [obind]. rewrite CV. cbn [obind]. fold vI.
  assert (HvN1 : ~ In vI N1) by (intros K; apply M1 in K as [K|[K _]]; [congruence|]; apply (Hfr 3 nv), K).
  assert (IVN : incl Vi N1) by (intros x Hx; apply M1; right; split; [apply IV, Hx|intros K; exact (DIS x K Hx)]).
  destruct (C17_combine r0 ieq idim ieq_spec debug N1 A1 vI Vi (junk 1) T1 CBV HvN1 IVN) as (N2 & A2 & E2 & T2 & M2 & V2). rewrite E2. cbn [obind].
  assert (P2 : Permutation N2 [uI; vI]).
  { apply NoDup_Permutation; [apply T2| |].
    - constructor; [cbn; intuition congruence|constructor; [cbn; auto|constructor]].
    - intros x. rewrite M2, M1. cbn. split.
      + intros [->|[[->|[K1 K2]] K3]]; auto. exfalso. pose proof (Permutation_in _ HPm K1) as K. apply in_app_or in K. tauto.
      + intros [<-|[<-|[]]]; auto. right. split; auto. intros K. apply (Hfr 2 nu), IV, K. }
  unfold SvdModel.svdOrd2. rewrite (Permutation_length P2). cbn [length Nat.eqb negb].
  destruct (svd2_spec m N2 A2 uI vI T2 P2) as [(d & U & V & E & kp & LU & LV & AA2 & HA & HF)|[(E & K1)|(E & K1 & K2)]]; cbv zeta in E; rewrite E; cbn [obind fst snd]; auto.
  set (D := kept (keep [d]) [d]) in *. set (k := length D) in *. set (uL := mk 0 k) in *. set (vL := mk 1 k) in *.
  assert (PU : 0 < nu) by (apply size_pos; intros e He; rewrite <- EUi in He; apply in_map_iff in He as (x & <- & Hx); apply Hp, IU, Hx).
  assert (PV : 0 < nv) by (apply size_pos; intros e He; rewrite <- EVi in He; apply in_map_iff in He as (x & <- & Hx); apply Hp, IV, Hx).
  assert (DuL : idim uL = k) by apply mk_dim. assert (DvL : idim vL = k) by apply mk_dim.
  assert (uI <> uL) by (intros K; apply mk_inj in K; discriminate). assert (vI <> vL) by (intros K; apply mk_inj in K; discriminate).
  assert (TU : tensor [uI; uL] U).
  { split; [|split].
    - constructor; [cbn; intuition congruence|constructor; [cbn; auto|constructor]].
    - cbn. intros x [<-|[<-|[]]]; rewrite ?DU, ?DuL; auto.
    - apply full2. now rewrite DuL. }
  assert (TV : tensor [vI; vL] V).
  { split; [|split].
    - constructor; [cbn; intuition congruence|constructor; [cbn; auto|constructor]].
    - cbn. intros x [<-|[<-|[]]]; rewrite ?DV, ?DvL; auto.
    - apply full2. now rewrite DvL. }
  destruct (C17_uncombine r0 ieq idim ieq_spec debug [uI; uL] U uI Ui (junk 2) TU CBU) as (Uix & EU & TUx & MU & VU).
  { now left. }
  { intros x Hx. split; [|apply Hp, IU, Hx]. intros [<-|[<-|[]]]; eapply Hfr, IU, Hx. }
  destruct (C17_uncombine r0 ieq idim ieq_spec debug [vI; vL] V vI Vi (junk 3) TV CBV) as (Vix & EV & TVx & MV & VV).
  { now left. }
  { intros x Hx. split; [|apply Hp, IV, Hx]. intros [<-|[<-|[]]]; eapply Hfr, IV, Hx. }
  rewrite EU. cbn [obind]. rewrite EV. cbn [obind]. left. exists Uix, U, uL, vL, D, Vix, V, d. split; [reflexivity|]. split; [exact TUx|]. split; [exact TVx|].
  split; [apply Hfr|]. split; [apply Hfr|]. split; [intros K; apply mk_inj in K; discriminate|]. split; [exact DuL|]. split; [exact DvL|]. split; [exact kp|].
  assert (MU' : forall x, In x Uix <-> x = uL \/ In x Ui).
  { intros x. rewrite MU. cbn. split; [intros [K|[[<-|[<-|[]]] K]]; tauto|]. intros [->|K]; auto. }
  assert (MV' : forall x, In x Vix <-> x = vL \/ In x Vi).
  { intros x. rewrite MV. cbn. split; [intros [K|[[<-|[<-|[]]] K]]; tauto|]. intros [->|K]; auto. }
  split; [exact MU'|]. split; [exact MV'|].
  assert (NUm : numbering Ui nu (joint idim Ui)) by (unfold nu, nv; rewrite <- ?EUi, <- ?EVi; apply numbering_joint; auto).
  assert (NVm : numbering Vi nv (joint idim Vi)) by (unfold nu, nv; rewrite <- ?EUi, <- ?EVi; apply numbering_joint; auto).
  assert (HAe : forall s, inrange idim AA s -> elt AA A s = AA2 (joint idim Ui s) (joint idim Vi s)).
  { intros s Hs. rewrite <- V1 by exact Hs. rewrite <- V2.
    - rewrite HA. f_equal.
      + unfold withc at 1. rewrite (override_ne ieq ieq_spec) by exact uNV. unfold withc. apply (override_self ieq ieq_spec).
      + unfold withc at 1. rewrite (override_self ieq ieq_spec). apply joint_withc. intros K. apply (Hfr 2 nu), IV, K.
    - intros x Hx. apply M1 in Hx as [->|[Hx _]].
      + unfold withc. rewrite (override_self ieq ieq_spec), DU. apply NUm. intros y Hy. apply Hs, IU, Hy.
      + unfold withc. rewrite (override_ne ieq ieq_spec); [apply Hs, Hx|]. intros ->. apply (Hfr 2 nu), Hx. }
  assert (HUe : forall s x, inrange idim Ui s -> x < length D -> elt Uix U (override ieq s uL x) = cm (idim uI) U (joint idim Ui s) x).
  { intros s x Hs Hx. rewrite VU.
    - rewrite elt2. f_equal.
      + unfold withc. rewrite (override_self ieq ieq_spec). apply NUm. intros y Hy. apply (override_ne ieq ieq_spec). intros ->. eapply Hfr, IU, Hy.
      + unfold withc. rewrite (override_ne ieq ieq_spec) by congruence. apply (override_self ieq ieq_spec).
    - intros y Hy. apply MU' in Hy as [->|Hy]; [rewrite (override_self ieq ieq_spec), DuL; exact Hx|].
      rewrite (override_ne ieq ieq_spec); [apply Hs, Hy|]. intros ->. eapply Hfr, IU, Hy. }
  assert (HVe : forall s x, inrange idim Vi s -> x < length D -> elt Vix V (override ieq s vL x) = cm (idim vI) V (joint idim Vi s) x).
  { intros s x Hs Hx. rewrite VV.
    - rewrite elt2. f_equal.
      + unfold withc. rewrite (override_self ieq ieq_spec). apply NVm. intros y Hy. apply (override_ne ieq ieq_spec). intros ->. eapply Hfr, IV, Hy.
      + unfold withc. rewrite (override_ne ieq ieq_spec) by congruence. apply (override_self ieq ieq_spec).
    - intros y Hy. apply MV' in Hy as [->|Hy]; [rewrite (override_self ieq ieq_spec), DvL; exact Hx|].
      rewrite (override_ne ieq ieq_spec); [apply Hs, Hy|]. intros ->. eapply Hfr, IV, Hy. }
  rewrite DU, DV in *. split; [reflexivity|]. split; [|split; [|split]].
  - apply (factors_isoU r0 r1 radd rmul rsub ropp RT conj ieq idim ieq_spec Ui Vi AA nu nv (joint idim Ui) uL HPm ND Hp NUm _ _ _ _ D _ HF HUe).
  - apply (factors_isoV r0 r1 radd rmul rsub ropp RT conj ieq idim ieq_spec Ui Vi AA nu nv (joint idim Vi) vL HPm ND Hp NVm _ _ _ _ D _ HF HVe).
  - intros s. apply (factors_error r0 r1 radd rmul rsub ropp RT conj HC ieq idim ieq_spec Ui Vi AA nu nv (joint idim Ui) (joint idim Vi) uL vL HPm ND Hp NUm NVm _ _ _ _ _ _ D _ HF HAe HUe HVe).
  - intros ED s Hs. apply (factors_exact r0 r1 radd rmul rsub ropp RT conj ieq idim Ui Vi AA nu nv (joint idim Ui) (joint idim Vi) uL vL HPm NUm NVm _ _ _ _ _ _ D _ HF HAe HUe HVe s Hs ED).
Qed.
End Dense.
