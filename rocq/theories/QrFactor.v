(** From a QR decomposition of a matrix to one of a tensor, and qr of a dense tensor. *)
From Coq Require Import List ZArith Arith Lia Ring Bool Permutation.
From Verif Require Import Util RangeModel RangeSpec RangeProofs TensorModel TensorSpec TensorProofs SemProofs ContractModel DenseModel DenseProofs
  ContractProps QdSum CombinerModel CombinerProps QnModel QdModel QdAdd SvdModel SvdSpec SvdRank SvdMat SvdFactor SvdBlocks SvdDense QrSpec QrModel QrMat.
Import ListNotations.
Open Scope outcome_scope.
Local Arguments Nat.sub : simpl never.

Section Count.
Context {I : Type} (ieq : I -> I -> bool) (dim : I -> nat).
Hypothesis ieq_spec : forall a b, ieq a b = true <-> a = b.
Lemma numbering_size cs n J : NoDup cs -> (forall x, In x cs -> 0 < dim x) -> numbering dim cs n J -> n = size (map dim cs).
Proof.
  intros ND Hp HN. pose proof (numbering_joint ieq dim ieq_spec cs ND Hp) as HJ.
  pose proof (reindex 0%Z 1%Z Z.add Z.mul Z.sub Z.opp Zth ieq dim ieq_spec cs n J (fun _ => 1%Z) (fun _ => 0) ND Hp HN) as E1.
  pose proof (reindex 0%Z 1%Z Z.add Z.mul Z.sub Z.opp Zth ieq dim ieq_spec cs _ _ (fun _ => 1%Z) (fun _ => 0) ND Hp HJ) as E2.
  assert (G : forall m, sum_below 0%Z Z.add m (fun _ => 1%Z) = Z.of_nat m) by (induction m as [|m IH]; [reflexivity|]; cbn [sum_below]; rewrite IH; lia).
  assert (E3 : sum_below 0%Z Z.add n (fun _ => 1%Z) = sum_below 0%Z Z.add (size (map dim cs)) (fun _ => 1%Z)) by (etransitivity; [symmetry; exact E1|exact E2]).
  rewrite !G in E3. lia.
Qed.
End Count.

Section Factor.
Context {R : Type} (r0 r1 : R) (radd rmul rsub : R -> R -> R) (ropp : R -> R).
Context (RT : ring_theory r0 r1 radd rmul rsub ropp eq).
Add Ring RRqf : RT.
Context (conj : R -> R) (HC : conjugation radd rmul conj) (neg : R -> bool).
Notation sum := (sum_below r0 radd).
Notation kron := (kron r0 r1).
Notation cm := (cm r0).

(** Q2 and R2 are a QR decomposition of A2. *)
Definition qrm (nu nv k : nat) (complete positive : bool) (A2 Q2 R2 : nat -> nat -> R) : Prop :=
  (forall u v, u < nu -> v < nv -> A2 u v = sum k (fun x => rmul (Q2 u x) (R2 x v))) /\
  (forall x x', x < k -> x' < k -> sum nu (fun u => rmul (conj (Q2 u x)) (Q2 u x')) = kron x x') /\
  (complete = true -> k = nu /\ forall u u', u < nu -> u' < nu -> sum k (fun x => rmul (Q2 u x) (conj (Q2 u' x))) = kron u u') /\
  (forall x v, x < k -> v < nv -> v < x -> R2 x v = r0) /\
  (positive = true -> forall v, v < nv -> v < k -> neg (R2 v v) = false).

Section T.
Context {I : Type} (ieq : I -> I -> bool) (dim : I -> nat).
Hypothesis ieq_spec : forall a b, ieq a b = true <-> a = b.
Notation override := (override ieq).
Notation inrange := (inrange dim).
Notation numbering := (numbering dim).

Lemma qr_of_qrm (Qi Ri AA : list I) nu nv Ju Jv l k complete positive A Q Rt A2 Q2 R2 :
  Permutation AA (Qi ++ Ri) -> NoDup AA -> (forall x, In x AA -> 0 < dim x) -> numbering Qi nu Ju -> numbering Ri nv Jv -> ~ In l AA ->
  qrm nu nv k complete positive A2 Q2 R2 ->
  (forall s, inrange AA s -> A s = A2 (Ju s) (Jv s)) ->
  (forall s x, inrange Qi s -> x < k -> Q (override s l x) = Q2 (Ju s) x) ->
  (forall s x, inrange Ri s -> x < k -> Rt (override s l x) = R2 x (Jv s)) ->
  qr_of r0 r1 radd rmul conj ieq dim AA Qi Jv neg complete positive A Q l Rt k.
Proof.
  intros HP ND Hpos NU NV Hl (HV & HI & HO & HU & HPs) HA HQ HR.
  assert (IQ : forall x, In x Qi -> In x AA) by (intros x Hx; apply (Permutation_in _ (Permutation_sym HP)), in_or_app; auto).
  assert (IR : forall x, In x Ri -> In x AA) by (intros x Hx; apply (Permutation_in _ (Permutation_sym HP)), in_or_app; auto).
  assert (NQ : NoDup Qi) by (apply (nda_l Qi Ri); eapply Permutation_NoDup; eauto).
  assert (RQ : forall s, inrange AA s -> inrange Qi s) by (intros s Hs x Hx; apply Hs, IQ, Hx).
  assert (RR : forall s, inrange AA s -> inrange Ri s) by (intros s Hs x Hx; apply Hs, IR, Hx).
  split; [|split; [|split; [|split]]].
  - intros s Hs. rewrite HA by exact Hs. rewrite HV by (first [apply NU, RQ, Hs|apply NV, RR, Hs]). apply sum_ext. intros x Hx. rewrite HQ, HR by auto. reflexivity.
  - intros s x x' Hx Hx'. rewrite <- HI by assumption.
    rewrite <- (reindex r0 r1 radd rmul rsub ropp RT ieq dim ieq_spec Qi nu Ju (fun u => rmul (conj (Q2 u x)) (Q2 u x')) s NQ) by (auto; intros; apply Hpos; auto).
    apply (so_ext_in r0 radd ieq ieq_spec (fun _ => nil) dim). intros t _ Ht. rewrite !HQ by auto. reflexivity.
  - intros Hc. destruct (HO Hc) as [EK HO']. split.
    + rewrite EK, (numbering_size ieq dim ieq_spec Qi nu Ju NQ) by (auto; intros; apply Hpos; auto). symmetry. clear. generalize (map dim Qi). induction l as [|a l IH]; cbn; auto. 
    + intros s s' Hs Hs'. transitivity (kron (Ju s) (Ju s')).
      * rewrite <- HO' by (apply NU; assumption). apply sum_ext. intros x Hx. rewrite !HQ by auto. reflexivity.
      * unfold SvdSpec.kron. destruct (Nat.eqb_spec (Ju s) (Ju s')) as [E|E].
        -- replace (forallb _ Qi) with true; [reflexivity|]. symmetry. apply forallb_forall. intros x Hx. apply Nat.eqb_eq. exact (proj1 (proj2 (proj2 NU)) s s' Hs Hs' E x Hx).
        -- replace (forallb _ Qi) with false; [reflexivity|]. symmetry. destruct (forallb _ Qi) eqn:EF; [|reflexivity]. exfalso. apply E. apply NU. intros x Hx.
           rewrite forallb_forall in EF. apply Nat.eqb_eq, EF, Hx.
  - intros s x Hs Hx Hlt. rewrite HR by auto. apply HU; auto. apply NV. auto.
  - intros Hp s Hs Hk. rewrite HR by auto. apply HPs; auto. apply NV. auto.
Qed.
End T.
End Factor.

Section Dense.
Context {R : Type} (r0 r1 : R) (radd rmul rsub : R -> R -> R) (ropp : R -> R).
Context (RT : ring_theory r0 r1 radd rmul rsub ropp eq).
Add Ring RRqfd : RT.
Context (conj : R -> R) (HC : conjugation radd rmul conj) (neg : R -> bool).
Hypothesis neg_opp : forall x, neg x = true -> neg (ropp x) = false.
Context (lap : nat -> nat -> nat -> list R -> option (list R * list R)).
Hypothesis Hlap : exact_qr r0 r1 radd rmul conj lap.
Context {I : Type} (ieq : I -> I -> bool) (idim : I -> nat) (mk : nat -> nat -> I).
Hypothesis ieq_spec : forall a b, ieq a b = true <-> a = b.
Hypothesis mk_dim : forall n d, idim (mk n d) = d.
Hypothesis mk_inj : forall n n' d d', mk n d = mk n' d' -> n = n'.
Notation cm := (cm r0).
Notation elt := (elt r0 idim).
Notation tensor := (tensor idim).
Notation qr2 := (qr2 r0 ropp neg lap ieq idim mk).
Notation dqr := (dqr r0 ropp neg lap ieq idim mk).
Notation qrm := (qrm r0 r1 radd rmul conj neg).
Notation velt := (velt r0).
Notation numbering := (numbering idim).

Lemma qr2_spec upper complete positive is A qI rI : tensor is A -> Permutation is [qI; rI] -> complete = true \/ upper = true ->
  (exists Q Rm k, qr2 upper complete positive is A qI rI = Ok (([qI; mk 0 k], Q), ([mk 0 k; rI], Rm)) /\ 0 < k /\ k = qr_rows complete (idim qI) (idim rI) /\
     length Q = idim qI * k /\ length Rm = k * idim rI /\
     exists A2, (forall s, elt is A s = A2 (s qI) (s rI)) /\ qrm (idim qI) (idim rI) k complete positive A2 (cm (idim qI) Q) (cm k Rm)) \/
  (qr2 upper complete positive is A qI rI = Err /\ qr_fails lap).
Proof.
  intros HT PM Hcu. destruct (toMat_spec r0 ieq idim ieq_spec is A qI rI HT PM) as (M & EM & GM & RM & CM & HA).
  unfold QrModel.qr2. replace (negb complete && negb upper) with false by (destruct complete, upper; auto; destruct Hcu; discriminate).
  rewrite EM. cbn [obind].
  destruct (QR_spec r0 r1 radd rmul rsub ropp RT conj HC neg neg_opp lap Hlap complete positive M GM) as [(Q & Rm & E & (L1 & L2 & HV & HI & HO & HU) & HPs)|(E & K)]; rewrite E; cbn [obind]; auto.
  rewrite RM, CM in *. left. set (k := qr_rows complete (idim qI) (idim rI)) in *.
  assert (P : 0 < idim qI /\ 0 < idim rI) by (destruct GM as (_ & _ & P1 & P2); rewrite RM, CM in *; auto).
  assert (KC : complete = true -> k = idim qI).
  { intros ->. unfold k, qr_rows. destruct (Nat.ltb_spec (idim qI) (idim rI)); reflexivity. }
  assert (HO' : complete = true -> k = idim qI /\ forall u u', u < idim qI -> u' < idim qI -> sum_below r0 radd k (fun x => rmul (cm (idim qI) Q u x) (conj (cm (idim qI) Q u' x))) = kron r0 r1 u u').
  { intros Hc. split; [auto|]. intros u u' Hu Hu'. rewrite <- (HO (KC Hc)) by auto. rewrite (KC Hc). reflexivity. }
  exists Q, Rm, k. split; [reflexivity|]. split; [unfold k, qr_rows; destruct (_ <? _); [lia|destruct complete; lia]|]. split; [reflexivity|]. split; [exact L1|]. split; [exact L2|].
  exists (velt M). split; [exact HA|]. split; [exact HV|]. split; [exact HI|]. split; [exact HO'|]. split; [exact HU|].
  intros Hp v Hv Hk. now apply HPs.
Qed.

Lemma dqr_spec debug upper complete positive AA A Qis Ris junk Qi Ri : tensor AA A -> (forall n d, ~ In (mk n d) AA) ->
  svd_split ieq debug AA Qis Ris = Ok (Qi, Ri) -> Qi <> [] -> Ri <> [] -> complete = true \/ upper = true ->
  (exists Qix Q l k Rix Rm, dqr debug upper complete positive AA A Qis Ris junk = Ok ((Qix, Q), (Rix, Rm)) /\
     tensor Qix Q /\ tensor Rix Rm /\ ~ In l AA /\ idim l = k /\ 0 < k /\
     k = qr_rows complete (size (map idim Qi)) (size (map idim Ri)) /\
     (forall x, In x Qix <-> x = l \/ In x Qi) /\ (forall x, In x Rix <-> x = l \/ In x Ri) /\
     qr_of r0 r1 radd rmul conj ieq idim AA Qi (joint idim Ri) neg complete positive (elt AA A) (elt Qix Q) l (elt Rix Rm) k) \/
  (dqr debug upper complete positive AA A Qis Ris junk = Err /\ qr_fails lap).
Proof.
  intros HT Hfr ES HUn HVn Hcu. pose proof HT as (ND & Hp & _). pose proof (split_spec ieq ieq_spec _ _ _ _ _ _ ES) as (HU & HV & HN). destruct (HN ND) as [NU NV].
  pose proof (split_perm ieq ieq_spec _ _ _ _ _ _ ND ES) as HPm.
  assert (IU : incl Qi AA) by (intros x Hx; now apply HU). assert (IV : incl Ri AA) by (intros x Hx; now apply HV).
  assert (DIS : forall x, In x Qi -> ~ In x Ri) by (intros x K1 K2; apply HU in K1; apply HV in K2; tauto).
  set (nu := size (map idim Qi)). set (nv := size (map idim Ri)). set (qI := mk 2 nu). set (rI := mk 3 nv).
  assert (CU : combiner_dim idim Qi = Ok nu).
  { pose proof (prod_loop_spec idim Qi 1) as K. unfold combiner_dim. destruct Qi; [congruence|]. rewrite K, Nat.mul_1_l. reflexivity. }
  assert (CV : combiner_dim idim Ri = Ok nv).
  { pose proof (prod_loop_spec idim Ri 1) as K. unfold combiner_dim. destruct Ri; [congruence|]. rewrite K, Nat.mul_1_l. reflexivity. }
  assert (DU : idim qI = nu) by apply mk_dim. assert (DV : idim rI = nv) by apply mk_dim.
  assert (uNV : qI <> rI) by (intros E; apply mk_inj in E; discriminate).
  assert (CBU : combines idim qI Qi) by (split; [now rewrite DU|constructor; auto; intros K; apply (Hfr 2 nu), IU, K]).
  assert (CBV : combines idim rI Ri) by (split; [now rewrite DV|constructor; auto; intros K; apply (Hfr 3 nv), IV, K]).
  unfold QrModel.dqr. rewrite ES. cbn [obind].
  destruct Qi as [|x0 Qi0] eqn:EUi; [congruence|]. rewrite <- EUi in *. destruct Ri as [|y0 Ri0] eqn:EVi; [congruence|]. rewrite <- EVi in *.
  rewrite CU. cbn [obind]. fold qI.
  destruct (C17_combine r0 ieq idim ieq_spec debug AA A qI Qi (junk 0) HT CBU (Hfr 2 nu) IU) as (N1 & A1 & E1 & T1 & M1 & V1). rewrite E1. cbn [obind]. rewrite CV. cbn [obind]. fold rI.
  assert (HvN1 : ~ In rI N1) by (intros K; apply M1 in K as [K|[K _]]; [congruence|]; apply (Hfr 3 nv), K).
  assert (IVN : incl Ri N1) by (intros x Hx; apply M1; right; split; [apply IV, Hx|intros K; exact (DIS x K Hx)]).
  destruct (C17_combine r0 ieq idim ieq_spec debug N1 A1 rI Ri (junk 1) T1 CBV HvN1 IVN) as (N2 & A2 & E2 & T2 & M2 & V2). rewrite E2. cbn [obind].
  assert (P2 : Permutation N2 [qI; rI]).
  { apply NoDup_Permutation; [apply T2| |].
    - constructor; [cbn; intuition congruence|constructor; [cbn; auto|constructor]].
    - intros x. rewrite M2, M1. cbn. split.
      + intros [->|[[->|[K1 K2]] K3]]; auto. exfalso. pose proof (Permutation_in _ HPm K1) as K. apply in_app_or in K. tauto.
      + intros [<-|[<-|[]]]; auto. right. split; auto. intros K. apply (Hfr 2 nu), IV, K. }
  unfold QrModel.qrOrd2. rewrite (Permutation_length P2). cbn [length Nat.eqb negb].
  destruct (qr2_spec upper complete positive N2 A2 qI rI T2 P2 Hcu) as [(Q & Rm & k & E & kp & EK & LU & LV & AA2 & HA & HF)|(E & K1)]; rewrite E; cbn [obind fst snd]; auto.
  set (l := mk 0 k) in *.
  assert (PU : 0 < nu) by (apply size_pos; intros e He; rewrite <- EUi in He; apply in_map_iff in He as (x & <- & Hx); apply Hp, IU, Hx).
  assert (PV : 0 < nv) by (apply size_pos; intros e He; rewrite <- EVi in He; apply in_map_iff in He as (x & <- & Hx); apply Hp, IV, Hx).
  assert (DL : idim l = k) by apply mk_dim.
  assert (qI <> l) by (intros K; apply mk_inj in K; discriminate). assert (rI <> l) by (intros K; apply mk_inj in K; discriminate).
  assert (TU : tensor [qI; l] Q).
  { split; [|split].
    - constructor; [cbn; intuition congruence|constructor; [cbn; auto|constructor]].
    - cbn. intros x [<-|[<-|[]]]; rewrite ?DU, ?DL; auto.
    - apply full2. now rewrite DL. }
  assert (TV : tensor [l; rI] Rm).
  { split; [|split].
    - constructor; [cbn; intuition congruence|constructor; [cbn; auto|constructor]].
    - cbn. intros x [<-|[<-|[]]]; rewrite ?DV, ?DL; auto.
    - apply full2. now rewrite DL. }
  destruct (C17_uncombine r0 ieq idim ieq_spec debug [qI; l] Q qI Qi (junk 2) TU CBU) as (Qix & EU & TUx & MU & VU).
  { now left. }
  { intros x Hx. split; [|apply Hp, IU, Hx]. intros [<-|[<-|[]]]; eapply Hfr, IU, Hx. }
  destruct (C17_uncombine r0 ieq idim ieq_spec debug [l; rI] Rm rI Ri (junk 3) TV CBV) as (Rix & EV & TVx & MV & VV).
  { cbn; auto. }
  { intros x Hx. split; [|apply Hp, IV, Hx]. intros [<-|[<-|[]]]; eapply Hfr, IV, Hx. }
  rewrite EU. cbn [obind]. rewrite EV. cbn [obind]. left. exists Qix, Q, l, k, Rix, Rm. split; [reflexivity|]. split; [exact TUx|]. split; [exact TVx|].
  split; [apply Hfr|]. split; [exact DL|]. split; [exact kp|]. split; [rewrite EK, DU, DV; unfold nu, nv; rewrite <- ?EUi, <- ?EVi; reflexivity|].
  assert (MU' : forall x, In x Qix <-> x = l \/ In x Qi).
  { intros x. rewrite MU. cbn. split; [intros [K|[[<-|[<-|[]]] K]]; tauto|]. intros [->|K]; auto. }
  assert (MV' : forall x, In x Rix <-> x = l \/ In x Ri).
  { intros x. rewrite MV. cbn. split; [intros [K|[[<-|[<-|[]]] K]]; tauto|]. intros [->|K]; auto. }
  split; [exact MU'|]. split; [exact MV'|].
  assert (NUm : numbering Qi nu (joint idim Qi)) by (unfold nu, nv; rewrite <- ?EUi, <- ?EVi; apply (numbering_joint ieq); auto).
  assert (NVm : numbering Ri nv (joint idim Ri)) by (unfold nu, nv; rewrite <- ?EUi, <- ?EVi; apply (numbering_joint ieq); auto).
  rewrite DU, DV in *.
  apply (qr_of_qrm r0 r1 radd rmul rsub ropp RT conj neg ieq idim ieq_spec Qi Ri AA nu nv (joint idim Qi) (joint idim Ri) l k complete positive _ _ _ AA2 (cm nu Q) (cm k Rm) HPm ND Hp NUm NVm); auto.
  - apply Hfr.
  - intros s Hs. rewrite <- V1 by exact Hs. rewrite <- V2.
    + rewrite HA. f_equal.
      * unfold withc at 1. rewrite (override_ne ieq ieq_spec) by exact uNV. unfold withc. apply (override_self ieq ieq_spec).
      * unfold withc at 1. rewrite (override_self ieq ieq_spec). apply (joint_withc ieq); auto. intros K. apply (Hfr 2 nu), IV, K.
    + intros x Hx. apply M1 in Hx as [->|[Hx _]].
      * unfold withc. rewrite (override_self ieq ieq_spec), DU. apply NUm. intros y Hy. apply Hs, IU, Hy.
      * unfold withc. rewrite (override_ne ieq ieq_spec); [apply Hs, Hx|]. intros ->. apply (Hfr 2 nu), Hx.
  - intros s x Hs Hx. rewrite VU.
    + rewrite elt2, DU. f_equal.
      * unfold withc. rewrite (override_self ieq ieq_spec). apply NUm. intros y Hy. apply (override_ne ieq ieq_spec). intros ->. eapply Hfr, IU, Hy.
      * unfold withc. rewrite (override_ne ieq ieq_spec) by congruence. apply (override_self ieq ieq_spec).
    + intros y Hy. apply MU' in Hy as [->|Hy]; [rewrite (override_self ieq ieq_spec), DL; exact Hx|].
      rewrite (override_ne ieq ieq_spec); [apply Hs, Hy|]. intros ->. eapply Hfr, IU, Hy.
  - intros s x Hs Hx. rewrite VV.
    + rewrite elt2, DL. f_equal.
      * unfold withc. rewrite (override_ne ieq ieq_spec) by congruence. apply (override_self ieq ieq_spec).
      * unfold withc. rewrite (override_self ieq ieq_spec). apply NVm. intros y Hy. apply (override_ne ieq ieq_spec). intros ->. eapply Hfr, IV, Hy.
    + intros y Hy. apply MV' in Hy as [->|Hy]; [rewrite (override_self ieq ieq_spec), DL; exact Hx|].
      rewrite (override_ne ieq ieq_spec); [apply Hs, Hy|]. intros ->. eapply Hfr, IV, Hy.
Qed.
End Dense.
