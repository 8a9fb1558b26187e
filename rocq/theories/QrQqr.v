(** qr of a tensor with quantum numbers: combine, decompose the matrix, uncombine. *)
From Coq Require Import List ZArith Arith Lia Ring Bool Permutation Sorted.
From Verif Require Import Util RangeModel RangeSpec RangeProofs TensorModel TensorSpec TensorProofs SemProofs ContractModel DenseModel DenseProofs
  SmallStringModel QnModel QnSpec QnProofs QdModel QdSpec QdProofs QdFlux QdAdd QdSum CombinerModel CombinerProps QCombModel QCombProps
  SvdModel SvdSpec SvdRank SvdMat SvdFactor SvdDense SvdQn SvdFill SvdQ2 SvdQsvd QrSpec QrModel QrMat QrFactor QrBlocks QrWrites QrQn.
Import ListNotations.
Open Scope outcome_scope.
Local Arguments Nat.sub : simpl never.

Section Qqr.
Context {R : Type} (r0 r1 : R) (radd rmul rsub : R -> R -> R) (ropp : R -> R).
Context (RT : ring_theory r0 r1 radd rmul rsub ropp eq).
Add Ring RRqqr : RT.
Context (conj : R -> R) (HC : conjugation radd rmul conj) (neg : R -> bool).
Hypothesis neg_opp : forall x, neg x = true -> neg (ropp x) = false.
Context (lap : nat -> nat -> nat -> list R -> option (list R * list R)).
Hypothesis Hlap : exact_qr r0 r1 radd rmul conj lap.
Context {I : Type} (ieq : I -> I -> bool) (ieq_spec : forall a b, ieq a b = true <-> a = b).
Context (bs : I -> list nat) (qns : I -> list QN) (M : SmallString -> Z) (Sx : list SmallString) (Sch : Scheme M Sx).
Context (mk : nat -> list (QN * nat) -> I).
Hypothesis mk_bs : forall n q, bs (mk n q) = map snd q.
Hypothesis mk_qns : forall n q, qns (mk n q) = map fst q.
Hypothesis mk_inj : forall n n' q q', mk n q = mk n' q' -> n = n'.
Notation total := (total bs).
Notation proper := (proper bs).
Notation ranged := (ranged bs).
Notation qval := (qval r0 bs).
Notation stored := (stored bs).
Notation labelled := (labelled bs qns M Sx).
Notation nblocks := (nblocks bs).
Notation qtensor := (qtensor bs qns M Sx).
Notation qel := (qel r0 ieq bs).
Notation numbering := (numbering total).
Notation qqr := (qqr r0 r1 ropp neg lap ieq bs qns mk).
Notation charge := (charge bs qns).
Notation dirC_in := (SvdQsvd.dirC_in ieq ieq_spec).
Notation dirC_out := (SvdQsvd.dirC_out ieq ieq_spec).
Notation qval_noblocks := (SvdQsvd.qval_noblocks r0 bs).
Notation sub_proper := (SvdQsvd.sub_proper bs).

(** The total charge of the values s of the indices cs. *)
Definition total_charge (dir : I -> Arrow) (cs : list I) (s : I -> nat) (n : SmallString) : Z :=
  residue (M n) (fold_right Z.add 0%Z (map (fun x => arrow_int (dir x) * charge x (s x) n)%Z cs)).
(** Three joint values of cs have three different charges. *)
Definition three_charges (dir : I -> Arrow) (cs : list I) : Prop :=
  exists s1 s2 s3, ranged cs s1 /\ ranged cs s2 /\ ranged cs s3 /\
    (exists n, total_charge dir cs s1 n <> total_charge dir cs s2 n) /\ (exists n, total_charge dir cs s1 n <> total_charge dir cs s3 n) /\
    (exists n, total_charge dir cs s2 n <> total_charge dir cs s3 n).

Lemma qn_differ q q' : Charges M Sx q -> Charges M Sx q' -> qn_eqb q q' = false -> exists n, qn_val_of q n <> qn_val_of q' n.
Proof.
  intros C C' E. assert (K : forall ns, (forall n, In n ns -> qn_val_of q n = qn_val_of q' n) \/ exists n, qn_val_of q n <> qn_val_of q' n).
  { induction ns as [|n ns [IH|IH]]; [left; intros n []| |now right]. destruct (Z.eq_dec (qn_val_of q n) (qn_val_of q' n)) as [E1|E1]; [left; intros n' [<-|H]; auto|right; eauto]. }
  destruct (K (map qn_name q ++ map qn_name q')) as [H|H]; [|exact H]. exfalso. assert (qn_eqb q q' = true); [|congruence]. apply (qn_eqb_iff M Sx); auto. intros n.
  destruct (Z.eq_dec (qn_val_of q n) 0) as [E1|E1].
  - destruct (Z.eq_dec (qn_val_of q' n) 0) as [E2|E2]; [congruence|]. destruct (val_nonzero_in _ _ E2) as (v & Hv & Hn & _). apply H. rewrite in_app_iff. right. rewrite <- Hn. now apply in_map.
  - destruct (val_nonzero_in _ _ E1) as (v & Hv & Hn & _). apply H. rewrite in_app_iff. left. rewrite <- Hn. now apply in_map.
Qed.

Lemma qqr_spec debug complete positive dir AA A q Qis Ris Qi Ri : qtensor dir AA A q -> (forall x, In x AA -> dir x <> ArrNeither) -> (forall n d, ~ In (mk n d) AA) ->
  svd_split ieq debug AA Qis Ris = Ok (Qi, Ri) -> Qi <> [] -> Ri <> [] ->
  (exists Qix Q l k Rix Rm J qR, qqr debug true complete positive dir AA A Qis Ris = Ok ((Qix, Q), (Rix, Rm)) /\
     (exists dirQ, qtensor dirQ Qix Q qn0 /\ dirQ l = arrow_neg (comb_dir dir None Qi) /\ forall x, In x Qi -> dirQ x = dir x) /\
     (exists dirR, qtensor dirR Rix Rm qR /\ dirR l = comb_dir dir None Qi /\ forall x, In x Ri -> dirR x = dir x) /\
     ((exists s, ranged AA s /\ qval AA A s <> r0) -> qn_eqb qR q = true) /\
     ~ In l AA /\ total l = k /\ 0 < k /\
     (forall x, In x Qix <-> x = l \/ In x Qi) /\ (forall x, In x Rix <-> x = l \/ In x Ri) /\
     numbering Ri (size (map total Ri)) J /\
     qr_of r0 r1 radd rmul conj ieq total AA Qi J neg complete positive (qval AA A) (qval Qix Q) l (qval Rix Rm) k) \/
  (qqr debug true complete positive dir AA A Qis Ris = Err /\ ((forall s, ranged AA s -> qval AA A s = r0) \/ qr_fails lap)) \/
  (qqr debug true complete positive dir AA A Qis Ris = UB /\ three_charges dir Ri).
Proof.
  intros HT Hdir Hfr ES HUn HVn. pose proof HT as (HPr & HLb & _). pose proof HPr as [ND Hpr]. pose proof (split_spec ieq ieq_spec _ _ _ _ _ _ ES) as (HU & HV & HN). destruct (HN ND) as [NU NV].
  pose proof (split_perm ieq ieq_spec _ _ _ _ _ _ ND ES) as HPm.
  assert (Hp : forall x, In x AA -> 0 < total x) by (intros x Hx; exact (total_pos bs x AA HPr Hx)).
  assert (IU : incl Qi AA) by (intros x Hx; now apply HU). assert (IV : incl Ri AA) by (intros x Hx; now apply HV).
  assert (DIS : forall x, In x Qi -> ~ In x Ri) by (intros x K1 K2; apply HU in K1; apply HV in K2; tauto).
  assert (PU : proper Qi) by exact (sub_proper Qi AA NU IU HPr). assert (PV : proper Ri) by exact (sub_proper Ri AA NV IV HPr).
  assert (LU : labelled Qi) by (intros x Hx; apply HLb, IU, Hx). assert (LV : labelled Ri) by (intros x Hx; apply HLb, IV, Hx).
  unfold QrModel.qqr. rewrite ES. cbn [obind].
  destruct Qi as [|x0 Qi0] eqn:EUi; [congruence|]. rewrite <- EUi in *. destruct Ri as [|y0 Ri0] eqn:EVi; [congruence|]. rewrite <- EVi in *. clear EUi EVi x0 y0 Qi0 Ri0.
  set (du := comb_dir dir None Qi) in *. set (dv := comb_dir dir None Ri) in *.
  destruct (C17_qn_made bs qns M Sx Sch dir du Qi HUn PU LU) as (qu & tu & Eu). rewrite Eu. cbn [obind].
  destruct (C17_qn_made bs qns M Sx Sch dir dv Ri HVn PV LV) as (qv & tv & Ev).
  set (qI := mk 2 qu) in *. set (rI := mk 3 qv) in *. set (Ru := comb_dirs ieq dir qI du) in *. set (Rv := comb_dirs ieq dir rI dv) in *.
  assert (uNA : ~ In qI AA) by apply Hfr. assert (vNA : ~ In rI AA) by apply Hfr.
  assert (uNV : qI <> rI) by (intros E; apply mk_inj in E; discriminate).
  assert (QCu : qcombines bs qns M Sx dir du qI Qi tu).
  { exists qu. split; [exact Eu|]. split; [apply mk_bs|]. split; [apply mk_qns|]. split; [constructor; auto|]. split; [exact PU|]. split; [exact LU|]. split; [apply comb_dir_ne|]. auto. }
  assert (QCv : qcombines bs qns M Sx dir dv rI Ri tv).
  { exists qv. split; [exact Ev|]. split; [apply mk_bs|]. split; [apply mk_qns|]. split; [constructor; auto|]. split; [exact PV|]. split; [exact LV|]. split; [apply comb_dir_ne|]. auto. }
  assert (RuC : Ru qI = du) by (unfold Ru, comb_dirs; now rewrite (proj2 (ieq_spec qI qI) eq_refl)).
  assert (RvC : Rv rI = dv) by (unfold Rv, comb_dirs; now rewrite (proj2 (ieq_spec rI rI) eq_refl)).
  assert (RuX : forall x, In x AA -> Ru x = arrow_neg (dir x)).
  { intros x Hx. unfold Ru, comb_dirs. destruct (ieq x qI) eqn:E; auto. apply ieq_spec in E. subst x. contradiction. }
  assert (RvX : forall x, In x AA -> Rv x = arrow_neg (dir x)).
  { intros x Hx. unfold Rv, comb_dirs. destruct (ieq x rI) eqn:E; auto. apply ieq_spec in E. subst x. contradiction. }
  destruct (C17_qn r0 ieq ieq_spec bs qns M Sx Sch dir du qI Qi tu QCu) as (Ju & JVu & _ & CMu & UNu).
  destruct (C17_qn r0 ieq ieq_spec bs qns M Sx Sch dir dv rI Ri tv QCv) as (Jv & JVv & CKv & CMv & UNv).
  destruct (CMu debug dir Ru AA A q HT uNA IU) as (N1 & A1 & E1 & M1 & (q1 & T1 & FQ1) & V1); auto.
  { split; [exact RuC|]. intros x Hx. apply RuX, IU, Hx. }
  rewrite E1. cbn [obind]. rewrite Ev. cbn [obind]. fold rI. fold Rv.
  set (dir1 := dirC ieq dir Ru AA) in *.
  assert (HvN1 : ~ In rI N1) by (intros K; apply M1 in K as [K|[K _]]; [congruence|contradiction]).
  assert (IVN : incl Ri N1) by (intros x Hx; apply M1; right; split; [apply IV, Hx|intros K; exact (DIS x K Hx)]).
  destruct (CMv debug dir1 Rv N1 A1 q1 T1 HvN1 IVN) as (N2 & A2 & E2 & M2 & (q2 & T2 & FQ2) & V2).
  { split; [exact RvC|]. intros x Hx. apply RvX, IV, Hx. }
  { intros x Hx. apply dirC_in, IV, Hx. }
  rewrite E2. cbn [obind].
  assert (uNVi : ~ In qI Ri) by (intros K; apply uNA, IV, K). assert (vNUi : ~ In rI Qi) by (intros K; apply vNA, IU, K).
  assert (P2 : Permutation N2 [qI; rI]).
  { apply NoDup_Permutation; [apply T2| |].
    - constructor; [cbn; intuition congruence|constructor; [cbn; auto|constructor]].
    - intros x. rewrite M2, M1. cbn. split.
      + intros [->|[[->|[K1 K2]] K3]]; auto. exfalso. pose proof (Permutation_in _ HPm K1) as K. apply in_app_or in K. tauto.
      + intros [<-|[<-|[]]]; auto. }
  set (dir2 := dirC ieq dir1 Rv N1) in *.
  assert (D2u : dir2 qI = du). { unfold dir2. rewrite dirC_in by (apply M1; now left). unfold dir1. rewrite dirC_out by exact uNA. exact RuC. }
  assert (D2v : dir2 rI = dv). { unfold dir2. rewrite dirC_out by exact HvN1. exact RvC. }
  assert (CDu : du <> ArrNeither) by apply comb_dir_ne. assert (CDv : dv <> ArrNeither) by apply comb_dir_ne.
  assert (NUm : numbering Qi (total qI) Ju) by exact JVu. assert (NVm : numbering Ri (total rI) Jv) by exact JVv.
  assert (J1 : forall s, ranged AA s -> ranged N1 (override ieq s qI (Ju s))).
  { intros s Hs x Hx. apply M1 in Hx as [->|[Hx _]].
    - rewrite (override_self ieq ieq_spec). apply NUm. intros y Hy. apply Hs, IU, Hy.
    - rewrite (override_ne ieq ieq_spec); [apply Hs, Hx|]. intros ->. contradiction. }
  assert (JvO : forall s x, Jv (override ieq s qI x) = Jv s).
  { intros s x. apply NVm. intros y Hy. apply (override_ne ieq ieq_spec). intros ->. contradiction. }
  assert (VA : forall s, ranged AA s -> qval AA A s = qval N2 A2 (fun y => if ieq qI y then Ju s else Jv s)).
  { intros s Hs. rewrite <- V1 by exact Hs. rewrite <- V2 by (apply J1, Hs). rewrite JvO. apply qval_eq. apply map_ext_in. intros x Hx. apply (Permutation_in _ P2) in Hx. destruct Hx as [<-|[<-|[]]].
    - rewrite (override_ne ieq ieq_spec) by congruence. rewrite (override_self ieq ieq_spec), (proj2 (ieq_spec qI qI) eq_refl). reflexivity.
    - rewrite (override_self ieq ieq_spec). destruct (ieq qI rI) eqn:E; [apply ieq_spec in E; contradiction|reflexivity]. }
  unfold QrModel.qqrOrd2. rewrite (Permutation_length P2). cbn [length Nat.eqb negb].
  pose proof (C17_qn_sectors bs qns M Sx Sch dir du qI Qi tu QCu) as SCu. pose proof (C17_qn_sectors bs qns M Sx Sch dir dv rI Ri tv QCv) as SCv.
  destruct (qqr2_spec r0 r1 radd rmul rsub ropp RT conj HC neg neg_opp lap Hlap ieq ieq_spec bs qns M Sx Sch mk mk_bs mk_qns complete positive dir2 N2 A2 qI rI q2 uNV T2 P2 SCu SCv)
    as [(l & Q & Rm & qR & E & (ql & El) & TQ & TR & EQ & OQ & OR & TL & HF)|[(E & K1)|(E & K1)]].
  { now rewrite D2u. } { now rewrite D2v. } { intros x. split; intros K; apply mk_inj in K; discriminate. }
  2:{ rewrite D2u, D2v in E. rewrite E. cbn [obind]. right. left. split; [reflexivity|]. destruct K1 as [K1|K1]; [left|now right]. intros s Hs. rewrite VA by exact Hs. now apply qval_noblocks. }
  2:{ rewrite D2u, D2v in E. rewrite E. cbn [obind]. right. right. split; [reflexivity|].
      assert (INr : In rI N2) by (eapply Permutation_in; [symmetry; exact P2|cbn; auto]). destruct T2 as (PR2 & LB2 & _). destruct (LB2 rI INr) as [LR CR]. rewrite Forall_forall in CR. destruct (proj2 PR2 rI INr) as [_ PP]. rewrite Forall_forall in PP.
      assert (BL : forall i, i < 3 -> exists s, ranged Ri s /\ blk (bs rI) (Jv s) = i).
      { intros i Hi. assert (Hi' : i < length (bs rI)) by (unfold QdSpec.nblocks in K1; lia). destruct (blk_glue (bs rI) i 0 Hi') as (B1 & _ & B3); [apply PP, nth_In, Hi'|].
        destruct (JVv) as (_ & _ & _ & SUR). destruct (SUR (start (bs rI) i + 0) (fun _ => 0) B3) as (s & Hs & Es & _). exists s. split; [exact Hs|]. now rewrite Es. }
      destruct (BL 0 ltac:(lia)) as (s1 & R1 & B1). destruct (BL 1 ltac:(lia)) as (s2 & R2 & B2). destruct (BL 2 ltac:(lia)) as (s3 & R3 & B3). exists s1, s2, s3.
      assert (DF : forall s s' i i', ranged Ri s -> ranged Ri s' -> blk (bs rI) (Jv s) = i -> blk (bs rI) (Jv s') = i' -> i < 3 -> i' < 3 -> i <> i' -> exists n, total_charge dir Ri s n <> total_charge dir Ri s' n).
      { intros s s' i i' Hs Hs' Ei Ei' Hi Hi' Ne. unfold QdSpec.nblocks in K1. assert (C1 : Charges M Sx (nth i (qns rI) qn0)) by (apply CR, nth_In; lia). assert (C2 : Charges M Sx (nth i' (qns rI) qn0)) by (apply CR, nth_In; lia).
        destruct (qn_differ _ _ C1 C2 (SCv i i' ltac:(lia) ltac:(lia) Ne)) as (n & Hn). exists n. unfold total_charge. rewrite <- !(CKv _ n) by assumption. unfold QCombProps.charge. rewrite Ei, Ei'. intros K. apply Hn.
        rewrite <- (qn_val_residue M Sx _ n Sch C1), <- (qn_val_residue M Sx _ n Sch C2). apply (sign_eq (arrow_int dv) _ 0%Z); [apply arrow_sign, CDv|exact K]. }
      split; [exact R1|]. split; [exact R2|]. split; [exact R3|]. split; [|split]; eapply DF; eauto; lia. }
  rewrite D2u, D2v in *. rewrite E. cbn [obind fst snd].
  assert (lA : ~ In l AA) by (rewrite El; apply Hfr).
  assert (ul : qI <> l) by (rewrite El; intros K; apply mk_inj in K; discriminate). assert (vl : l <> rI) by (rewrite El; intros K; apply mk_inj in K; discriminate).
  destruct (UNu debug (arrows2 ieq qI l du (arrow_neg du)) (fun x => arrow_neg (Ru x)) [qI; l] Q qn0 TQ) as (Qix & Q' & EU & MU & (qU & TUx & FU) & VU).
  { now left. } { intros x Hx [<-|[<-|[]]]; [apply uNA, IU, Hx|apply lA, IU, Hx]. }
  { split; [now rewrite RuC|]. intros x Hx. rewrite RuX by (apply IU, Hx). apply neg_neg, Hdir, IU, Hx. } { apply (arrows_x ieq ieq_spec). }
  destruct (UNv debug (arrows2 ieq l rI du dv) (fun x => arrow_neg (Rv x)) [l; rI] Rm qR TR) as (Rix & R' & EV & MV & (qV & TVx & FV) & VV).
  { right. now left. } { intros x Hx [<-|[<-|[]]]; [apply lA, IV, Hx|apply vNA, IV, Hx]. }
  { split; [now rewrite RvC|]. intros x Hx. rewrite RvX by (apply IV, Hx). apply neg_neg, Hdir, IV, Hx. } { now apply (arrows_l ieq ieq_spec). }
  rewrite EU. cbn [obind]. rewrite EV. cbn [obind]. left. exists Qix, Q', l, (total l), Rix, R', Jv, qR. split; [reflexivity|].
  rewrite (FU OQ) in TUx. rewrite (FV OR) in TVx.
  assert (MU' : forall x, In x Qix <-> x = l \/ In x Qi).
  { intros x. rewrite MU. cbn. split; [intros [K|[[<-|[<-|[]]] K]]; try tauto|]. intros [->|K]; auto. }
  assert (MV' : forall x, In x Rix <-> x = l \/ In x Ri).
  { intros x. rewrite MV. cbn. split; [intros [K|[[<-|[<-|[]]] K]]; try tauto|]. intros [->|K]; auto. }
  split.
  { eexists. split; [exact TUx|]. split.
    - rewrite dirC_in by (cbn; auto). now apply (arrows_l ieq ieq_spec).
    - intros x Hx. rewrite dirC_out; [rewrite RuX by (apply IU, Hx); apply neg_neg, Hdir, IU, Hx|]. intros [<-|[<-|[]]]; [apply uNA, IU, Hx|apply lA, IU, Hx]. }
  split.
  { eexists. split; [exact TVx|]. split.
    - rewrite dirC_in by (cbn; auto). apply (arrows_x ieq ieq_spec).
    - intros x Hx. rewrite dirC_out; [rewrite RvX by (apply IV, Hx); apply neg_neg, Hdir, IV, Hx|]. intros [<-|[<-|[]]]; [apply lA, IV, Hx|apply vNA, IV, Hx]. }
  split.
  { intros (s & Hs & Ns). assert (OA : offs A <> []) by (intros K; apply Ns; now apply qval_noblocks). assert (OA1 : offs A1 <> []).
    { intros K. apply Ns. rewrite <- V1 by exact Hs. now apply qval_noblocks. }
    rewrite (FQ2 OA1), (FQ1 OA) in EQ. exact EQ. }
  split; [exact lA|]. split; [reflexivity|]. split; [exact TL|]. split; [exact MU'|]. split; [exact MV'|].
  split. { pose proof (numbering_size ieq total ieq_spec Ri (total rI) Jv) as NS. rewrite <- NS; auto. }
  apply (qr_of_qrm r0 r1 radd rmul rsub ropp RT conj neg ieq total ieq_spec Qi Ri AA (total qI) (total rI) Ju Jv l (total l) complete positive _ _ _ _ _ _ HPm ND Hp NUm NVm lA HF VA).
  - intros s x Hs Hx. rewrite VU.
    + rewrite (qel_val r0 ieq ieq_spec bs) by exact ul. f_equal.
      * rewrite (override_self ieq ieq_spec). apply NUm. intros y Hy. apply (override_ne ieq ieq_spec). intros ->. apply lA, IU, Hy.
      * rewrite (override_ne ieq ieq_spec) by congruence. apply (override_self ieq ieq_spec).
    + intros y Hy. apply MU' in Hy as [->|Hy]; [rewrite (override_self ieq ieq_spec); exact Hx|].
      rewrite (override_ne ieq ieq_spec); [apply Hs, Hy|]. intros ->. apply lA, IU, Hy.
  - intros s x Hs Hx. rewrite VV.
    + rewrite (qel_val r0 ieq ieq_spec bs) by exact vl. f_equal.
      * rewrite (override_ne ieq ieq_spec) by congruence. apply (override_self ieq ieq_spec).
      * rewrite (override_self ieq ieq_spec). apply NVm. intros y Hy. apply (override_ne ieq ieq_spec). intros ->. apply lA, IV, Hy.
    + intros y Hy. apply MV' in Hy as [->|Hy]; [rewrite (override_self ieq ieq_spec); exact Hx|].
      rewrite (override_ne ieq ieq_spec); [apply Hs, Hy|]. intros ->. apply lA, IV, Hy.
Qed.
End Qqr.
