(** svd of a tensor with quantum numbers: combine, decompose the matrix, uncombine. *)
From Coq Require Import List ZArith Arith Lia Ring Bool Permutation Sorted.
From Verif Require Import Util RangeModel RangeSpec RangeProofs TensorModel TensorSpec TensorProofs SemProofs ContractModel DenseModel DenseProofs
  SmallStringModel QnModel QnSpec QnProofs QdModel QdSpec QdProofs QdFlux QdAdd QdSum CombinerModel CombinerProps QCombModel QCombProps
  SvdModel SvdSpec SvdRank SvdMat SvdFactor SvdBlocks SvdDense SvdQn SvdFill SvdQ2.
Import ListNotations.
Open Scope outcome_scope.
Local Arguments Nat.sub : simpl never.

Section Qsvd.
Context {R : Type} (r0 r1 : R) (radd rmul rsub : R -> R -> R) (ropp : R -> R).
Context (RT : ring_theory r0 r1 radd rmul rsub ropp eq).
Add Ring RRsqs2 : RT.
Context (conj : R -> R) (HC : conjugation radd rmul conj).
Context (gesdd gesvd : nat -> nat -> list R -> option (list R * list R * list R)).
Hypothesis Hdd : exact_lapack r0 r1 radd rmul conj gesdd.
Hypothesis Hvd : exact_lapack r0 r1 radd rmul conj gesvd.
Context {I : Type} (ieq : I -> I -> bool) (ieq_spec : forall a b, ieq a b = true <-> a = b).
Context (bs : I -> list nat) (qns : I -> list QN) (M : SmallString -> Z) (Sx : list SmallString) (Sch : Scheme M Sx).
Context (mk : nat -> list (QN * nat) -> I) (keep : list (list R) -> list nat).
Hypothesis Hkeep : keeps keep.
Hypothesis mk_bs : forall n q, bs (mk n q) = map snd q.
Hypothesis mk_qns : forall n q, qns (mk n q) = map fst q.
Hypothesis mk_inj : forall n n' q q', mk n q = mk n' q' -> n = n'.
Notation total := (total bs).
Notation proper := (proper bs).
Notation ranged := (ranged bs).
Notation qval := (qval r0 bs).
Notation stored := (stored bs).
Notation labelled := (labelled bs qns M Sx).
Notation nblocks := (nblocks bs).
Notation qtensor := (qtensor bs qns M Sx).
Notation sum := (sum_below r0 radd).
Notation kron := (kron r0 r1).
Notation cm := (cm r0).
Notation inner := (inner r0 radd rmul conj).
Notation ortho := (ortho r0 r1 radd rmul conj).
Notation rsum := (rsum r0 radd rmul).
Notation term := ((nat -> R) * R * (nat -> R))%type.
Notation z0 := (z0 r0).
Notation factored := (factored r0 r1 radd rmul conj).
Notation velt := (velt r0).
Notation mview := (@mview R).
Notation sblock := (nat * nat * list R * list R * list R)%type.
Notation SVDc := (SVDc r0 conj gesdd gesvd).
Notation decomposed := (decomposed r0 r1 radd rmul conj).
Notation put_block := (put_block (R:=R) bs).
Notation put_diag := (put_diag (R:=R) bs).
Notation fill_loop := (fill_loop (R:=R) bs).


Notation onb := (onb r0).
Notation fillm := (SvdModel.fill_loop (R:=R) bs).
Notation may_err := (may_err gesdd gesvd).

Notation qsvd := (qsvd r0 conj gesdd gesvd ieq bs qns mk keep).
Notation qsvd2 := (qsvd2 r0 conj gesdd gesvd ieq bs qns mk keep).
Notation qel := (qel r0 ieq bs).
Notation numbering := (numbering total).

Lemma dirC_in dl dr L x : In x L -> dirC ieq dl dr L x = dl x.
Proof. intros H. unfold dirC. replace (existsb (ieq x) L) with true; auto. symmetry. apply existsb_exists. exists x. split; auto. now apply ieq_spec. Qed.
Lemma dirC_out dl dr L x : ~ In x L -> dirC ieq dl dr L x = dr x.
Proof.
  intros H. unfold dirC. destruct (existsb (ieq x) L) eqn:E; auto. apply existsb_exists in E as (y & Hy & K). apply ieq_spec in K. subst. contradiction.
Qed.
Lemma comb_dir_ne (dir : I -> Arrow) cs : comb_dir dir None cs <> ArrNeither.
Proof. unfold comb_dir. destruct (all_in dir cs); discriminate. Qed.
Lemma neg_neg d : d <> ArrNeither -> arrow_neg (arrow_neg d) = d.
Proof. destruct d; cbn; congruence. Qed.
Lemma qval_noblocks L (A : qd R) s : offs A = [] -> qval L A s = r0.
Proof. intros E. unfold QdSpec.qval. now rewrite E. Qed.
Lemma sub_proper cs L : NoDup cs -> incl cs L -> proper L -> proper cs.
Proof. intros ND H [_ P]. split; [exact ND|]. intros x Hx. apply P, H, Hx. Qed.

(** The arrows of U (or V): those of A, and the one of the new index. *)
Definition arrows_of (dir : I -> Arrow) (cs : list I) (l : I) (dirU : I -> Arrow) : Prop :=
  dirU l = arrow_neg (comb_dir dir None cs) /\ forall x, In x cs -> dirU x = dir x.

Lemma qsvd_spec debug m dir AA A q Uis Vis Ui Vi : qtensor dir AA A q -> (forall x, In x AA -> dir x <> ArrNeither) -> (forall n d, ~ In (mk n d) AA) ->
  svd_split ieq debug AA Uis Vis = Ok (Ui, Vi) -> Ui <> [] -> Vi <> [] ->
  (exists Uix U l r D Vix V ds, qsvd debug m dir AA A Uis Vis = Ok ((Uix, U), (l, r, D), (Vix, V)) /\
     (exists dirU, qtensor dirU Uix U qn0 /\ arrows_of dir Ui l dirU) /\ (exists dirV, qtensor dirV Vix V qn0 /\ arrows_of dir Vi r dirV) /\
     ~ In l AA /\ ~ In r AA /\ l <> r /\ total l = length D /\ total r = length D /\ 0 < length D /\
     (forall x, In x Uix <-> x = l \/ In x Ui) /\ (forall x, In x Vix <-> x = r \/ In x Vi) /\
     svd_of r0 r1 radd rmul conj ieq total rsub AA Ui Vi (qval AA A) (qval Uix U) l r D (qval Vix V) ds (keep ds)) \/
  (qsvd debug m dir AA A Uis Vis = Err /\ ((forall s, ranged AA s -> qval AA A s = r0) \/ may_err m)) \/
  (qsvd debug m dir AA A Uis Vis = UB /\ m = MAuto /\ fails gesdd).
Proof.
  intros HT Hdir Hfr ES HUn HVn. pose proof HT as (HPr & HLb & _). pose proof HPr as [ND Hpr]. pose proof (split_spec ieq ieq_spec _ _ _ _ _ _ ES) as (HU & HV & HN). destruct (HN ND) as [NU NV].
  pose proof (split_perm ieq ieq_spec _ _ _ _ _ _ ND ES) as HPm.
  assert (Hp : forall x, In x AA -> 0 < total x) by (intros x Hx; exact (total_pos bs x AA HPr Hx)).
  assert (IU : incl Ui AA) by (intros x Hx; now apply HU). assert (IV : incl Vi AA) by (intros x Hx; now apply HV).
  assert (DIS : forall x, In x Ui -> ~ In x Vi) by (intros x K1 K2; apply HU in K1; apply HV in K2; tauto).
  assert (PU : proper Ui) by exact (sub_proper Ui AA NU IU HPr). assert (PV : proper Vi) by exact (sub_proper Vi AA NV IV HPr).
  assert (LU : labelled Ui) by (intros x Hx; apply HLb, IU, Hx). assert (LV : labelled Vi) by (intros x Hx; apply HLb, IV, Hx).
  unfold SvdModel.qsvd. rewrite ES. cbn [obind].
  destruct Ui as [|x0 Ui0] eqn:EUi; [congruence|]. rewrite <- EUi in *. destruct Vi as [|y0 Vi0] eqn:EVi; [congruence|]. rewrite <- EVi in *. clear EUi EVi x0 y0 Ui0 Vi0.
  set (du := comb_dir dir None Ui) in *. set (dv := comb_dir dir None Vi) in *.
  destruct (C17_qn_made bs qns M Sx Sch dir du Ui HUn PU LU) as (qu & tu & Eu). rewrite Eu. cbn [obind].
  destruct (C17_qn_made bs qns M Sx Sch dir dv Vi HVn PV LV) as (qv & tv & Ev).
  set (uI := mk 2 qu) in *. set (vI := mk 3 qv) in *. set (Ru := comb_dirs ieq dir uI du) in *. set (Rv := comb_dirs ieq dir vI dv) in *.
  assert (uNA : ~ In uI AA) by apply Hfr. assert (vNA : ~ In vI AA) by apply Hfr.
  assert (uNV : uI <> vI) by (intros E; apply mk_inj in E; discriminate).
  assert (QCu : qcombines bs qns M Sx dir du uI Ui tu).
  { exists qu. split; [exact Eu|]. split; [apply mk_bs|]. split; [apply mk_qns|]. split; [constructor; auto|]. split; [exact PU|]. split; [exact LU|]. split; [apply comb_dir_ne|]. auto. }
  assert (QCv : qcombines bs qns M Sx dir dv vI Vi tv).
  { exists qv. split; [exact Ev|]. split; [apply mk_bs|]. split; [apply mk_qns|]. split; [constructor; auto|]. split; [exact PV|]. split; [exact LV|]. split; [apply comb_dir_ne|]. auto. }
  assert (RuC : Ru uI = du) by (unfold Ru, comb_dirs; now rewrite (proj2 (ieq_spec uI uI) eq_refl)).
  assert (RvC : Rv vI = dv) by (unfold Rv, comb_dirs; now rewrite (proj2 (ieq_spec vI vI) eq_refl)).
  assert (RuX : forall x, In x AA -> Ru x = arrow_neg (dir x)).
  { intros x Hx. unfold Ru, comb_dirs. destruct (ieq x uI) eqn:E; auto. apply ieq_spec in E. subst x. contradiction. }
  assert (RvX : forall x, In x AA -> Rv x = arrow_neg (dir x)).
  { intros x Hx. unfold Rv, comb_dirs. destruct (ieq x vI) eqn:E; auto. apply ieq_spec in E. subst x. contradiction. }
  destruct (C17_qn r0 ieq ieq_spec bs qns M Sx Sch dir du uI Ui tu QCu) as (Ju & JVu & _ & CMu & UNu).
  destruct (C17_qn r0 ieq ieq_spec bs qns M Sx Sch dir dv vI Vi tv QCv) as (Jv & JVv & _ & CMv & UNv).
  destruct (CMu debug dir Ru AA A q HT uNA IU) as (N1 & A1 & E1 & M1 & (q1 & T1 & _) & V1); auto.
  { split; [exact RuC|]. intros x Hx. apply RuX, IU, Hx. }
  rewrite E1. cbn [obind]. rewrite Ev. cbn [obind]. fold vI. fold Rv.
  set (dir1 := dirC ieq dir Ru AA) in *.
  assert (HvN1 : ~ In vI N1) by (intros K; apply M1 in K as [K|[K _]]; [congruence|contradiction]).
  assert (IVN : incl Vi N1) by (intros x Hx; apply M1; right; split; [apply IV, Hx|intros K; exact (DIS x K Hx)]).
  destruct (CMv debug dir1 Rv N1 A1 q1 T1 HvN1 IVN) as (N2 & A2 & E2 & M2 & (q2 & T2 & _) & V2).
  { split; [exact RvC|]. intros x Hx. apply RvX, IV, Hx. }
  { intros x Hx. apply dirC_in, IV, Hx. }
  rewrite E2. cbn [obind].
  assert (uNVi : ~ In uI Vi) by (intros K; apply uNA, IV, K). assert (vNUi : ~ In vI Ui) by (intros K; apply vNA, IU, K).
  assert (P2 : Permutation N2 [uI; vI]).
  { apply NoDup_Permutation; [apply T2| |].
    - constructor; [cbn; intuition congruence|constructor; [cbn; auto|constructor]].
    - intros x. rewrite M2, M1. cbn. split.
      + intros [->|[[->|[K1 K2]] K3]]; auto. exfalso. pose proof (Permutation_in _ HPm K1) as K. apply in_app_or in K. tauto.
      + intros [<-|[<-|[]]]; auto. }
  set (dir2 := dirC ieq dir1 Rv N1) in *.
  assert (D2u : dir2 uI = du). { unfold dir2. rewrite dirC_in by (apply M1; now left). unfold dir1. rewrite dirC_out by exact uNA. exact RuC. }
  assert (D2v : dir2 vI = dv). { unfold dir2. rewrite dirC_out by exact HvN1. exact RvC. }
  assert (CDu : du <> ArrNeither) by apply comb_dir_ne. assert (CDv : dv <> ArrNeither) by apply comb_dir_ne.
  assert (NUm : numbering Ui (total uI) Ju) by exact JVu. assert (NVm : numbering Vi (total vI) Jv) by exact JVv.
  assert (J1 : forall s, ranged AA s -> ranged N1 (override ieq s uI (Ju s))).
  { intros s Hs x Hx. apply M1 in Hx as [->|[Hx _]].
    - rewrite (override_self ieq ieq_spec). apply NUm. intros y Hy. apply Hs, IU, Hy.
    - rewrite (override_ne ieq ieq_spec); [apply Hs, Hx|]. intros ->. contradiction. }
  assert (JvO : forall s x, Jv (override ieq s uI x) = Jv s).
  { intros s x. apply NVm. intros y Hy. apply (override_ne ieq ieq_spec). intros ->. contradiction. }
  assert (VA : forall s, ranged AA s -> qval AA A s = qval N2 A2 (fun y => if ieq uI y then Ju s else Jv s)).
  { intros s Hs. rewrite <- V1 by exact Hs. rewrite <- V2 by (apply J1, Hs). rewrite JvO. apply qval_eq. apply map_ext_in. intros x Hx. apply (Permutation_in _ P2) in Hx. destruct Hx as [<-|[<-|[]]].
    - rewrite (override_ne ieq ieq_spec) by congruence. rewrite (override_self ieq ieq_spec), (proj2 (ieq_spec uI uI) eq_refl). reflexivity.
    - rewrite (override_self ieq ieq_spec). destruct (ieq uI vI) eqn:E; [apply ieq_spec in E; contradiction|reflexivity]. }
  unfold SvdModel.qsvdOrd2. rewrite (Permutation_length P2). cbn [length Nat.eqb negb].
  destruct (qsvd2_spec r0 r1 radd rmul rsub ropp RT conj HC gesdd gesvd Hdd Hvd ieq ieq_spec bs qns M Sx Sch mk keep Hkeep mk_bs mk_qns m dir2 N2 A2 uI vI q2 uNV T2 P2)
    as [(l & r & U & D & V & ds & E & (ql & qr & El & Er) & TU & TV & OU & OV & TL & TR & DP & ED & HF)|[(E & K1)|(E & K1 & K2)]].
  { exact (C17_qn_sectors bs qns M Sx Sch dir du uI Ui tu QCu). } { exact (C17_qn_sectors bs qns M Sx Sch dir dv vI Vi tv QCv). }
  { now rewrite D2u. } { now rewrite D2v. } { intros n x Hn. split; intros K; apply mk_inj in K; lia. }
  2:{ rewrite D2u, D2v in E. rewrite E. cbn [obind]. right. left. split; [reflexivity|]. destruct K1 as [K1|K1]; [left|now right]. intros s Hs. rewrite VA by exact Hs. now apply qval_noblocks. }
  2:{ rewrite D2u, D2v in E. rewrite E. cbn [obind]. auto. }
  rewrite D2u, D2v in *. rewrite E. cbn [obind fst snd].
  assert (lA : ~ In l AA) by (rewrite El; apply Hfr). assert (rA : ~ In r AA) by (rewrite Er; apply Hfr).
  assert (ul : uI <> l) by (rewrite El; intros K; apply mk_inj in K; discriminate). assert (vr : vI <> r) by (rewrite Er; intros K; apply mk_inj in K; discriminate).
  destruct (UNu debug (arrows2 ieq uI l du (arrow_neg du)) (fun x => arrow_neg (Ru x)) [uI; l] U qn0 TU) as (Uix & U' & EU & MU & (qU & TUx & FU) & VU).
  { now left. } { intros x Hx [<-|[<-|[]]]; [apply uNA, IU, Hx|apply lA, IU, Hx]. }
  { split; [now rewrite RuC|]. intros x Hx. rewrite RuX by (apply IU, Hx). apply neg_neg, Hdir, IU, Hx. } { apply (arrows_x ieq ieq_spec). }
  destruct (UNv debug (arrows2 ieq vI r dv (arrow_neg dv)) (fun x => arrow_neg (Rv x)) [vI; r] V qn0 TV) as (Vix & V' & EV & MV & (qV & TVx & FV) & VV).
  { now left. } { intros x Hx [<-|[<-|[]]]; [apply vNA, IV, Hx|apply rA, IV, Hx]. }
  { split; [now rewrite RvC|]. intros x Hx. rewrite RvX by (apply IV, Hx). apply neg_neg, Hdir, IV, Hx. } { apply (arrows_x ieq ieq_spec). }
  rewrite EU. cbn [obind]. rewrite EV. cbn [obind]. left. exists Uix, U', l, r, D, Vix, V', ds. split; [reflexivity|].
  rewrite (FU OU) in TUx. rewrite (FV OV) in TVx.
  assert (MU' : forall x, In x Uix <-> x = l \/ In x Ui).
  { intros x. rewrite MU. cbn. split; [intros [K|[[<-|[<-|[]]] K]]; try tauto|]. intros [->|K]; auto. }
  assert (MV' : forall x, In x Vix <-> x = r \/ In x Vi).
  { intros x. rewrite MV. cbn. split; [intros [K|[[<-|[<-|[]]] K]]; try tauto|]. intros [->|K]; auto. }
  split.
  { eexists. split; [exact TUx|]. split.
    - rewrite dirC_in by (cbn; auto). now apply (arrows_l ieq ieq_spec).
    - intros x Hx. rewrite dirC_out; [rewrite RuX by (apply IU, Hx); apply neg_neg, Hdir, IU, Hx|]. intros [<-|[<-|[]]]; [apply uNA, IU, Hx|apply lA, IU, Hx]. }
  split.
  { eexists. split; [exact TVx|]. split.
    - rewrite dirC_in by (cbn; auto). now apply (arrows_l ieq ieq_spec).
    - intros x Hx. rewrite dirC_out; [rewrite RvX by (apply IV, Hx); apply neg_neg, Hdir, IV, Hx|]. intros [<-|[<-|[]]]; [apply vNA, IV, Hx|apply rA, IV, Hx]. }
  split; [exact lA|]. split; [exact rA|]. split; [rewrite El, Er; intros K; apply mk_inj in K; discriminate|]. split; [exact TL|]. split; [exact TR|]. split; [exact DP|].
  split; [exact MU'|]. split; [exact MV'|].
  assert (HUe : forall s x, ranged Ui s -> x < length D -> qval Uix U' (override ieq s l x) = qel uI l U (Ju s) x).
  { intros s x Hs Hx. rewrite VU.
    - rewrite (qel_val r0 ieq ieq_spec bs) by exact ul. f_equal.
      + rewrite (override_self ieq ieq_spec). apply NUm. intros y Hy. apply (override_ne ieq ieq_spec). intros ->. apply lA, IU, Hy.
      + rewrite (override_ne ieq ieq_spec) by congruence. apply (override_self ieq ieq_spec).
    - intros y Hy. apply MU' in Hy as [->|Hy]; [rewrite (override_self ieq ieq_spec), TL; exact Hx|].
      rewrite (override_ne ieq ieq_spec); [apply Hs, Hy|]. intros ->. apply lA, IU, Hy. }
  assert (HVe : forall s x, ranged Vi s -> x < length D -> qval Vix V' (override ieq s r x) = qel vI r V (Jv s) x).
  { intros s x Hs Hx. rewrite VV.
    - rewrite (qel_val r0 ieq ieq_spec bs) by exact vr. f_equal.
      + rewrite (override_self ieq ieq_spec). apply NVm. intros y Hy. apply (override_ne ieq ieq_spec). intros ->. apply rA, IV, Hy.
      + rewrite (override_ne ieq ieq_spec) by congruence. apply (override_self ieq ieq_spec).
    - intros y Hy. apply MV' in Hy as [->|Hy]; [rewrite (override_self ieq ieq_spec), TR; exact Hx|].
      rewrite (override_ne ieq ieq_spec); [apply Hs, Hy|]. intros ->. apply rA, IV, Hy. }
  split; [exact ED|]. split; [|split; [|split]].
  - apply (factors_isoU r0 r1 radd rmul rsub ropp RT conj ieq total ieq_spec Ui Vi AA _ _ Ju l HPm ND Hp NUm _ _ _ _ D _ HF HUe).
  - apply (factors_isoV r0 r1 radd rmul rsub ropp RT conj ieq total ieq_spec Ui Vi AA _ _ Jv r HPm ND Hp NVm _ _ _ _ D _ HF HVe).
  - intros s. apply (factors_error r0 r1 radd rmul rsub ropp RT conj HC ieq total ieq_spec Ui Vi AA _ _ Ju Jv l r HPm ND Hp NUm NVm _ _ _ _ _ _ D _ HF VA HUe HVe).
  - intros EDs s Hs. apply (factors_exact r0 r1 radd rmul rsub ropp RT conj ieq total Ui Vi AA _ _ Ju Jv l r HPm NUm NVm _ _ _ _ _ _ D _ HF VA HUe HVe s Hs EDs).
Qed.
End Qsvd.
