(** C45: the direct sum of two tensors with quantum numbers.  Vocabulary: QdSpec.v, QdFlux.v; [qtensor]
    is the well-formedness of QCombProps.v (a tensor all of whose blocks have flux q); [in_first],
    [in_second], [first_part], [second_part] are those of DirectSumProps.v.  The model is
    QDirectSumModel.v. *)
From Coq Require Import List ZArith Lia Bool Arith Permutation Sorted Ring.
From Verif Require Import Util RangeModel RangeSpec RangeProofs RangeProps TensorModel TensorSpec TensorProofs SemProofs
  ContractModel DenseModel DenseProofs LabelProofs SmallStringModel QnModel QnSpec QnProofs QnProps QdModel QdSpec QdProofs QdFlux QdAdd
  QdSum ProductProps ContractProps QdProps QdContractProps DiagProofs QCombProps DirectSumModel DirectSumProps QDirectSumModel QDirectSumProofs.
Import ListNotations.
Open Scope outcome_scope.
Local Arguments Nat.sub : simpl never.

Section Props.
Context {R : Type} (r0 r1 : R) (radd rmul rsub : R -> R -> R) (ropp : R -> R) (is0 : R -> bool).
Context (RT : ring_theory r0 r1 radd rmul rsub ropp (@eq R)).
Context (is0_spec : forall x, is0 x = true -> x = r0).
Add Ring RRqe : RT.
Context {I : Type} (ieq : I -> I -> bool) (ieq_spec : forall a b, ieq a b = true <-> a = b).
Context (bs : I -> list nat) (qns : I -> list QN) (M : SmallString -> Z) (S : list SmallString) (Sch : Scheme M S).
Context (srt : forall X : Type, (X -> X -> bool) -> list X -> list X) (Hsrt : sorts srt).
Notation total := (total bs).
Notation proper := (proper bs).
Notation ranged := (ranged bs).
Notation qval := (qval r0 bs).
Notation stored := (stored bs).
Notation labelled := (labelled bs qns M S).
Notation qtensor := (qtensor bs qns M S).
Notation qdirectSum := (qdirectSum r0 r1 radd rmul is0 ieq bs qns srt).
Notation in_first := (in_first total).
Notation in_second := (in_second total).
Notation first_part := (first_part ieq).
Notation second_part := (second_part ieq total).

Lemma SR : semi_ring_theory r0 r1 radd rmul (@eq R).
Proof. constructor; intros; ring. Qed.

(** The summed indices have the blocks of i followed by those of j. *)
Inductive qsums : list I -> list I -> list I -> Prop :=
| qsums_nil : qsums [] [] []
| qsums_cons i j k is js ks : bs k = bs i ++ bs j -> qns k = qns i ++ qns j -> qsums is js ks -> qsums (i :: is) (j :: js) (k :: ks).

(** directSum(i,j), for two indices with the same arrow, has these blocks. *)
Theorem C45_qn_index debug d i j : labelled [i; j] -> proper [i] ->
  exists siq, sum_blocks bs qns debug d d i j = Ok siq /\ map snd siq = bs i ++ bs j /\ map fst siq = qns i ++ qns j.
Proof.
  intros HL HP. unfold sum_blocks. rewrite (proj2 (arrow_eqb_spec d d) eq_refl). cbn [negb]. rewrite andb_false_r.
  destruct (HL i ltac:(now left)) as [L1 _]. destruct (HL j ltac:(right; now left)) as [L2 _].
  assert (G : forall (a : list QN) (b : list nat), length a = length b -> map snd (combine a b) = b /\ map fst (combine a b) = a).
  { induction a as [|x a IH]; intros [|y b] E; cbn in E; try discriminate; auto. destruct (IH b ltac:(lia)) as [E1 E2]. cbn. now rewrite E1, E2. }
  destruct (G _ _ L1) as [G1 G2]. destruct (G _ _ L2) as [G3 G4].
  exists (combine (qns i) (bs i) ++ combine (qns j) (bs j)). rewrite !map_app, G1, G2, G3, G4. split; auto.
  destruct (combine (qns i) (bs i)) eqn:E; [|reflexivity]. exfalso. cbn in G1. apply (proj1 (proj2 HP i (or_introl eq_refl))). now symmetry.
Qed.

Lemma qsums_len is js ks : qsums is js ks -> length is = length ks /\ length js = length ks.
Proof. induction 1; cbn; auto. lia. Qed.
Definition all_first := all_first total.
Definition all_second := all_second total.
Lemma qsums_sums is js ks : qsums is js ks -> (forall i, In i is -> 0 < total i) -> sums total is js ks.
Proof.
  induction 1 as [|i j k is js ks E1 E2 H IH]; intros HP; constructor.
  - unfold QdSpec.total, sum_dim. rewrite E1, list_sum_app. specialize (HP i (or_introl eq_refl)). unfold QdSpec.total in HP.
    destruct (Nat.eqb_spec (list_sum (bs i) + list_sum (bs j)) 0); auto. lia.
  - apply IH. intros; apply HP; now right.
Qed.
Lemma total_pos L x : proper L -> In x L -> 0 < total x.
Proof.
  intros [_ H] Hx. destruct (H x Hx) as [H1 H2]. unfold QdSpec.total. destruct (bs x) as [|n l]; [congruence|]. inversion H2; subst.
  change (list_sum (n :: l)) with (n + list_sum l). lia.
Qed.
Lemma arrow_of_ok dirA Ais d x : In x Ais -> d <> ArrNeither -> dirA x <> ArrNeither -> arrow_of ieq dirA Ais d x = Ok (dirA x).
Proof.
  intros H Hd Hx. unfold arrow_of. replace (existsb (ieq x) Ais) with true by (symmetry; apply existsb_exists; exists x; split; auto; now apply ieq_spec).
  f_equal. destruct (dirA x), d; cbn; congruence.
Qed.

Lemma pair_ok x k (da : Arrow) (dir : I -> Arrow) pre post qpre qpost L LL : bs k = pre ++ bs x ++ post -> qns k = qpre ++ qns x ++ qpost -> length qpre = length pre ->
  proper L -> labelled LL -> In x L -> In x LL -> x <> k -> Forall (fun n => 0 < n) (pre ++ post) -> Forall (Charges M S) (qpre ++ qpost) -> length qpost = length post ->
  proper [x; k] /\ labelled [x; k].
Proof.
  intros Hb Hq Hl PL HLL Hx Hx' Nxk F1 F2 Hl2. apply Forall_app in F1 as [F1 F1']. apply Forall_app in F2 as [F2 F2'].
  destruct (proj2 PL x Hx) as [Nx Fx]. destruct (HLL x Hx') as [Lx Cx].
  split.
  - split; [constructor; [intros [K|[]]; congruence|constructor; [intros []|constructor]]|]. intros y [<-|[<-|[]]]; auto. split.
    + rewrite Hb. intros K. apply app_eq_nil in K as [_ K]. apply app_eq_nil in K as [K _]. auto.
    + rewrite Hb. apply Forall_app. split; auto. apply Forall_app. auto.
  - intros y [<-|[<-|[]]]; auto. split.
    + rewrite Hb, Hq, !app_length. lia.
    + rewrite Hq. apply Forall_app. split; auto. apply Forall_app. auto.
Qed.

Lemma loop_ok debug junk cj Ais dirA Bis dirB dI dJ q is js ks : qsums is js ks -> forall La da (A : qd R) Lb db (B : qd R),
  qtensor da La A q -> qtensor db Lb B q ->
  NoDup is -> NoDup js -> NoDup ks -> incl is La -> incl js Lb -> incl is Ais -> incl js Bis ->
  (forall k, In k ks -> ~ In k La /\ ~ In k Lb /\ ~ In k is /\ ~ In k js) ->
  (forall i, In i is -> da i = dirA i /\ dirA i <> ArrNeither /\ dI i <> ArrNeither) ->
  (forall j, In j js -> db j = dirB j /\ dirB j <> ArrNeither /\ dJ j <> ArrNeither) ->
  Forall2 (fun i j => dirA i = dirB j) is js ->
  exists Na da' A' Nb db' B',
    qds_loop r0 r1 radd rmul is0 ieq bs qns srt debug Ais dirA Bis dirB dI dJ is js ks (La, da, A) (Lb, db, B) junk cj = Ok ((Na, da', A'), (Nb, db', B')) /\
    qtensor da' Na A' q /\ qtensor db' Nb B' q /\ (offs A' = [] <-> offs A = []) /\ (offs B' = [] <-> offs B = []) /\
    (forall x, In x Na <-> In x ks \/ (In x La /\ ~ In x is)) /\
    (forall x, In x Nb <-> In x ks \/ (In x Lb /\ ~ In x js)) /\
    (forall x, In x La -> ~ In x is -> da' x = da x) /\ (forall x, In x Lb -> ~ In x js -> db' x = db x) /\
    Forall2 (fun i k => da' k = dirA i /\ db' k = dirA i) is ks /\
    (forall s, ranged Na s -> qval Na A' s = if all_first is ks s then qval La A (first_part is ks s) else r0) /\
    (forall s, ranged Nb s -> qval Nb B' s = if all_second is ks s then qval Lb B (second_part is js ks s) else r0).
Proof.
  induction 1 as [|i j k is js ks Eb Eq H IH]; intros La da A Lb db B TA TB Ni Nj Nk Ii Ij Ii' Ij' Hk HdA HdB HdAB.
  - exists La, da, A, Lb, db, B. cbn [qds_loop]. split; [reflexivity|]. split; [exact TA|]. split; [exact TB|]. split; [reflexivity|]. split; [reflexivity|].
    cbn [In]. split; [tauto|]. split; [tauto|]. split; [auto|]. split; [auto|]. split; [constructor|]. split; intros s Hs; reflexivity.
  - apply NoDup_cons_iff in Ni as [Ni1 Ni2]. apply NoDup_cons_iff in Nj as [Nj1 Nj2]. apply NoDup_cons_iff in Nk as [Nk1 Nk2].
    inversion HdAB as [|? ? ? ? Dij HdAB']; subst.
    destruct (HdA i (or_introl eq_refl)) as (Da1 & Da2 & Da3). destruct (HdB j (or_introl eq_refl)) as (Db1 & Db2 & Db3).
    destruct (Hk k (or_introl eq_refl)) as (K1 & K2 & K3 & K4).
    assert (Hi : In i La) by (apply Ii; now left). assert (Hj : In j Lb) by (apply Ij; now left).
    pose proof TA as (PA & LA & _). pose proof TB as (PB & LB & _).
    assert (Nik : i <> k) by congruence. assert (Njk : j <> k) by congruence.
    cbn [qds_loop]. rewrite (arrow_of_ok dirA Ais (dI i) i), (arrow_of_ok dirB Bis (dJ j) j); auto; try (apply Ii'; now left); try (apply Ij'; now left). cbn [obind].
    rewrite <- Dij.
    destruct (C45_qn_index debug (dirA i) i j) as (siq & ES & _). { intros y [<-|[<-|[]]]; auto. } { split; [constructor; [intros []|constructor]|]. intros y [<-|[]]. now apply PA. }
    rewrite ES. cbn [obind].
    set (dir1 := fun x => if ieq x i then arrow_neg (dirA i) else dirA i). set (dir2 := fun x => if ieq x j then arrow_neg (dirA i) else dirA i).
    assert (F1i : dir1 i = arrow_neg (dirA i)) by (unfold dir1; now rewrite (ieq_refl ieq ieq_spec)).
    assert (F1k : dir1 k = dirA i) by (unfold dir1; rewrite (ieq_neq ieq ieq_spec); auto).
    assert (F2j : dir2 j = arrow_neg (dirA i)) by (unfold dir2; now rewrite (ieq_refl ieq ieq_spec)).
    assert (F2k : dir2 k = dirA i) by (unfold dir2; rewrite (ieq_neq ieq ieq_spec); auto).
    destruct (LA i Hi) as [LAi CAi]. destruct (LB j Hj) as [LBj CBj]. destruct (proj2 PA i Hi) as [_ FAi]. destruct (proj2 PB j Hj) as [_ FBj].
    destruct (pair_ok i k (dirA i) dir1 [] (bs j) [] (qns j) La La) as [Pik Lik]; auto.
    destruct (pair_ok j k (dirA i) dir2 (bs i) [] (qns i) [] Lb Lb) as [Pjk Ljk]; rewrite ?app_nil_r; auto.
    destruct (step_ok r0 r1 radd rmul is0 SR is0_spec ieq ieq_spec bs qns M S Sch srt Hsrt dir1 i k [] (bs j) [] (qns j) Nik Pik Lik Eb Eq eq_refl ltac:(congruence) ltac:(congruence)
       da La A q junk cj TA Hi K1 ltac:(congruence) ltac:(congruence)) as (D1 & N1 & C1 & ED1 & E1 & T1 & O1 & HN1 & HE1).
    destruct (step_ok r0 r1 radd rmul is0 SR is0_spec ieq ieq_spec bs qns M S Sch srt Hsrt dir2 j k (bs i) [] (qns i) [] Njk Pjk Ljk ltac:(now rewrite app_nil_r) ltac:(now rewrite app_nil_r) LAi ltac:(congruence) ltac:(congruence)
       db Lb B q junk cj TB Hj K2 ltac:(congruence) ltac:(congruence)) as (D2 & N2 & C2 & ED2 & E2 & T2 & O2 & HN2 & HE2).
    change (length (@nil nat)) with 0 in ED1. rewrite ED1. cbn [obind]. rewrite ED2. cbn [obind]. rewrite E1. cbn [obind]. rewrite E2. cbn [obind].
    assert (DCa : forall x, In x La -> dirC ieq da dir1 La x = da x).
    { intros x Hx. unfold dirC. replace (existsb (ieq x) La) with true; auto. symmetry. apply existsb_exists. exists x. split; auto. now apply ieq_spec. }
    assert (DCb : forall x, In x Lb -> dirC ieq db dir2 Lb x = db x).
    { intros x Hx. unfold dirC. replace (existsb (ieq x) Lb) with true; auto. symmetry. apply existsb_exists. exists x. split; auto. now apply ieq_spec. }
    assert (DKa : dirC ieq da dir1 La k = dirA i).
    { unfold dirC. destruct (existsb (ieq k) La) eqn:E; auto. exfalso. apply existsb_exists in E as (y & Hy & E). apply ieq_spec in E. subst. contradiction. }
    assert (DKb : dirC ieq db dir2 Lb k = dirA i).
    { unfold dirC. destruct (existsb (ieq k) Lb) eqn:E; auto. exfalso. apply existsb_exists in E as (y & Hy & E). apply ieq_spec in E. subst. contradiction. }
    destruct (IH N1 (dirC ieq da dir1 La) C1 N2 (dirC ieq db dir2 Lb) C2 T1 T2 Ni2 Nj2 Nk2) as (Na & da' & A' & Nb & db' & B' & EL & TA' & TB' & OA & OB & HNA & HNB & HDA & HDB & HDK & HA & HB).
    { intros x Hxi. apply HN1. right. split; [apply Ii; now right|congruence]. }
    { intros x Hxi. apply HN2. right. split; [apply Ij; now right|congruence]. }
    { intros x Hxi. apply Ii'. now right. } { intros x Hxi. apply Ij'. now right. }
    { intros k' Hk'. destruct (Hk k') as (Q1 & Q2 & Q3 & Q4); [now right|]. repeat split.
      - rewrite HN1. intros [->|[? ?]]; contradiction.
      - rewrite HN2. intros [->|[? ?]]; contradiction.
      - intros ?; apply Q3; now right.
      - intros ?; apply Q4; now right. }
    { intros x Hx. rewrite DCa by (apply Ii; now right). apply HdA. now right. }
    { intros x Hx. rewrite DCb by (apply Ij; now right). apply HdB. now right. }
    { exact HdAB'. }
    exists Na, da', A', Nb, db', B'. split; [exact EL|]. split; [exact TA'|]. split; [exact TB'|]. split; [now rewrite OA|]. split; [now rewrite OB|].
    assert (HNA' : forall x, In x Na <-> In x (k :: ks) \/ (In x La /\ ~ In x (i :: is))).
    { intros x. rewrite HNA, HN1. cbn [In]. split.
      - intros [Q|[[->|[Q1 Q2]] Q3]]; auto. right. split; auto. intros [->|]; auto.
      - intros [[->|Q]|[Q1 Q2]].
        + right. split; auto. intros Q; apply K3; now right.
        + now left.
        + right. split; [right; split; auto; intros ->|intros ?]; apply Q2; auto. }
    assert (HNB' : forall x, In x Nb <-> In x (k :: ks) \/ (In x Lb /\ ~ In x (j :: js))).
    { intros x. rewrite HNB, HN2. cbn [In]. split.
      - intros [Q|[[->|[Q1 Q2]] Q3]]; auto. right. split; auto. intros [->|]; auto.
      - intros [[->|Q]|[Q1 Q2]].
        + right. split; auto. intros Q; apply K4; now right.
        + now left.
        + right. split; [right; split; auto; intros ->|intros ?]; apply Q2; auto. }
    split; [exact HNA'|]. split; [exact HNB'|].
    split. { intros x Hx Hn. rewrite HDA; [now apply DCa|apply HN1; right; split; auto; intros ->; apply Hn; now left|intros Q; apply Hn; now right]. }
    split. { intros x Hx Hn. rewrite HDB; [now apply DCb|apply HN2; right; split; auto; intros ->; apply Hn; now left|intros Q; apply Hn; now right]. }
    split. { constructor; auto. rewrite HDA, HDB; auto; try (apply HN1; auto); try (apply HN2; auto); intros Q; [apply K4|apply K3]; now right. }
    assert (HSm : sums total is js ks) by (apply qsums_sums; auto; intros x Hx; apply (total_pos La); auto; apply Ii; now right).
    split.
    + intros s Hs. rewrite HA by auto. unfold all_first at 2, DirectSumProps.all_first. cbn [combine forallb fst snd]. fold (DirectSumProps.all_first total is ks s). fold (all_first is ks s).
      destruct (all_first is ks s) eqn:EF; [|now rewrite andb_false_r].
      pose proof (proj1 (all_first_iff total is js ks s HSm) EF) as EF'. rewrite andb_true_r.
      rewrite HE1.
      * unfold DirectSumProps.first_part. rewrite (put_other ieq ieq_spec _ is ks s k) by (intros ?; apply K3; now right). change (list_sum []) with 0. cbn [Nat.leb andb Nat.add].
        rewrite Nat.sub_0_r. reflexivity.
      * intros x Hx1. destruct (in_dec (ieq_dec ieq ieq_spec) x is) as [Q|Q]; [now apply (first_in ieq total ieq_spec is js ks s x HSm)|].
        unfold DirectSumProps.first_part. rewrite put_other by auto. apply Hs. apply HNA. auto.
    + intros s Hs. rewrite HB by auto. unfold all_second at 2, DirectSumProps.all_second. cbn [combine forallb fst snd]. fold (DirectSumProps.all_second total is ks s). fold (all_second is ks s).
      destruct (all_second is ks s) eqn:EF; [|now rewrite andb_false_r].
      pose proof (proj1 (all_second_iff total is js ks s HSm) EF) as EF'. rewrite andb_true_r.
      rewrite HE2.
      * rewrite (second_other ieq total ieq_spec is js ks s k) by (intros ?; apply K4; now right).
        assert (Hsk : s k < total k) by (apply Hs, HNB'; left; now left). unfold QdSpec.total in Hsk. rewrite Eb, list_sum_app in Hsk.
        destruct (Nat.ltb_spec (s k) (list_sum (bs i) + total j)) as [_|Q]; [|unfold QdSpec.total in Q; lia]. rewrite andb_true_r. reflexivity.
      * intros x Hx1. destruct (in_dec (ieq_dec ieq ieq_spec) x js) as [Q|Q].
        { apply (second_in ieq total ieq_spec is js); auto. - intros k' Hk'. apply Hs, HNB. auto. - intros j' Hj'. apply (total_pos Lb); auto. apply Ij. now right. }
        rewrite second_other by auto. apply Hs. apply HNB. auto.
Qed.

(** ** C45 *)
(** The direct sum of A and B, both of flux q, over the indices Is of A and Js of B whose arrows
    (pairwise) agree: whatever arrows the caller's copies of the indices have, in DEBUG and release
    builds, the result is a tensor of flux q; the summed indices have the blocks of i followed by
    those of j, and A's arrow; where all summed values lie in A's part the elements are A's, where
    all lie in B's part they are B's (the values shifted by dim(i)), and elsewhere they are zero.
    (A must store a block, or B none, or q be zero: otherwise the final addition fails, C21.) *)
Theorem C45_qn debug dirA A_is (A : qd R) dirB B_is (B : qd R) dI dJ Is Js IJs q junk cj :
  qtensor dirA A_is A q -> qtensor dirB B_is B q -> qsums Is Js IJs -> NoDup Is -> NoDup Js -> NoDup IJs ->
  incl Is A_is -> incl Js B_is -> A_is <> [] -> (forall k, In k IJs -> ~ In k A_is /\ ~ In k B_is) ->
  (forall x, (In x A_is /\ ~ In x Is) <-> (In x B_is /\ ~ In x Js)) ->
  (forall x, In x A_is -> ~ In x Is -> dirA x = dirB x) -> Forall2 (fun i j => dirA i = dirB j) Is Js ->
  (forall i, In i Is -> dirA i <> ArrNeither /\ dI i <> ArrNeither) -> (forall j, In j Js -> dirB j <> ArrNeither /\ dJ j <> ArrNeither) ->
  (offs A <> [] \/ offs B = [] \/ forall n, qn_val_of q n = 0%Z) ->
  exists N dirN C, qdirectSum debug dirA A_is A dirB B_is B dI dJ Is Js IJs junk cj = Ok (N, dirN, C) /\ qtensor dirN N C q /\
    (forall x, In x N <-> In x IJs \/ (In x A_is /\ ~ In x Is)) /\
    (forall x, In x A_is -> ~ In x Is -> dirN x = dirA x) /\ Forall2 (fun i k => dirN k = dirA i) Is IJs /\
    forall s, ranged N s -> exists v, qget r0 bs N C (map s N) = Ok v /\
      (Is <> [] -> in_first Is IJs s -> v = qval A_is A (first_part Is IJs s)) /\
      (Is <> [] -> in_second Is IJs s -> v = qval B_is B (second_part Is Js IJs s)) /\
      (~ in_first Is IJs s -> ~ in_second Is IJs s -> v = r0).
Proof.
  intros TA TB HS NI NJ NK II IJ NeA HK HO HD HDIJ HdI HdJ Hcase. unfold QDirectSumModel.qdirectSum.
  destruct (qsums_len _ _ _ HS) as [L1 L2]. replace (length Is =? length Js) with true by (symmetry; apply Nat.eqb_eq; congruence). cbn [negb].
  destruct (loop_ok debug junk cj A_is dirA B_is dirB dI dJ q Is Js IJs HS A_is dirA A B_is dirB B TA TB NI NJ NK II IJ II IJ)
    as (Na & da & A' & Nb & db & B' & E & TA' & TB' & OA & OB & HNA & HNB & HDA & HDB & HDK & HA & HB).
  { intros k Hk. destruct (HK k Hk) as [Q1 Q2]. repeat split; auto. }
  { intros i Hi. split; auto. } { intros j Hj. split; auto. } { exact HDIJ. }
  rewrite E. cbn [obind].
  pose proof TA' as (PA' & LA' & SA' & Cq & FA'). pose proof TB' as (PB' & LB' & SB' & _ & FB').
  assert (HP : Permutation Nb Na).
  { apply NoDup_Permutation; [apply PB'|apply PA'|]. intros x. rewrite HNA, HNB, HO. reflexivity. }
  assert (NeN : Na <> []).
  { intros Q. destruct A_is as [|x A_is]; [congruence|]. destruct (in_dec (ieq_dec ieq ieq_spec) x Is) as [Qx|Qx].
    - destruct HS as [|i j k is js ks ? ? ?]; [destruct Qx|]. assert (In k Na) by (apply HNA; left; now left). rewrite Q in *. contradiction.
    - assert (In x Na) by (apply HNA; right; split; [now left|auto]). rewrite Q in *. contradiction. }
  assert (DD : forall x, In x Na -> da x = db x).
  { intros x Hx. apply HNA in Hx as [Hx|[Hx Hn]].
    - clear -HDK Hx. induction HDK as [|i k is ks [E1 E2] HF IH]; [destruct Hx|]. destruct Hx as [<-|Hx]; [congruence|auto].
    - rewrite HDA by auto. assert (Q : In x B_is /\ ~ In x Js) by (apply HO; auto). rewrite HDB by tauto. apply HD; auto. }
  destruct (C21_add R r0 r1 radd rmul rsub ropp RT I ieq ieq_spec bs qns srt Hsrt M S da db Na Nb A' B' r1 q Sch LA' Cq PA' NeN HP SA' SB' DD FA' FB') as (C & EC & SC & FC & VC).
  { destruct Hcase as [Q|[Q|Q]]; [left; rewrite OA; exact Q|right; left; now apply OB|auto]. }
  rewrite EC. cbn [obind]. exists Na, da, C. split; [reflexivity|]. split; [split; [exact PA'|]; split; [exact LA'|]; split; [exact SC|]; split; [exact Cq|exact FC]|].
  split; [exact HNA|]. split; [exact HDA|]. split; [clear -HDK; induction HDK as [|? ? ? ? [? ?]]; constructor; auto|].
  intros s Hs. rewrite VC by exact Hs. eexists. split; [reflexivity|].
  assert (Hs' : ranged Nb s). { intros x Hx. apply Hs. eapply Permutation_in; [exact HP|exact Hx]. }
  rewrite HA, HB by auto.
  assert (HSm : sums total Is Js IJs) by (apply qsums_sums; auto; intros x Hx; apply (total_pos A_is); [apply TA|auto]).
  pose proof (all_first_iff total Is Js IJs s HSm) as F1. pose proof (all_second_iff total Is Js IJs s HSm) as F2. fold all_first in F1. fold all_second in F2.
  assert (F12 : Is <> [] -> in_first Is IJs s -> in_second Is IJs s -> False).
  { intros Ne Q1 Q2. destruct Q1; [congruence|]. inversion Q2; subst. lia. }
  split; [|split].
  - intros Ne Q1. rewrite (proj2 F1 Q1). destruct (all_second Is IJs s) eqn:Q2; [exfalso; apply (F12 Ne Q1), F2; auto|ring].
  - intros Ne Q1. rewrite (proj2 F2 Q1). destruct (all_first Is IJs s) eqn:Q2; [exfalso; apply (F12 Ne); auto; apply F1; auto|ring].
  - intros Q1 Q2. destruct (all_first Is IJs s) eqn:Q3; [exfalso; apply Q1, F1; auto|]. destruct (all_second Is IJs s) eqn:Q4; [exfalso; apply Q2, F2; auto|ring].
Qed.
(** The two lists must have the same length. *)
Theorem C45_qn_lengths debug dirA A_is (A : qd R) dirB B_is (B : qd R) dI dJ Is Js IJs junk cj : length Is <> length Js ->
  qdirectSum debug dirA A_is A dirB B_is B dI dJ Is Js IJs junk cj = Err.
Proof. intros H. unfold QDirectSumModel.qdirectSum. destruct (Nat.eqb_spec (length Is) (length Js)); [contradiction|reflexivity]. Qed.
(** An index to sum that its tensor does not have stops the call. *)
Theorem C45_qn_missing debug dirA A_is (A : qd R) dirB B_is (B : qd R) dI dJ i Is j Js k IJs junk cj : length Is = length Js -> ~ In i A_is \/ ~ In j B_is ->
  qdirectSum debug dirA A_is A dirB B_is B dI dJ (i :: Is) (j :: Js) (k :: IJs) junk cj = Err.
Proof.
  intros H Hm. unfold QDirectSumModel.qdirectSum. cbn [length Nat.eqb]. rewrite H, Nat.eqb_refl. cbn [negb qds_loop].
  assert (E : forall (x : I) L, ~ In x L -> existsb (ieq x) L = false).
  { intros x L Hx. destruct (existsb (ieq x) L) eqn:E; auto. exfalso. apply existsb_exists in E as (y & Hy & E). apply ieq_spec in E. subst. contradiction. }
  unfold arrow_of. destruct Hm as [Hm|Hm].
  - rewrite (E _ _ Hm). reflexivity.
  - rewrite (E _ _ Hm). destruct (existsb (ieq i) A_is); reflexivity.
Qed.
(** In DEBUG builds two indices whose arrows in their tensors are opposite are refused. *)
Theorem C45_qn_debug_opposite_arrows dirA A_is (A : qd R) dirB B_is (B : qd R) dI dJ i Is j Js k IJs junk cj : length Is = length Js -> In i A_is -> In j B_is ->
  dirA i <> ArrNeither -> dI i <> ArrNeither -> dirB j <> ArrNeither -> dJ j <> ArrNeither -> dirA i <> dirB j ->
  qdirectSum true dirA A_is A dirB B_is B dI dJ (i :: Is) (j :: Js) (k :: IJs) junk cj = Err.
Proof.
  intros H Hi Hj N1 N2 N3 N4 HD. unfold QDirectSumModel.qdirectSum. cbn [length Nat.eqb]. rewrite H, Nat.eqb_refl. cbn [negb qds_loop].
  rewrite !arrow_of_ok; auto. cbn [obind]. unfold sum_blocks. cbn [andb].
  destruct (arrow_eqb (dirA i) (dirB j)) eqn:E; [apply arrow_eqb_spec in E; contradiction|reflexivity].
Qed.
End Props.

(** ** Examples *)
Definition qds_bs (x : nat) : list nat := if x =? 9 then [1; 2; 1; 2] else [1; 2].
Definition qds_qns (x : nat) : list QN := if x =? 9 then c20_qns 0 ++ c20_qns 0 else c20_qns 0.
Definition qds_dir (x : nat) : Arrow := if x =? 1 then ArrIn else ArrOut.
Definition qds_A : qd Z := mkQD [([0; 0], 0); ([1; 1], 1)] [1; 2; 3; 4; 5]%Z.
Definition qds_B : qd Z := mkQD [([0; 0], 0); ([1; 1], 1)] [6; 7; 8; 9; 10]%Z.
(** Summing index 0 of A (indices 0,1) and index 2 of B (indices 2,1), the indices given with
    opposite arrow; both tensors have a 1x1 and a 2x2 block. *)
Lemma qds_tensor x l : x = 0 \/ x = 2 -> length l = 5 ->
  qtensor qds_bs qds_qns ex_mod ex_names qds_dir [x; 1] (mkQD [([0; 0], 0); ([1; 1], 1)] l : qd Z) qn0.
Proof.
  intros [-> | ->] EL.
  all: split; [split; [repeat constructor; cbn; intuition discriminate|]; intros x [<-|[<-|[]]]; cbn; (split; [discriminate|repeat constructor])|].
  all: split; [intros x [<-|[<-|[]]]; (split; [reflexivity|]); (constructor; [constructor|]; constructor; [exact ex_charges1|constructor])|].
  all: split; [split; cbn; rewrite ?EL; [|repeat constructor; cbn; lia]; repeat split; auto; repeat constructor; cbn; lia|].
  all: split; [constructor|]; intros b Hb n; cbn in Hb; destruct Hb as [<-|[<-|[]]]; rewrite <- qn0_val; unfold qds_qns, qds_dir, c20_qns; cbn [flux_val Nat.eqb nth arrow_int]; rewrite <- ?qn0_val;
    match goal with |- residue _ ?z = 0%Z => replace z with 0%Z by ring end; apply residue_0.
Qed.
Example C45_qn_nonvacuous : Scheme ex_mod ex_names /\ qtensor qds_bs qds_qns ex_mod ex_names qds_dir [0; 1] qds_A qn0 /\
  qtensor qds_bs qds_qns ex_mod ex_names qds_dir [2; 1] qds_B qn0 /\ qsums qds_bs qds_qns [0] [2] [9] /\
  match qdirectSum 0%Z 1%Z Z.add Z.mul (Z.eqb 0) Nat.eqb qds_bs qds_qns isort true qds_dir [0; 1] qds_A qds_dir [2; 1] qds_B (fun _ => ArrIn) (fun _ => ArrOut) [0] [2] [9] (fun _ => 77%Z) (fun _ _ => 5%Z) with
  | Ok (N, dirN, C) => N = [1; 9] /\ dirN 9 = ArrOut /\ dirN 1 = ArrIn /\
      map (fun v => match qget 0%Z qds_bs N C v with Ok x => x | _ => (-1)%Z end) [[0; 0]; [1; 1]; [2; 1]; [1; 0]; [0; 3]; [1; 4]; [2; 5]; [0; 4]] = [1; 2; 4; 0; 6; 7; 10; 0]%Z
  | _ => False
  end.
Proof.
  split; [exact ex_scheme|]. split; [apply qds_tensor; auto|]. split; [apply qds_tensor; auto|].
  split; [constructor; [reflexivity|reflexivity|constructor]|]. vm_compute. auto 6.
Qed.
(** Full statement: directSum of tensors whose summed indices have opposite arrows is refused or
    correct.  It is false in release builds: the second selector then lacks a block, and the code
    writes through a null pointer. *)
Definition qds_B2 : qd Z := mkQD [([0; 0], 0)] [6]%Z.
Theorem C45_qn_opposite_arrows_refuted :
  exists dirB, qtensor qds_bs qds_qns ex_mod ex_names qds_dir [0; 1] qds_A qn0 /\ qtensor qds_bs qds_qns ex_mod ex_names dirB [2; 1] qds_B2 qn0 /\
  dirB 2 = arrow_neg (qds_dir 0) /\ dirB 1 = qds_dir 1 /\
  qdirectSum 0%Z 1%Z Z.add Z.mul (Z.eqb 0) Nat.eqb qds_bs qds_qns isort false qds_dir [0; 1] qds_A dirB [2; 1] qds_B2 qds_dir dirB [0] [2] [9] (fun _ => 77%Z) (fun _ _ => 5%Z) = UB.
Proof.
  exists (fun _ => ArrIn). split; [apply qds_tensor; auto|]. split.
  { split; [split; [repeat constructor; cbn; intuition discriminate|]; intros x [<-|[<-|[]]]; cbn; (split; [discriminate|repeat constructor])|].
    split; [intros x [<-|[<-|[]]]; (split; [reflexivity|]); (constructor; [constructor|]; constructor; [exact ex_charges1|constructor])|].
    split; [split; cbn; [|repeat constructor]; repeat split; auto; repeat constructor; cbn; lia|].
    split; [constructor|]. intros b Hb n. cbn in Hb. destruct Hb as [<-|[]]; rewrite <- qn0_val; unfold qds_qns, c20_qns; cbn [flux_val Nat.eqb nth arrow_int]; rewrite <- ?qn0_val;
    match goal with |- residue _ ?z = 0%Z => replace z with 0%Z by ring end; apply residue_0. }
  split; [reflexivity|]. split; [reflexivity|]. vm_compute. reflexivity.
Qed.

Print Assumptions C45_qn_index.
Print Assumptions C45_qn.
Print Assumptions C45_qn_lengths.
Print Assumptions C45_qn_missing.
Print Assumptions C45_qn_debug_opposite_arrows.
Print Assumptions C45_qn_opposite_arrows_refuted.
