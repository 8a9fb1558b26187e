(** Properties of contraction of tensors with quantum numbers: C22 (values, flux), C23 (threads). *)
From Coq Require Import List ZArith Lia Bool Arith Permutation Sorted Ring SpecFloat.
From Verif Require Import Util RangeModel RangeSpec RangeProofs RangeProps TensorModel TensorSpec TensorProofs SemProofs
  ContractModel DenseModel DenseProofs LabelProofs SmallStringModel QnModel QnSpec QnProofs QnProps QdModel QdSpec QdProofs QdFlux QdAdd
  QdKernel QdEntries QdLoop QdSum QdDense QdPar ProductProps ContractProps QdProps.
Import ListNotations.
Open Scope outcome_scope.
Local Arguments Nat.sub : simpl never.

(** ** Everything before the loop; nothing is assumed of the numbers *)
Section Setup.
Context {R : Type} (r0 : R) {I : Type} (ieq : I -> I -> bool) (ieq_spec : forall a b, ieq a b = true <-> a = b) (bs : I -> list nat).
Context (srt : forall X : Type, (X -> X -> bool) -> list X -> list X) (Hsrt : sorts srt).
Variables (L Rr : list I) (A B : qd R).
Hypothesis NL : NoDup L.
Hypothesis NR : NoDup Rr.
Hypothesis HA : stored bs L A.
Hypothesis HB : stored bs Rr B.
Notation N := (only ieq L Rr ++ only ieq Rr L).
Notation E0 := (entries_of ieq bs L Rr (map fst (offs A)) (map fst (offs B))).

Lemma stored_fst_valid is (d : qd R) b : stored bs is d -> In b (map fst (offs d)) -> valid (map (nblocks bs) is) b.
Proof. intros H Hb. pose proof (stored_valid bs is d H) as V. rewrite Forall_forall in V. apply in_map_iff in Hb as (e & <- & He). apply V. exact He. Qed.

Lemma setup_spec entries es junk cj : entries N = Ok es -> Permutation es E0 ->
  exists co n, setup r0 ieq srt entries L A Rr B junk cj = Ok (ctx ieq L Rr A B co cj, map fst es, (map junk (seq 0 n), repeat r0 (length co))) /\
    filled bs N 0 co n /\ StronglySorted (keyed bs N) co /\
    (forall c, In c (map fst co) <-> In c (map snd (map fst E0))) /\
    Forall (good ieq L Rr A B co) (map fst es) /\ Forall (fun t => valid (map (nblocks bs) N) (snd t)) (map fst es).
Proof.
  intros EE HP. unfold setup. rewrite computeLabels_spec by auto. cbn [obind]. rewrite contractIS_spec by auto. rewrite EE. cbn [obind].
  assert (V : forall e, In e E0 -> valid (map (nblocks bs) N) (snd (fst e)) /\ snd e = sz bs N (snd (fst e))).
  { intros e He. apply in_entries in He as (a & b & Ha & Hb & HM & ->). cbn [fst snd mkentry]. split; [|reflexivity].
    apply cblock_valid; auto; eapply stored_fst_valid; eauto. }
  pose proof (coffsets_spec ieq bs srt Hsrt L Rr es (store A)) as K. destruct (coffsets srt es) as [co n].
  destruct K as (F & S & HM). { apply Forall_forall. intros e He. apply V. eapply Permutation_in; eauto. }
  assert (HM' : forall c, In c (map fst co) <-> In c (map snd (map fst E0))).
  { intros c. rewrite HM. rewrite !map_map. split; apply Permutation_in; apply Permutation_map; [|symmetry]; auto. }
  exists co, n. split; [reflexivity|]. split; [exact F|]. split; [exact S|]. split; [exact HM'|]. split.
  - apply Forall_forall. intros t Ht. apply in_map_iff in Ht as (e & <- & He). eapply Permutation_in in He; [|exact HP].
    pose proof He as He'. apply in_entries in He as (a & b & Ha & Hb & HMt & ->). exists a, b. cbn [fst mkentry]. split; [reflexivity|].
    split; auto. split; auto. split; auto. apply HM'. apply in_map_iff. exists (fst (mkentry ieq bs L Rr a b)). split; [reflexivity|]. apply in_map. exact He'.
  - apply Forall_forall. intros t Ht. apply in_map_iff in Ht as (e & <- & He). apply V. eapply Permutation_in; eauto.
Qed.

Lemma filled_len is : forall (l : list blof) o n n', filled bs is o l n -> filled bs is o l n' -> n = n'.
Proof. induction l as [|[b x] l IH]; intros o n n' H H'; cbn in H, H'; [congruence|]. destruct H as (_ & _ & H), H' as (_ & _ & H'). eapply IH; eauto. Qed.

Lemma start_ok co n junk : filled bs N 0 co n -> StronglySorted (keyed bs N) co -> okst ieq bs L Rr co ((map junk (seq 0 n), repeat r0 (length co)) : cstate (R := R)).
Proof.
  intros F S. split; cbn [fst snd]; [|apply repeat_length]. split; cbn [offs store]; [|exact S]. rewrite map_length, seq_length. exact F.
Qed.
Lemma nth_repeat0 k p : nth p (repeat r0 k) r0 = r0.
Proof. revert p. induction k; intros [|p]; cbn; auto. Qed.

(** the tasks *)
Lemma omp_setup_spec sched junk cj : Permutation (concat sched) (seq 0 (length (offs A))) ->
  exists co n tasks, omp_setup r0 ieq bs srt sched L A Rr B junk cj = Ok (ctx ieq L Rr A B co cj, tasks, (map junk (seq 0 n), repeat r0 (length co))) /\
    filled bs N 0 co n /\ StronglySorted (keyed bs N) co /\
    (forall c, In c (map fst co) <-> In c (map snd (map fst E0))) /\
    Permutation (concat tasks) (map fst E0) /\ Forall (good ieq L Rr A B co) (concat tasks) /\
    (forall g t u, In g tasks -> In t g -> In u g -> snd t = snd u) /\ separate tasks /\ length tasks = length co.
Proof.
  intros HP. destruct (contracted_omp_spec ieq ieq_spec bs L Rr NL NR A B sched HA HB HP) as (es & Ees & HPe).
  destruct (setup_spec (fun Nis => contracted_omp ieq bs sched L Rr Nis A B) es junk cj Ees HPe) as (co & n & E & F & S & HM & HG & HV).
  unfold omp_setup. rewrite E. cbn [obind]. unfold ctx at 1. cbn [cOffs].
  destruct (omp_tasks_spec srt Hsrt (map (nblocks bs) N) (length co) (map fst es) HV) as (tasks & ET & P1 & P2 & P3 & P4).
  { exists (map fst co). split; [|split].
    - pose proof (stored_nodup bs N (mkQD co (map junk (seq 0 n))) (proj1 (start_ok co n junk F S))) as K. exact K.
    - apply map_length.
    - intros c. rewrite HM. split; apply Permutation_in; apply Permutation_map; apply Permutation_map; [symmetry|]; auto. }
  rewrite ET. cbn [obind]. exists co, n, tasks. split; [reflexivity|]. split; auto. split; auto. split; auto.
  split; [rewrite P1; apply Permutation_map; exact HPe|]. split; [eapply Permutation_Forall; [symmetry; exact P1|exact HG]|]. split; [exact P2|]. split; [exact P3|exact P4].
Qed.
End Setup.

Section C22.
Context (R : Type) (r0 r1 : R) (radd rmul : R -> R -> R) (is0 : R -> bool).
Context (SR : semi_ring_theory r0 r1 radd rmul (@eq R)).
Context (is0_spec : forall x, is0 x = true -> x = r0).
Add Ring RRqc : SR.
Context (I : Type) (ieq : I -> I -> bool) (ieq_spec : forall a b, ieq a b = true <-> a = b) (bs : I -> list nat).
Context (srt : forall X : Type, (X -> X -> bool) -> list X -> list X) (Hsrt : sorts srt).
Notation qval := (qval r0 bs).
Notation qtimes := (qtimes r0 r1 radd rmul is0 ieq bs srt).
Notation qcontract := (qcontract r0 r1 radd rmul is0 ieq bs srt).
Notation par := (par r0 r1 radd rmul is0 bs).
Notation omp_setup := (omp_setup r0 ieq bs srt).
Notation prodsum L A Rr B s := (sum_over r0 radd ieq (total bs) (common ieq L Rr) (fun t => rmul (qval L A t) (qval Rr B t)) s).

Lemma proper_N L Rr : proper bs L -> proper bs Rr -> proper bs (only ieq L Rr ++ only ieq Rr L).
Proof.
  intros PL PR. split; [apply nodup_N; auto; [apply PL|apply PR]|]. intros x Hx. apply (in_N ieq ieq_spec bs) in Hx as [[H _]|[H _]]; [apply PL|apply PR]; auto.
Qed.

(** what any complete run leaves behind *)
Lemma run_value L Rr A B co ts (st : cstate (R := R)) : proper bs L -> proper bs Rr -> stored bs L A -> stored bs Rr B ->
  QdLoop.inv r0 r1 radd rmul ieq bs L Rr A B co ts st -> Forall (good ieq L Rr A B co) ts ->
  (forall c, In c (map fst co) <-> In c (map snd (map fst (entries_of ieq bs L Rr (map fst (offs A)) (map fst (offs B)))))) ->
  Permutation ts (map fst (entries_of ieq bs L Rr (map fst (offs A)) (map fst (offs B)))) ->
  let N := only ieq L Rr ++ only ieq Rr L in
  stored bs N (mkQD co (fst st)) /\ forall s, ranged bs N s -> qval N (mkQD co (fst st)) s = prodsum L A Rr B s.
Proof.
  intros PL PR HA HB HI HG HM HP N.
  assert (HI' : QdLoop.inv r0 r1 radd rmul ieq bs L Rr A B co (map fst (entries_of ieq bs L Rr (map fst (offs A)) (map fst (offs B)))) st) by (eapply inv_perm; eauto).
  assert (HG' : Forall (good ieq L Rr A B co) (map fst (entries_of ieq bs L Rr (map fst (offs A)) (map fst (offs B))))) by (eapply Permutation_Forall; eauto).
  destruct (inv_value r0 r1 radd rmul ieq bs L Rr A B co _ st HI' HG') as [S V]. { intros c Hc. apply HM. exact Hc. }
  split; [exact S|]. intros s Hs. rewrite V by exact Hs. symmetry. apply (product_sum r0 r1 radd rmul SR ieq ieq_spec bs L Rr PL PR A B HA HB s Hs).
Qed.

Lemma qcontract_spec L A Rr B junk cj : proper bs L -> proper bs Rr -> stored bs L A -> stored bs Rr B ->
  let N := only ieq L Rr ++ only ieq Rr L in
  exists C, qcontract L A Rr B junk cj = Ok (N, C) /\ stored bs N C /\ (forall s, ranged bs N s -> qval N C s = prodsum L A Rr B s) /\
    forall c, has_block C c <-> In c (map snd (map fst (entries_of ieq bs L Rr (map fst (offs A)) (map fst (offs B))))).
Proof.
  intros PL PR HA HB N. pose proof (proj1 PL) as NL. pose proof (proj1 PR) as NR.
  destruct (setup_spec r0 ieq ieq_spec bs srt Hsrt L Rr A B NL NR HA HB (fun Nis => contracted_serial ieq bs L Rr Nis A B) _ junk cj
     (contracted_serial_spec ieq ieq_spec bs L Rr NL NR A B HA HB) (Permutation_refl _)) as (co & n & E & F & S & HM & HG & HV).
  unfold QdModel.qcontract. rewrite E. cbn [obind].
  destruct (loop_inv r0 r1 radd rmul is0 SR is0_spec ieq ieq_spec bs L Rr PL PR A B HA HB co cj _ [] _ HG
    (inv_start r0 r1 radd rmul ieq bs L Rr A B co _ (start_ok r0 ieq bs L Rr co n junk F S) (nth_repeat0 r0 (length co)))) as (st' & EL & HI).
  rewrite app_nil_r in HI.
  destruct (run_value L Rr A B co _ st' PL PR HA HB HI HG HM (Permutation_refl _)) as [SC VC].
  exists (mkQD co (fst st')). split; [refine (eq_trans (f_equal (fun o => obind o _) EL) _); reflexivity|]. split; [exact SC|]. split; [exact VC|]. exact HM.
Qed.

Lemma only_nil_r L : only ieq L [] = L.
Proof. induction L as [|x L IH]; [reflexivity|]. change (x :: only ieq L [] = x :: L). rewrite IH. reflexivity. Qed.
Lemma qmult_stored is z (d : qd R) : stored bs is d -> stored bs is (qmult rmul z d).
Proof. intros [H S]. split; cbn [offs store qmult]; [rewrite map_length|]; auto. Qed.
Lemma qmult_val is z (d : qd R) s : stored bs is d -> ranged bs is s -> qval is (qmult rmul z d) s = rmul (qval is d s) z.
Proof.
  intros H Hs. unfold QdSpec.qval. cbn [offs store qmult].
  destruct (find (fun e => if list_eq_dec Nat.eq_dec (fst e) (blockof bs is s) then true else false) (offs d)) as [e|] eqn:E; [|ring].
  apply find_some in E as [He Hb]. destruct (list_eq_dec Nat.eq_dec (fst e) (blockof bs is s)) as [Q|]; [|discriminate].
  destruct e as [b o]. destruct (stored_bound bs _ _ _ _ H He) as [Vb LB]. cbn [fst snd] in *. subst b.
  pose proof (placeof_lt bs is s Hs) as PL.
  rewrite (nth_indep _ r0 (rmul r0 z)) by (rewrite map_length; lia). rewrite (map_nth (fun x => rmul x z)). reflexivity.
Qed.

(** Contraction: whatever blocks the operands store, in whatever order their indices come, the
    product has the indices that exactly one operand has, and its elements are the sums, over all
    values of the shared indices, of the products of the operands' elements. *)
Theorem C22_product : forall (dirL dirR : I -> Arrow) (L Rr : list I) (A B : qd R) junk cj,
  proper bs L -> proper bs Rr -> stored bs L A -> stored bs Rr B ->
  (forall x, In x L -> In x Rr -> dirL x <> dirR x) ->
  exists N C, qtimes dirL dirR L A Rr B junk cj = Ok (N, C) /\ proper bs N /\ stored bs N C /\
    (forall x, In x N <-> (In x L /\ ~ In x Rr) \/ (In x Rr /\ ~ In x L)) /\
    forall s, ranged bs N s -> qget r0 bs N C (map s N) =
      Ok (sum_over r0 radd ieq (total bs) (common ieq L Rr) (fun t => rmul (qval L A t) (qval Rr B t)) s).
Proof.
  intros dirL dirR L Rr A B junk cj PL PR HA HB HD.
  assert (G : exists C, qtimes dirL dirR L A Rr B junk cj = Ok (only ieq L Rr ++ only ieq Rr L, C) /\ stored bs (only ieq L Rr ++ only ieq Rr L) C /\
    forall s, ranged bs (only ieq L Rr ++ only ieq Rr L) s -> qval (only ieq L Rr ++ only ieq Rr L) C s = prodsum L A Rr B s).
  { destruct L as [|x L]; [|destruct Rr as [|y Rr]].
    - unfold QdModel.qtimes. assert (E : qget r0 bs [] A [] = Ok (qval [] A (fun _ => 0))) by (apply (C19_get R r0 I bs [] A (fun _ => 0)); auto; intros x []).
      rewrite E. cbn [obind]. cbn [only filter app]. rewrite only_nil_r. exists (qmult rmul (qval [] A (fun _ => 0)) B). split; [reflexivity|].
      split; [apply qmult_stored; auto|]. intros s Hs. rewrite qmult_val by auto. cbn [common filter sum_over]. unfold common. cbn [filter sum_over].
      change (qval [] A s) with (qval [] A (fun _ => 0)). ring.
    - unfold QdModel.qtimes. assert (E : qget r0 bs [] B [] = Ok (qval [] B (fun _ => 0))) by (apply (C19_get R r0 I bs [] B (fun _ => 0)); auto; intros z []).
      rewrite E. cbn [obind]. rewrite only_nil_r. change (only ieq [] (x :: L)) with (@nil I). rewrite app_nil_r.
      exists (qmult rmul (qval [] B (fun _ => 0)) A). split; [reflexivity|].
      split; [apply qmult_stored; auto|]. intros s Hs. rewrite qmult_val by auto.
      assert (EC : common ieq (x :: L) [] = []). { unfold common. clear. induction (x :: L) as [|z l IH]; cbn; auto. }
      rewrite EC. cbn [sum_over]. reflexivity.
    - unfold QdModel.qtimes. rewrite (proj2 (checkArrows_opp ieq ieq_spec dirL dirR (x :: L) (y :: Rr))) by auto. cbn [obind].
      destruct (qcontract_spec (x :: L) A (y :: Rr) B junk cj PL PR HA HB) as (C & E & SC & VC & _). exists C. auto. }
  destruct G as (C & E & SC & VC). exists (only ieq L Rr ++ only ieq Rr L), C. split; [exact E|]. split; [apply proper_N; auto|]. split; [exact SC|].
  split; [intros x; apply (in_N ieq ieq_spec bs)|]. intros s Hs. rewrite qget_spec by auto. f_equal. apply VC. exact Hs.
Qed.

(** The product with quantum numbers, after dropping them, is the product of the operands after
    dropping theirs. *)
Theorem C22_dense : forall (dirL dirR : I -> Arrow) (L Rr : list I) (A B : qd R) junk cj junk',
  proper bs L -> proper bs Rr -> stored bs L A -> stored bs Rr B -> L <> [] -> Rr <> [] ->
  (forall x, In x L -> In x Rr -> dirL x <> dirR x) ->
  exists N C a b c, qtimes dirL dirR L A Rr B junk cj = Ok (N, C) /\
    removeQNs r0 bs L A = Ok (Some a) /\ removeQNs r0 bs Rr B = Ok (Some b) /\
    times r0 r1 radd rmul is0 ieq (total bs) L a Rr b junk' = Ok (N, c) /\
    (N <> [] -> removeQNs r0 bs N C = Ok (Some c)) /\ (N = [] -> exists v, qget r0 bs [] C [] = Ok v /\ c = [v]).
Proof.
  intros dirL dirR L Rr A B junk cj junk' PL PR HA HB NeL NeR HD.
  destruct L as [|x L]; [congruence|]. destruct Rr as [|y Rr]; [congruence|].
  set (LL := x :: L) in *. set (RR := y :: Rr) in *.
  destruct (qcontract_spec LL A RR B junk cj PL PR HA HB) as (C & E & SC & VC & _).
  destruct (removeQNs_spec r0 ieq ieq_spec bs LL A NeL PL HA) as (a & Ea & Fa & Va).
  destruct (removeQNs_spec r0 ieq ieq_spec bs RR B NeR PR HB) as (b & Eb & Fb & Vb).
  assert (HPOS : forall z, In z LL \/ In z RR -> 0 < total bs z).
  { intros z Hz. assert (K : bs z <> [] /\ Forall (fun n => 0 < n) (bs z)) by (destruct Hz; [apply PL|apply PR]; auto).
    unfold total. destruct K as [K1 K2]. destruct (bs z) as [|n l]; [congruence|]. inversion K2; subst. unfold list_sum. cbn [fold_right]. lia. }
  destruct (times_spec r0 r1 radd rmul is0 SR is0_spec ieq (total bs) ieq_spec LL a RR b junk' (proj1 PL) (proj1 PR) HPOS Fa Fb) as (N & c & Ec & EN & Fc & Vc).
  assert (EV : forall s, ranged bs N s -> elt r0 (total bs) N c s = qval N C s).
  { intros s Hs. rewrite Vc by exact Hs. subst N. rewrite VC by exact Hs.
    apply (so_ext_in r0 radd ieq ieq_spec bs (total bs)). intros t Ht2 Ht1.
    assert (RG : forall z, In z LL \/ In z RR -> t z < total bs z).
    { intros z Hz. destruct (mem ieq z LL && mem ieq z RR) eqn:Q.
      - apply Ht1. apply andb_true_iff in Q as [Q1 Q2]. apply in_common; auto. split; apply (mem_In' ieq ieq_spec); auto.
      - assert (NC : ~ (In z LL /\ In z RR)).
        { intros [Q1 Q2]. apply (mem_In' ieq ieq_spec) in Q1, Q2. rewrite Q1, Q2 in Q. discriminate. }
        rewrite Ht2 by (intros K; apply NC; apply in_common in K; auto). apply Hs. apply (in_N ieq ieq_spec bs). destruct Hz; [left|right]; split; auto. }
    rewrite Va by (intros z Hz; apply RG; auto). rewrite Vb by (intros z Hz; apply RG; auto). reflexivity. }
  exists N, C, a, b, c. split; [|split; [exact Ea|split; [exact Eb|split; [exact Ec|split]]]].
  - unfold QdModel.qtimes, LL, RR. fold LL RR. rewrite (proj2 (checkArrows_opp ieq ieq_spec dirL dirR LL RR)) by auto. cbn [obind]. rewrite EN. exact E.
  - intros NeN. subst N. pose proof (proper_N LL RR PL PR) as PN.
    destruct (removeQNs_spec r0 ieq ieq_spec bs _ C NeN PN SC) as (c' & Ec' & Fc' & Vc'). rewrite Ec'. do 2 f_equal.
    apply (full_ext r0 ieq ieq_spec bs (only ieq LL RR ++ only ieq RR LL)); auto; [apply PN|]. intros s Hs. rewrite Vc' by auto. symmetry. apply EV. exact Hs.
  - intros NN. exists (qval [] C (fun _ => 0)). split; [apply (C19_get R r0 I bs [] C (fun _ => 0)); [|intros z []]; rewrite <- EN, NN in SC; exact SC|].
    specialize (EV (fun _ => 0)). rewrite NN in EV, Fc. unfold full in Fc. cbn [map fold_right] in Fc. destruct c as [|v [|]]; try discriminate. f_equal.
    rewrite <- EV by (intros z []). reflexivity.
Qed.

(** A shared index with the same arrow in both operands: the product is refused. *)
Theorem C22_refused : forall (dirL dirR : I -> Arrow) (L Rr : list I) (A B : qd R) junk cj x,
  In x L -> In x Rr -> dirL x = dirR x -> qtimes dirL dirR L A Rr B junk cj = Err.
Proof.
  intros dirL dirR L Rr A B junk cj x HL HR E. unfold QdModel.qtimes. destruct L as [|y L]; [contradiction|]. destruct Rr as [|z Rr]; [contradiction|].
  destruct (checkArrows_cases ieq dirL dirR (y :: L) (z :: Rr) false) as [K|K]; rewrite K; [|reflexivity].
  exfalso. exact (proj1 (checkArrows_opp ieq ieq_spec dirL dirR _ _) K x HL HR E).
Qed.

(** The product does not depend on what uninitialised memory holds. *)
Theorem C22_deterministic : forall (dirL dirR : I -> Arrow) (L Rr : list I) (A B : qd R) junk cj junk' cj',
  proper bs L -> proper bs Rr -> stored bs L A -> stored bs Rr B ->
  qtimes dirL dirR L A Rr B junk cj = qtimes dirL dirR L A Rr B junk' cj'.
Proof.
  intros dirL dirR L Rr A B junk cj junk' cj' PL PR HA HB. unfold QdModel.qtimes. destruct L as [|x L]; [reflexivity|]. destruct Rr as [|y Rr]; [reflexivity|].
  destruct (checkArrows ieq dirL dirR (x :: L) (y :: Rr) false); auto. cbn [obind].
  destruct (qcontract_spec _ A _ B junk cj PL PR HA HB) as (C & E & SC & VC & BC). destruct (qcontract_spec _ A _ B junk' cj' PL PR HA HB) as (C' & E' & SC' & VC' & BC').
  rewrite E, E'. do 2 f_equal. apply (qd_ext r0 ieq ieq_spec bs (only ieq (x :: L) (y :: Rr) ++ only ieq (y :: Rr) (x :: L))); auto.
  - apply proper_N; auto.
  - eapply blocks_same; [exact (proj1 SC)|exact (proj1 SC')|exact (proj2 SC)|exact (proj2 SC')|]. intros b. exact (iff_trans (BC b) (iff_sym (BC' b))).
  - intros s Hs. rewrite VC, VC' by auto. reflexivity.
Qed.

(** ** flux *)
Section Flux.
Context (qns : I -> list QN) (M : SmallString -> Z) (S : list SmallString) (Sch : Scheme M S).
Let zs (f : I -> Z) (l : list I) : Z := fold_right Z.add 0%Z (map f l).
Lemma zs_app f l l' : zs f (l ++ l') = (zs f l + zs f l')%Z.
Proof. unfold zs. rewrite map_app. induction (map f l) as [|v k IH]; cbn; auto. rewrite IH. ring. Qed.
Lemma zs_split f (L Rr : list I) : zs f L = (zs f (only ieq L Rr) + zs f (common ieq L Rr))%Z.
Proof.
  unfold zs, only, common. induction L as [|x L IH]; [reflexivity|]. cbn [filter]. destruct (mem ieq x Rr); cbn [negb map fold_right]; rewrite IH; ring.
Qed.
Lemma zs_ext f g l : (forall x, In x l -> f x = g x) -> zs f l = zs g l.
Proof. intros H. unfold zs. f_equal. apply map_ext_in. exact H. Qed.

(** Every stored block of the product has the sum of the operands' fluxes, if the shared indices
    point in opposite directions. *)
Theorem C22_flux : forall (dirL dirR : I -> Arrow) (L Rr : list I) (A B : qd R) junk cj qa qb N C,
  labelled bs qns M S L -> labelled bs qns M S Rr -> Charges M S qa -> Charges M S qb ->
  proper bs L -> proper bs Rr -> stored bs L A -> stored bs Rr B -> L <> [] -> Rr <> [] ->
  (forall x, In x L -> In x Rr -> dirL x = ArrIn /\ dirR x = ArrOut \/ dirL x = ArrOut /\ dirR x = ArrIn) ->
  (forall b, has_block A b -> has_flux qns dirL M L b qa) -> (forall b, has_block B b -> has_flux qns dirR M Rr b qb) ->
  qtimes dirL dirR L A Rr B junk cj = Ok (N, C) ->
  forall c, has_block C c -> has_flux qns (dirC ieq dirL dirR L) M N c (qn_add qa qb).
Proof.
  intros dirL dirR L Rr A B junk cj qa qb N C HL HR CA CB PL PR HA HB NeL NeR HD FA FB E c Hc.
  destruct L as [|x L]; [congruence|]. destruct Rr as [|y Rr]; [congruence|]. set (LL := x :: L) in *. set (RR := y :: Rr) in *.
  unfold QdModel.qtimes, LL, RR in E. fold LL RR in E.
  rewrite (proj2 (checkArrows_opp ieq ieq_spec dirL dirR LL RR)) in E by (intros z H1 H2; destruct (HD z H1 H2) as [[-> ->]|[-> ->]]; discriminate).
  cbn [obind] in E. destruct (qcontract_spec LL A RR B junk cj PL PR HA HB) as (C' & E' & SC & VC & BC).
  rewrite E' in E. injection E as <- <-. apply BC in Hc. rewrite map_map in Hc. apply in_map_iff in Hc as (e & <- & He).
  apply in_entries in He as (a & b & Ha & Hb & HM & ->). cbn [fst snd mkentry].
  assert (LA : length a = length LL) by (eapply vlen; eapply stored_fst_valid; [exact HA|exact Ha]).
  assert (LB : length b = length RR) by (eapply vlen; eapply stored_fst_valid; [exact HB|exact Hb]).
  set (g := joinb ieq LL RR a b).
  pose proof (join_L ieq ieq_spec LL RR (proj1 PL) a b LA) as JL. pose proof (join_R ieq ieq_spec LL RR (proj1 PR) a b LB HM) as JR.
  fold g in JL, JR. apply FA in Ha. apply FB in Hb.
  assert (IA : isval M S qa (flux_val qns dirL LL a)) by (split; [exact CA|intros n; symmetry; apply Ha]).
  assert (IB : isval M S qb (flux_val qns dirR RR b)) by (split; [exact CB|intros n; symmetry; apply Hb]).
  pose proof (isval_add M S Sch _ _ _ _ IA IB) as [_ IC]. intros n. rewrite IC. f_equal. unfold cblock. fold g. clearbody g. rewrite <- JL, <- JR.
  rewrite !flux_beta. set (v := fun z => qn_val_of (nth (g z) (qns z) qn0) n).
  change (zs (fun z => arrow_int (dirC ieq dirL dirR LL z) * v z)%Z (only ieq LL RR ++ only ieq RR LL) =
    (zs (fun z => arrow_int (dirL z) * v z)%Z LL + zs (fun z => arrow_int (dirR z) * v z)%Z RR)%Z).
  rewrite zs_app. rewrite (zs_split (fun z => arrow_int (dirL z) * v z)%Z LL RR). rewrite (zs_split (fun z => arrow_int (dirR z) * v z)%Z RR LL).
  rewrite (zs_ext (fun z => arrow_int (dirC ieq dirL dirR LL z) * v z)%Z (fun z => arrow_int (dirL z) * v z)%Z (only ieq LL RR)).
  2:{ intros z Hz. apply in_only in Hz as [Hz _]; auto. unfold dirC. change (existsb (ieq z) LL) with (mem ieq z LL). rewrite (proj2 (mem_In' ieq ieq_spec z LL)) by auto. reflexivity. }
  rewrite (zs_ext (fun z => arrow_int (dirC ieq dirL dirR LL z) * v z)%Z (fun z => arrow_int (dirR z) * v z)%Z (only ieq RR LL)).
  2:{ intros z Hz. apply in_only in Hz as [_ Hz]; auto. unfold dirC. change (existsb (ieq z) LL) with (mem ieq z LL).
      destruct (mem ieq z LL) eqn:Q; auto. exfalso. apply Hz. apply (mem_In' ieq ieq_spec); auto. }
  assert (Q : zs (fun z => arrow_int (dirL z) * v z)%Z (common ieq LL RR) = (- zs (fun z => arrow_int (dirR z) * v z)%Z (common ieq RR LL))%Z).
  { transitivity (- zs (fun z => arrow_int (dirR z) * v z)%Z (common ieq LL RR))%Z.
    - transitivity (zs (fun z => - (arrow_int (dirR z) * v z))%Z (common ieq LL RR)).
      + apply zs_ext. intros z Hz. apply in_common in Hz as [H1 H2]; auto. destruct (HD z H1 H2) as [[-> ->]|[-> ->]]; cbn [arrow_int]; ring.
      + unfold zs. clear. induction (common ieq LL RR) as [|z l IH]; cbn [map fold_right]; [reflexivity|]. rewrite IH. ring.
    - f_equal. unfold zs. apply zsum_perm, Permutation_map. apply NoDup_Permutation.
      + apply NoDup_filter, PL. + apply NoDup_filter, PR. + intros z. rewrite !in_common by auto. tauto. }
  rewrite Q. ring.
Qed.
End Flux.

(** ** C23: threads *)
(** a run exists *)
Lemma par_exists L Rr A B co cj : proper bs L -> proper bs Rr -> stored bs L A -> stored bs Rr B -> forall n tasks done st, length (concat tasks) = n ->
  Forall (good ieq L Rr A B co) (concat tasks) -> QdLoop.inv r0 r1 radd rmul ieq bs L Rr A B co done st ->
  exists o, par (ctx ieq L Rr A B co cj) tasks st o.
Proof.
  intros PL PR HA HB. induction n as [|n IH]; intros tasks done st HL HG HI.
  - exists (Ok st). constructor. destruct (concat tasks) eqn:E; [|discriminate]. clear -E. induction tasks as [|g l IH]; constructor; cbn in E; apply app_eq_nil in E as [E1 E2]; auto.
  - assert (D : exists pre t ts post, tasks = pre ++ (t :: ts) :: post).
    { clear -HL. induction tasks as [|[|t ts] l IH]; cbn in HL; [discriminate| |exists [], t, ts, l; reflexivity].
      destruct (IH HL) as (pre & t & ts & post & ->). exists ([] :: pre), t, ts, post. reflexivity. }
    destruct D as (pre & t & ts & post & ->). rewrite concat_app in HG, HL. cbn [concat app] in HG, HL.
    apply Forall_app in HG as [G1 G2]. inversion G2 as [|? ? Gt G3]; subst.
    destruct (step_inv r0 r1 radd rmul is0 SR is0_spec ieq ieq_spec bs L Rr PL PR A B HA HB co cj done st t Gt HI) as (st' & Ed & HI').
    destruct (IH (pre ++ ts :: post) (t :: done) st') as (o & Ho); [| |exact HI'|].
    + rewrite app_length in HL. cbn [length] in HL. rewrite concat_app. cbn [concat]. rewrite app_length. lia.
    + rewrite concat_app. cbn [concat]. apply Forall_app. auto.
    + exists o. eapply par_step; eauto.
Qed.

(** In exact arithmetic: for every division of the first loop among the threads, and every
    interleaving of the second, the contraction ends, without error, with exactly the tensor the
    single-threaded build computes. *)
Theorem C23_threads : forall (sched : list (list nat)) (L Rr : list I) (A B : qd R) junk cj junk' cj',
  proper bs L -> proper bs Rr -> stored bs L A -> stored bs Rr B ->
  Permutation (concat sched) (seq 0 (length (offs A))) ->
  exists c tasks st, omp_setup sched L A Rr B junk cj = Ok (c, tasks, st) /\
    (exists o, par c tasks st o) /\
    forall o, par c tasks st o -> exists st', o = Ok st' /\
      qcontract L A Rr B junk' cj' = Ok (cNis c, mkQD (cOffs c) (fst st')).
Proof.
  intros sched L Rr A B junk cj junk' cj' PL PR HA HB HS. pose proof (proj1 PL) as NL. pose proof (proj1 PR) as NR.
  destruct (omp_setup_spec r0 ieq ieq_spec bs srt Hsrt L Rr A B NL NR HA HB sched junk cj HS) as (co & n & tasks & E & F & SS & HM & HP & HG & _ & _ & _).
  pose proof (inv_start r0 r1 radd rmul ieq bs L Rr A B co _ (start_ok r0 ieq bs L Rr co n junk F SS) (nth_repeat0 r0 (length co))) as HI.
  exists (ctx ieq L Rr A B co cj), tasks, (map junk (seq 0 n), repeat r0 (length co)). split; [exact E|]. split; [eapply par_exists; eauto|].
  intros o Ho. destruct (par_inv r0 r1 radd rmul is0 SR is0_spec ieq ieq_spec bs L Rr PL PR A B HA HB co cj tasks _ o Ho [] HG HI) as (st' & -> & HI').
  exists st'. split; [reflexivity|]. rewrite app_nil_r in HI'.
  destruct (run_value L Rr A B co _ st' PL PR HA HB HI' HG HM HP) as [SC VC].
  destruct (qcontract_spec L A Rr B junk' cj' PL PR HA HB) as (C & E' & SC' & VC' & BC'). rewrite E'. unfold ctx. cbn [cNis cOffs]. do 2 f_equal.
  apply (qd_ext r0 ieq ieq_spec bs (only ieq L Rr ++ only ieq Rr L)); auto.
  - apply proper_N; auto.
  - eapply blocks_same; [exact (proj1 SC')|exact (proj1 SC)|exact (proj2 SC')|exact (proj2 SC)|]. intros b. exact (iff_trans (BC' b) (iff_sym (HM b))).
  - intros s Hs. rewrite VC, VC' by auto. reflexivity.
Qed.
End C22.

(** Whatever the arithmetic (rounding included): the tasks contain each pair of matching blocks
    exactly once; contractions of one task write the same block, contractions of different tasks
    write different blocks. *)
Theorem C23_tasks : forall (R : Type) (r0 : R) (I : Type) (ieq : I -> I -> bool) (bs : I -> list nat) srt (sched : list (list nat)) (L Rr : list I) (A B : qd R) junk cj,
  (forall a b, ieq a b = true <-> a = b) -> sorts srt -> NoDup L -> NoDup Rr -> stored bs L A -> stored bs Rr B ->
  Permutation (concat sched) (seq 0 (length (offs A))) ->
  exists c tasks st, omp_setup r0 ieq bs srt sched L A Rr B junk cj = Ok (c, tasks, st) /\
    NoDup (concat tasks) /\
    (forall a b, (exists k, In (a, b, k) (concat tasks)) <->
       exists g : I -> nat, a = map g L /\ b = map g Rr /\ has_block A a /\ has_block B b) /\
    (forall a b k, In (a, b, k) (concat tasks) -> forall g : I -> nat, a = map g L -> b = map g Rr -> k = map g (cNis c)) /\
    (forall ts t u, In ts tasks -> In t ts -> In u ts -> snd t = snd u) /\
    (forall i j ts us t u, nth_error tasks i = Some ts -> nth_error tasks j = Some us -> i <> j -> In t ts -> In u us -> snd t <> snd u).
Proof.
  intros R r0 I ieq bs srt sched L Rr A B junk cj ieq_spec Hsrt NL NR HA HB HS.
  destruct (omp_setup_spec r0 ieq ieq_spec bs srt Hsrt L Rr A B NL NR HA HB sched junk cj HS) as (co & n & tasks & E & F & SS & HM & HP & HG & P2 & P3 & _).
  do 3 eexists. split; [exact E|]. split; [|split; [|split; [|split; [exact P2|exact P3]]]].
  - eapply Permutation_NoDup; [symmetry; exact HP|]. apply nodup_map_in.
    + apply entries_nodup; eapply stored_nodup; eauto.
    + intros e e' He He' Q. apply in_entries in He as (a & b & _ & _ & _ & ->). apply in_entries in He' as (a' & b' & _ & _ & _ & ->).
      cbn [fst mkentry] in Q. injection Q as -> -> _. reflexivity.
  - intros a b. split.
    + intros (k & Hk). eapply Permutation_in in Hk; [|exact HP]. apply in_map_iff in Hk as (e & Q & He). apply in_entries in He as (a' & b' & Ha & Hb & HMt & ->).
      cbn [fst mkentry] in Q. injection Q as -> -> _.
      assert (LA : length a = length L) by (eapply vlen; eapply stored_fst_valid; [exact HA|exact Ha]).
      assert (LB : length b = length Rr) by (eapply vlen; eapply stored_fst_valid; [exact HB|exact Hb]).
      exists (joinb ieq L Rr a b). rewrite (join_L ieq ieq_spec L Rr NL a b LA), (join_R ieq ieq_spec L Rr NR a b LB HMt). auto.
    + intros (g & -> & -> & Ha & Hb). exists (cblock ieq L Rr (map g L) (map g Rr)). eapply Permutation_in; [symmetry; exact HP|].
      apply in_map_iff. exists (mkentry ieq bs L Rr (map g L) (map g Rr)). split; [reflexivity|]. apply in_entries. exists (map g L), (map g Rr). split; auto. split; auto. split; [|reflexivity].
      apply (matches_iff ieq ieq_spec L Rr NL NR); [apply map_length|apply map_length|]. exists g. auto.
  - intros a b k Hk g -> ->. eapply Permutation_in in Hk; [|exact HP]. apply in_map_iff in Hk as (e & Q & He). apply in_entries in He as (a' & b' & Ha & Hb & HMt & ->).
    cbn [fst mkentry] in Q. injection Q as -> -> <-. unfold ctx. cbn [cNis]. unfold cblock. apply map_ext_in. intros x Hx.
    apply (join_beta ieq ieq_spec L Rr g x). apply (in_N ieq ieq_spec bs) in Hx. tauto.
Qed.

(** Whatever the arithmetic: any two interleavings of the same tasks that complete end in the same
    state, that of executing the tasks one after the other. *)
Theorem C23_interleavings : forall (R : Type) (r0 r1 : R) (radd rmul : R -> R -> R) (is0 : R -> bool) (I : Type) (ieq : I -> I -> bool) (bs : I -> list nat) srt
    (sched : list (list nat)) (L Rr : list I) (A B : qd R) junk cj c tasks st,
  (forall a b, ieq a b = true <-> a = b) -> sorts srt -> NoDup L -> NoDup Rr -> stored bs L A -> stored bs Rr B ->
  Permutation (concat sched) (seq 0 (length (offs A))) ->
  omp_setup r0 ieq bs srt sched L A Rr B junk cj = Ok (c, tasks, st) ->
  forall st1, par r0 r1 radd rmul is0 bs c tasks st (Ok st1) -> loop_serial r0 r1 radd rmul is0 bs c (concat tasks) st = Ok st1.
Proof.
  intros R r0 r1 radd rmul is0 I ieq bs srt sched L Rr A B junk cj c tasks st ieq_spec Hsrt NL NR HA HB HS E st1 Hp.
  destruct (omp_setup_spec r0 ieq ieq_spec bs srt Hsrt L Rr A B NL NR HA HB sched junk cj HS) as (co & n & tasks' & E' & F & SS & HM & HP & HG & P2 & P3 & _).
  rewrite E' in E. injection E as <- <- <-.
  eapply (par_serial r0 r1 radd rmul is0 ieq ieq_spec bs L Rr NL NR A B HA HB co n F SS cj tasks'); eauto.
Qed.

(** Two operator-like tensors with blocks (0,0), (1,1) resp. (0,0), (1,0) and (1,1), contracted over index 1. *)
Definition c22_L : qd Z := mkQD [([0; 0], 0); ([1; 1], 1)] [1; 2; 3; 4; 5]%Z.
Definition c22_R : qd Z := mkQD [([0; 0], 0); ([1; 0], 1); ([1; 1], 3)] [6; 7; 8; 9; 10; 11; 12]%Z.
Definition c22_dR (x : nat) : Arrow := if x =? 1 then ArrOut else ArrIn.
Example C22_nonvacuous :
  proper c20_bs [0; 1] /\ proper c20_bs [2; 1] /\ stored c20_bs [0; 1] c22_L /\ stored c20_bs [2; 1] c22_R /\
  qtimes 0%Z 1%Z Z.add Z.mul (Z.eqb 0) Nat.eqb c20_bs isort c20_dir c22_dR [0; 1] c22_L [2; 1] c22_R (fun _ => 77%Z) (fun _ _ => 78%Z)
   = Ok ([0; 2], mkQD [([0; 0], 0); ([0; 1], 1); ([1; 1], 3)] [6; 7; 8; 62; 82; 68; 90]%Z) /\
  removeQNs 0%Z c20_bs [0; 1] c22_L = Ok (Some [1; 0; 0; 0; 2; 3; 0; 4; 5]%Z).
Proof.
  assert (P : forall a b, a <> b -> proper c20_bs [a; b]).
  { intros a b H. split; [repeat constructor; cbn; intuition lia|]. intros x _. split; [discriminate|repeat constructor]. }
  split; [apply P; lia|]. split; [apply P; lia|].
  split; [split; cbn; [repeat split; auto; repeat constructor; auto|repeat constructor; cbn; lia]|].
  split; [split; cbn; [repeat split; auto; repeat constructor; auto|repeat constructor; cbn; lia]|].
  split; vm_compute; reflexivity.
Qed.
Example C22_flux_nonvacuous : labelled c20_bs c20_qns ex_mod ex_names [0; 1] /\
  (forall x, In x [0; 1] -> In x [2; 1] -> c20_dir x = ArrIn /\ c22_dR x = ArrOut \/ c20_dir x = ArrOut /\ c22_dR x = ArrIn) /\
  (forall b, has_block c22_L b -> has_flux c20_qns c20_dir ex_mod [0; 1] b qn0).
Proof.
  split; [apply c20_labelled|]. split; [intros x [<-|[<-|[]]] [H|[H|[]]]; try discriminate; left; split; reflexivity|].
  intros b [<-|[<-|[]]] n; cbn [flux_val c20_qns nth c20_dir Nat.eqb arrow_int fst]; rewrite <- ?(qn0_val n);
    match goal with |- residue _ ?v = _ => replace v with 0%Z by lia end; unfold residue; destruct (1 <? Z.abs (ex_mod n))%Z; reflexivity.
Qed.

(** The check of arrows lets an index without arrow meet one with an arrow; the flux of the product
    is then not the sum. *)
Theorem C22_flux_neither_refuted : exists (bs : nat -> list nat) (qns : nat -> list QN) (dirL dirR : nat -> Arrow) (L Rr : list nat) (A B : qd Z) C qa qb q,
  proper bs L /\ proper bs Rr /\ stored bs L A /\ stored bs Rr B /\
  calcDiv qns dirL L A = Ok qa /\ calcDiv qns dirR Rr B = Ok qb /\
  qtimes 0%Z 1%Z Z.add Z.mul (Z.eqb 0) Nat.eqb bs isort dirL dirR L A Rr B (fun _ => 0%Z) (fun _ _ => 0%Z) = Ok ([2], C) /\
  calcDiv qns (dirC Nat.eqb dirL dirR L) [2] C = Ok q /\ qn_eqb q (qn_add qa qb) = false.
Proof.
  exists (fun _ => [1; 1]), (fun _ => [qn0; ex_q ex_entries1]), (fun _ => ArrNeither), (fun x => if x =? 1 then ArrIn else ArrOut), [1], [1; 2],
    (mkQD [([1], 0)] [2%Z]), (mkQD [([1; 1], 0)] [3%Z]), (mkQD [([1], 0)] [6%Z]). do 3 eexists.
  split; [split; [repeat constructor; cbn; intuition lia|]; intros x _; split; [discriminate|repeat constructor]|].
  split; [split; [repeat constructor; cbn; intuition lia|]; intros x _; split; [discriminate|repeat constructor]|].
  split; [split; cbn; [repeat split; auto; repeat constructor; auto|repeat constructor; cbn; lia]|].
  split; [split; cbn; [repeat split; auto; repeat constructor; auto|repeat constructor; cbn; lia]|].
  split; [vm_compute; reflexivity|]. split; [vm_compute; reflexivity|]. split; [vm_compute; reflexivity|]. split; [vm_compute; reflexivity|vm_compute; reflexivity].
Qed.

(** Contracting all indices of two tensors without matching blocks gives a scalar without storage,
    the operand of C21_scalar_refuted. *)
Example C21_scalar_reachable :
  qtimes 0%Z 1%Z Z.add Z.mul (Z.eqb 0) Nat.eqb c20_bs isort c20_dir c22_dR [1] (mkQD [([0], 0)] [5%Z]) [1] (mkQD [([1], 0)] [6; 7]%Z) (fun _ => 0%Z) (fun _ _ => 0%Z)
  = Ok ([], mkQD [] []).
Proof. vm_compute. reflexivity. Qed.

(** C23: two threads, three interleavable tasks. *)
Example C23_nonvacuous : Permutation (concat [[1]; [0]]) (seq 0 (length (offs c22_L))) /\
  exists c st, omp_setup 0%Z Nat.eqb c20_bs isort [[1]; [0]] [0; 1] c22_L [2; 1] c22_R (fun _ => 77%Z) (fun _ _ => 78%Z) = Ok (c,
    [[([0; 0], [0; 0], [0; 0])]; [([0; 0], [1; 0], [0; 1])]; [([1; 1], [1; 1], [1; 1])]], st).
Proof. split; [apply perm_swap|]. eexists; eexists. vm_compute. reflexivity. Qed.

(** In floating point (IEEE binary64) the result does depend on the schedule: the order in which the
    pairs of blocks are listed, hence the order of the sums, follows the dynamic schedule of the
    first loop. *)
Definition f64 (z : Z) : SpecFloat.spec_float := SpecFloat.binary_normalize 53 1024 z 0 false.
Definition fadd := SpecFloat.SFadd 53 1024.
Definition fmul := SpecFloat.SFmul 53 1024.
Definition fis0 (x : SpecFloat.spec_float) : bool := SpecFloat.SFeqb x (f64 0).
Theorem C23_rounding_refuted :
  exists (bs : nat -> list nat) (L Rr : list nat) (A B : qd SpecFloat.spec_float) sched1 sched2 c1 c2 t1 t2 st1 st2 r1 r2,
    proper bs L /\ proper bs Rr /\ stored bs L A /\ stored bs Rr B /\
    Permutation (concat sched1) (seq 0 (length (offs A))) /\ Permutation (concat sched2) (seq 0 (length (offs A))) /\
    omp_setup (f64 0) Nat.eqb bs isort sched1 L A Rr B (fun _ => f64 0) (fun _ _ => f64 0) = Ok (c1, t1, st1) /\
    omp_setup (f64 0) Nat.eqb bs isort sched2 L A Rr B (fun _ => f64 0) (fun _ _ => f64 0) = Ok (c2, t2, st2) /\
    par (f64 0) (f64 1) fadd fmul fis0 bs c1 t1 st1 (Ok r1) /\ par (f64 0) (f64 1) fadd fmul fis0 bs c2 t2 st2 (Ok r2) /\
    fst r1 = [f64 (2^53)] /\ fst r2 = [f64 (2^53 + 2)] /\ f64 (2^53) <> f64 (2^53 + 2).
Proof.
  exists (fun x => if x =? 1 then [1; 1; 1] else [1]), [0; 1], [1; 2], (mkQD [([0; 0], 0); ([0; 1], 1); ([0; 2], 2)] [f64 (2^53); f64 1; f64 1]),
    (mkQD [([0; 0], 0); ([1; 0], 1); ([2; 0], 2)] [f64 1; f64 1; f64 1]), [[1; 2]; [0]], [[0; 1; 2]].
  do 8 eexists.
  assert (P : forall a b, a <> b -> proper (fun x => if x =? 1 then [1; 1; 1] else [1]) [a; b]).
  { intros a b H. split; [repeat constructor; cbn; intuition lia|]. intros x _. split; [destruct (x =? 1); discriminate|destruct (x =? 1); repeat constructor]. }
  split; [apply P; lia|]. split; [apply P; lia|].
  split; [split; cbn; [repeat split; auto; repeat constructor; auto|repeat constructor; cbn; lia]|].
  split; [split; cbn; [repeat split; auto; repeat constructor; auto|repeat constructor; cbn; lia]|].
  split; [cbn; apply (Permutation_app_comm [1; 2] [0])|]. split; [apply Permutation_refl|].
  split; [vm_compute; reflexivity|]. split; [vm_compute; reflexivity|].
  split; [do 3 (eapply (par_step _ _ _ _ _ _ _ []); [vm_compute; reflexivity|cbn [app]]); apply par_done; repeat constructor|].
  split; [do 3 (eapply (par_step _ _ _ _ _ _ _ []); [vm_compute; reflexivity|cbn [app]]); apply par_done; repeat constructor|].
  split; [vm_compute; reflexivity|]. split; [vm_compute; reflexivity|]. vm_compute. discriminate.
Qed.

Print Assumptions C22_product.
Print Assumptions C22_dense.
Print Assumptions C22_refused.
Print Assumptions C22_deterministic.
Print Assumptions C22_flux.
Print Assumptions C22_flux_neither_refuted.
Print Assumptions C23_threads.
Print Assumptions C23_tasks.
Print Assumptions C23_interleavings.
Print Assumptions C23_rounding_refuted.
