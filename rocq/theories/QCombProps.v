(** Properties of combiners on tensors with quantum numbers (C17). *)
From Coq Require Import List ZArith Lia Bool Arith Permutation Sorted.
From Verif Require Import Util RangeModel RangeSpec RangeProofs RangeProps TensorModel TensorSpec TensorProofs SemProofs
  ContractModel DenseModel DenseProofs SmallStringModel QnModel QnSpec QnProofs QnProps QdModel QdSpec QdProofs QdFlux QdAdd QdProps ProductProps
  CombinerModel CombinerProps QCombModel QCombTable QCombProofs.
Import ListNotations.
Open Scope outcome_scope.
Local Arguments Nat.sub : simpl never.

Lemma residue_sign m a x y : (a = 1 \/ a = -1)%Z -> residue m (a * residue m (x * a) + y) = residue m (x + y).
Proof.
  intros [-> | ->].
  - rewrite Z.mul_1_l, Z.mul_1_r. apply residue_add_l.
  - replace (-1 * residue m (x * -1))%Z with (- residue m (x * -1))%Z by ring.
    rewrite <- residue_add_l, residue_opp, residue_add_l. f_equal. ring.
Qed.
Lemma flux_app {I} (qns : I -> list QN) dir : forall a b ba bb n, length ba = length a ->
  flux_val qns dir (a ++ b) (ba ++ bb) n = (flux_val qns dir a ba n + flux_val qns dir b bb n)%Z.
Proof.
  induction a as [|x a IH]; intros b [|i ba] bb n L; cbn in L; try discriminate; cbn [app flux_val]; auto. rewrite IH by lia. ring.
Qed.
Lemma flux_dir {I} (qns : I -> list QN) dir dir' : forall a ba n, (forall x, In x a -> dir x = dir' x) -> flux_val qns dir a ba n = flux_val qns dir' a ba n.
Proof.
  induction a as [|x a IH]; intros [|i ba] n H; cbn [flux_val]; auto. rewrite (H x) by (left; auto). rewrite (IH ba) by (intros; apply H; right; auto). reflexivity.
Qed.

Section Props.
Context {R : Type} (r0 : R) {I : Type} (ieq : I -> I -> bool) (ieq_spec : forall a b, ieq a b = true <-> a = b).
Context (bs : I -> list nat) (qns : I -> list QN) (M : SmallString -> Z) (S : list SmallString) (Sch : Scheme M S).
Notation total := (total bs).
Notation proper := (proper bs).
Notation ranged := (ranged bs).
Notation qval := (qval r0 bs).
Notation stored := (stored bs).
Notation labelled := (labelled bs qns M S).
Notation times_qcombiner := (times_qcombiner r0 ieq bs qns).

(** The tensor A with indices L, whose arrows are dirL, is a QN tensor of flux q. *)
Definition qtensor (dir : I -> Arrow) (L : list I) (A : qd R) (q : QN) : Prop :=
  proper L /\ labelled L /\ stored L A /\ Charges M S q /\ forall b, has_block A b -> has_flux qns dir M L b q.

(** c and tab come from combiner(cs), the combined indices having arrows dir: c is a new index, whose
    blocks have the quantum numbers and sizes combiner gave them, and arrow cdir. *)
Definition qcombines (dir : I -> Arrow) (cdir : Arrow) (c : I) (cs : list I) (tab : list brange) : Prop :=
  exists qms, qcombiner bs qns dir cdir cs = Ok (qms, tab) /\ bs c = map snd qms /\ qns c = map fst qms /\
    NoDup (c :: cs) /\ proper cs /\ labelled cs /\ cdir <> ArrNeither /\ forall x, In x cs -> dir x <> ArrNeither.

(** J numbers the joint values of cs: a bijection onto the values of c. *)
Definition joint_value (c : I) (cs : list I) (J : (I -> nat) -> nat) : Prop :=
  (forall s s', (forall x, In x cs -> s x = s' x) -> J s = J s') /\
  (forall s, ranged cs s -> J s < total c) /\
  (forall s s', ranged cs s -> ranged cs s' -> J s = J s' -> forall x, In x cs -> s x = s' x) /\
  (forall v s, v < total c -> exists s', ranged cs s' /\ J s' = v /\ forall x, ~ In x cs -> s' x = s x).

(** The charge of value v of index x. *)
Definition charge (x : I) (v : nat) (n : SmallString) : Z := qn_val_of (nth (blk (bs x) v) (qns x) qn0) n.

(** The values of c carry the total charge of the combined indices. *)
Definition charge_kept (dir : I -> Arrow) (cdir : Arrow) (c : I) (cs : list I) (J : (I -> nat) -> nat) : Prop :=
  forall s n, ranged cs s ->
    residue (M n) (arrow_int cdir * charge c (J s) n) = residue (M n) (fold_right Z.add 0%Z (map (fun x => arrow_int (dir x) * charge x (s x) n)%Z cs)).

(** The arrows of the combiner and of its dag. *)
Definition comb_arrows (dir : I -> Arrow) (cdir : Arrow) (c : I) (cs : list I) (dirR : I -> Arrow) : Prop :=
  dirR c = cdir /\ forall x, In x cs -> dirR x = arrow_neg (dir x).
Definition dag_arrows (dir : I -> Arrow) (cdir : Arrow) (c : I) (cs : list I) (dirR : I -> Arrow) : Prop :=
  dirR c = arrow_neg cdir /\ forall x, In x cs -> dirR x = dir x.

Lemma arrow_sign d : d <> ArrNeither -> (arrow_int d = 1 \/ arrow_int d = -1)%Z.
Proof. destruct d; cbn; auto; congruence. Qed.
Lemma arrow_neg_ne d : d <> ArrNeither -> d <> arrow_neg d.
Proof. destruct d; cbn; congruence. Qed.

Section Made.
Context (dir : I -> Arrow) (cdir : Arrow) (c : I) (cs : list I) (tab : list brange).
Hypothesis HQ : qcombines dir cdir c cs tab.
Notation e := (map (nblocks bs) cs).

Lemma made_facts : cs <> [] /\ proper cs /\ ~ In c cs /\ NoDup cs /\ labelled cs /\ length tab = size e /\
  (forall k, k < size e -> tblk tab k < length (bs c) /\ tex tab k = sz bs cs (decode e k) /\ tst tab k + tex tab k <= nth (tblk tab k) (bs c) 0) /\
  (forall k k', k < k' -> k' < size e -> tblk tab k = tblk tab k' -> tst tab k + tex tab k <= tst tab k') /\
  (forall n p, n < length (bs c) -> p < nth n (bs c) 0 -> exists k, k < size e /\ tblk tab k = n /\ tst tab k <= p < tst tab k + tex tab k) /\
  (forall k n, k < size e -> qn_val_of (nth (tblk tab k) (qns c) qn0) n = residue (M n) (flux_val qns dir cs (decode e k) n * arrow_int cdir)%Z) /\
  proper [c] /\ labelled [c] /\
  (forall n n', n < n' -> n' < length (qns c) -> qn_eqb (nth n (qns c) qn0) (nth n' (qns c) qn0) = false).
Proof.
  destruct HQ as (qms & E & Hb & Hq & ND & Hp & HL & Hcd & Hd). apply NoDup_cons_iff in ND as [Hc NC].
  assert (Hne : cs <> []) by (intros ->; discriminate E).
  destruct (qcombiner_spec bs qns dir cdir M S Sch cs Hne (fun x Hx => proj1 (proj2 Hp x Hx)) HL) as (qms' & tab' & E' & LT & T1 & T2 & T3 & T4 & T5 & T6).
  rewrite E in E'. injection E' as <- <-.
  assert (LB : length (bs c) = length qms) by (rewrite Hb; apply map_length).
  assert (LQ : length (qns c) = length qms) by (rewrite Hq; apply map_length).
  assert (NB : forall n, nth n (bs c) 0 = snd (nth n qms (qn0, 0))) by (intros n; rewrite Hb; apply (map_nth snd qms (qn0, 0))).
  assert (NQ : forall n, nth n (qns c) qn0 = fst (nth n qms (qn0, 0))) by (intros n; rewrite Hq; apply (map_nth fst qms (qn0, 0))).
  assert (PC : forall n, n < length qms -> 0 < nth n (bs c) 0).
  { intros n Hn. destruct (T6 n Hn) as (k & K1 & <-). rewrite NB. destruct (T1 k K1) as (_ & K2 & K3 & _).
    assert (0 < sz bs cs (decode e k)); [|lia]. apply sz_pos; [intros x Hx; apply Hp, Hx|]. apply decode_valid. exact K1. }
  split; [exact Hne|]. split; [exact Hp|]. split; [exact Hc|]. split; [exact NC|]. split; [exact HL|]. split; [exact LT|].
  split; [|split; [exact T2|split; [|split; [|split; [|split]]]]].
  - intros k Hk. destruct (T1 k Hk) as (K1 & K2 & K3 & _). rewrite LB, NB. auto.
  - intros n p Hn Hpp. rewrite LB in Hn. rewrite NB in Hpp. now apply T3.
  - intros k n Hk. destruct (T1 k Hk) as (_ & _ & _ & _ & K). rewrite NQ. apply K.
  - split; [constructor; [intros []|constructor]|]. intros x [<-|[]]. split.
    + intros Q. rewrite Q in LB. destruct qms as [|y qms]; [|discriminate]. assert (K : 0 < size e).
      { apply size_pos. intros y Hy. apply in_map_iff in Hy as (x & <- & Hx). unfold nblocks. destruct (proj2 Hp x Hx) as [K _]. destruct (bs x); [congruence|cbn; lia]. }
      destruct (T1 0 K) as (K1 & _). cbn in K1. lia.
    + apply Forall_forall. intros y Hy. apply (In_nth _ _ 0) in Hy as (n & Hn & <-). apply PC. lia.
  - intros x [<-|[]]. split; [congruence|]. apply Forall_forall. intros y Hy. apply (In_nth _ _ qn0) in Hy as (n & Hn & <-). rewrite NQ. apply T5. lia.
  - intros n n' Hn Hn'. rewrite !NQ. apply T4; lia.
Qed.

Lemma flux_charge dir' : forall l s n, flux_val qns dir' l (blockof bs l s) n = fold_right Z.add 0%Z (map (fun x => arrow_int (dir' x) * charge x (s x) n)%Z l).
Proof. induction l as [|x l IH]; intros s n; cbn; auto. rewrite <- IH. reflexivity. Qed.

(** The new tensor of the same flux. *)
Lemma remake dirL dirN L N (A : qd R) : L <> [] -> labelled L -> labelled N -> (forall x, In x N -> bs x <> []) -> N <> [] -> stored L A ->
  exists q' D, calcDiv qns dirL L A = Ok q' /\ Charges M S q' /\ qmake r0 bs qns dirN N q' = Ok (Some D) /\ stored N D /\
    (forall b, has_block D b <-> valid (map (nblocks bs) N) b /\ has_flux qns dirN M N b q') /\
    (forall s, ranged N s -> qval N D s = r0) /\
    forall q, Charges M S q -> offs A <> [] -> (forall b, has_block A b -> has_flux qns dirL M L b q) -> forall n, qn_val_of q' n = qn_val_of q n.
Proof.
  intros Hne HL HLN Hb HneN HS.
  assert (exists q', calcDiv qns dirL L A = Ok q' /\ Charges M S q') as (q' & E & C).
  { unfold calcDiv. destruct L as [|x L]; [congruence|]. destruct (offs A) as [|[b o] l] eqn:EO; [exists qn0; split; [reflexivity|constructor]|].
    pose proof (stored_valid bs _ A HS) as SV. rewrite EO in SV. inversion SV; subst.
    destruct (block_qn_flux bs qns dirL M S Sch (x :: L) b qn0 HL H1 ltac:(constructor)) as (q2 & E2 & C2 & _). exists q2. auto. }
  destruct (qmake_spec r0 bs qns dirN M S Sch N q' HLN Hb C HneN) as (D & ED & SD & BD & ZD).
  exists q', D. split; [exact E|]. split; [exact C|]. split; [exact ED|]. split; [exact SD|]. split; [exact BD|]. split.
  - intros s Hs. destruct D as [o st]. cbn [store] in ZD. rewrite ZD. apply qval_zeros.
  - intros q Cq Ho HF. destruct (C20_div R I bs qns dirL M S L A q Sch HL Cq Hne HS Ho HF) as (q2 & E2 & K). rewrite E in E2. injection E2 as <-. apply (qeq M S); auto.
Qed.
Lemma calc_flux dirL L (A : qd R) q' : labelled L -> stored L A -> L <> [] -> calcDiv qns dirL L A = Ok q' -> Charges M S q' ->
  forall q, Charges M S q -> offs A <> [] -> (forall b, has_block A b -> has_flux qns dirL M L b q) ->
  forall b, has_block A b -> has_flux qns dirL M L b q'.
Proof.
  intros HL HS Hne E C q Cq Ho HF b Hb n. destruct (C20_div R I bs qns dirL M S L A q Sch HL Cq Hne HS Ho HF) as (q2 & E2 & K). rewrite E in E2. injection E2 as <-.
  rewrite (HF b Hb n). symmetry. apply (qeq M S); auto.
Qed.

(** The same with the numbering made explicit; combining stores every block of the flux. *)
Lemma qn_full : let JJ := J bs c cs tab in joint_value c cs JJ /\ charge_kept dir cdir c cs JJ /\
  (forall debug dirL dirR L A q, qtensor dirL L A q -> ~ In c L -> incl cs L -> comb_arrows dir cdir c cs dirR -> (forall x, In x cs -> dirL x = dir x) ->
   exists N B, times_qcombiner debug dirL dirR L A c cs tab = Ok (N, B) /\
    (forall x, In x N <-> x = c \/ (In x L /\ ~ In x cs)) /\
    (exists q', qtensor (dirC ieq dirL dirR L) N B q' /\ (offs A <> [] \/ q = qn0 -> q' = q) /\
       forall b, valid (map (nblocks bs) N) b -> has_flux qns (dirC ieq dirL dirR L) M N b q' -> has_block B b) /\
    forall s, ranged L s -> qval N B (override ieq s c (JJ s)) = qval L A s) /\
  (forall debug dirL dirR L A q, qtensor dirL L A q -> In c L -> (forall x, In x cs -> ~ In x L) -> dag_arrows dir cdir c cs dirR -> dirL c = cdir ->
   exists N B, times_qcombiner debug dirL dirR L A c cs tab = Ok (N, B) /\
    (forall x, In x N <-> In x cs \/ (In x L /\ x <> c)) /\
    (exists q', qtensor (dirC ieq dirL dirR L) N B q' /\ (offs A <> [] \/ q = qn0 -> q' = q)) /\
    forall s, ranged N s -> qval N B s = qval L A (override ieq s c (JJ s))).
Proof.
  destruct made_facts as (Hne & Hp & Hc & NC & HLc & T0 & T1 & T2 & T3 & TQ & PC & LC & _).
  destruct HQ as (_ & _ & _ & _ & _ & _ & _ & Hcd & Hdn).
  pose proof (arrow_sign cdir Hcd) as Hsg.
  intros JJ. split; [|split; [|split]].
  - split; [|split; [|split]].
    + intros s s' H. apply (kof_ext bs c cs tab s s' H).
    + intros s H. apply (J_spec bs c cs tab T0 T1 s H).
    + intros s s' H H' E. exact (J_inj bs c cs tab T0 T1 T2 s s' H H' E).
    + intros v s Hv. exact (J_surj ieq bs ieq_spec c cs tab Hp T0 T1 T3 v s Hv).
  - intros s n Hs. unfold charge. destruct (J_spec bs c cs tab T0 T1 s Hs) as (EJ & _). fold JJ in EJ. rewrite EJ. pose proof (kof_lt bs cs s Hs) as HK. rewrite TQ by exact HK.
    rewrite kof_block by exact Hs. pose proof (residue_sign (M n) (arrow_int cdir) (flux_val qns dir cs (blockof bs cs s) n) 0 Hsg) as Q. rewrite !Z.add_0_r in Q. rewrite Q.
    f_equal. apply flux_charge.
  - (* combining *)
    intros debug dirL dirR L A q (PL & LL & SA & Cq & FA) HcL HI [HR1 HR2] HdL.
    assert (HneL : L <> []) by (intros ->; destruct cs as [|x l]; [congruence|]; apply (HI x); left; auto).
    unfold QCombModel.times_qcombiner.
    assert (CA : checkArrows ieq dirL dirR L (c :: cs) false = Ok tt).
    { apply (checkArrows_opp ieq ieq_spec). intros x Hx [<-|Hx']; [contradiction|]. rewrite HR2, HdL by exact Hx'. apply arrow_neg_ne. auto. }
    rewrite CA. cbn [obind]. rewrite (proj2 (find_pos_none ieq ieq_spec c L) HcL). unfold qcombine.
    assert (FB : forallb (fun x => match find_pos ieq x L with Some _ => true | None => false end) cs = true).
    { apply forallb_forall. intros x Hx. destruct (find_pos ieq x L) eqn:EX; auto. apply (find_pos_none ieq ieq_spec) in EX. exfalso. apply EX, HI, Hx. }
    rewrite FB. cbn [negb]. destruct (rest L (map (fun x => find_pos ieq x cs) L) (length cs)) as [P rem] eqn:ER.
    pose proof (rem_in ieq ieq_spec c cs L rem P ER) as RI. pose proof (rem_nodup ieq bs c cs L rem P PL ER) as RN.
    pose proof (csrem_perm ieq bs ieq_spec c cs Hp L rem P PL HI ER) as CP.
    set (dirN := dirC ieq dirL dirR L).
    assert (DN : forall x, In x L -> dirN x = dirL x).
    { intros x Hx. unfold dirN, dirC. replace (existsb (ieq x) L) with true; auto. symmetry. apply existsb_exists. exists x. split; auto. now apply ieq_spec. }
    assert (DNc : dirN c = cdir).
    { unfold dirN, dirC. destruct (existsb (ieq c) L) eqn:EX; auto. apply existsb_exists in EX as (y & Hy & K). apply ieq_spec in K. subst. contradiction. }
    assert (LN : labelled (c :: rem)) by (intros x [<-|Hx]; [apply LC; now left|apply LL; apply RI in Hx; tauto]).
    assert (PN : proper (c :: rem)).
    { split; [constructor; [intros K; apply RI in K; tauto|exact RN]|]. intros x [<-|Hx]; [apply PC; now left|apply PL; apply RI in Hx; tauto]. }
    destruct (remake dirL dirN L (c :: rem) A HneL LL LN (fun x Hx => proj1 (proj2 PN x Hx)) ltac:(discriminate) SA) as (q' & D & EQ & CQ & ED & SD & BD & ZD & FQ).
    rewrite EQ. cbn [obind]. rewrite ED. cbn [obind].
    assert (FX : forall beta n, valid (map (nblocks bs) L) (map beta L) ->
      residue (M n) (flux_val qns dirN (c :: rem) (tblk tab (enc e (map beta cs)) :: map beta rem) n) = residue (M n) (flux_val qns dirL L (map beta L) n)).
    { intros beta n V. assert (Vcs : valid e (map beta cs)).
      { apply inrange_valid. apply inrange_valid in V. intros x Hx. apply V, HI, Hx. }
      cbn [flux_val]. rewrite DNc, TQ by (now apply enc_lt). rewrite decode_enc by exact Vcs. rewrite residue_sign by exact Hsg. f_equal.
      rewrite <- (flux_perm qns dirL dirL (cs ++ rem) L beta n CP ltac:(auto)). rewrite map_app, flux_app by apply map_length. f_equal.
      - apply flux_dir. intros x Hx. symmetry. auto.
      - apply flux_dir. intros x Hx. apply DN. apply RI in Hx. tauto. }
    destruct (combine_blocks_spec r0 ieq bs ieq_spec c cs tab Hp T0 T1 T2 L rem P PL HcL HI ER A D SA) with (l := offs A) (dst := store D) as (S' & ES & SS & HV).
    { intros beta o Hin. apply BD. destruct (stored_bound _ _ _ _ _ SA Hin) as [V _]. split.
      - constructor.
        + apply T1. apply enc_lt. apply inrange_valid. apply inrange_valid in V. intros x Hx. apply V, HI, Hx.
        + apply inrange_valid. apply inrange_valid in V. intros x Hx. apply V. apply RI in Hx. tauto.
      - intros n. rewrite FX by exact V. apply (calc_flux dirL L A q' LL SA HneL EQ CQ q Cq); [intros Q; rewrite Q in Hin; contradiction|exact FA|].
        apply in_map_iff. eexists; split; [|exact Hin]; reflexivity. }
    { apply incl_refl. } { apply (stored_nodup bs L A SA). } { destruct D; exact SD. }
    rewrite ES. cbn [obind]. rewrite nodup_no_dup by (exact ieq_spec || apply PN). rewrite andb_false_r. exists (c :: rem), (mkQD (offs D) S'). split; [reflexivity|].
    split; [intros x; cbn [In]; rewrite RI; split; (intros [K|K]; [left; congruence|right; tauto])|].
    split.
    + assert (G : forall q2, Charges M S q2 -> (forall n, qn_val_of q' n = qn_val_of q2 n) -> qtensor dirN (c :: rem) (mkQD (offs D) S') q2).
      { intros q2 C2 E2. split; [exact PN|]. split; [exact LN|]. split; [exact SS|]. split; [exact C2|]. intros b Hb n.
        assert (Hb' : has_block D b) by exact Hb. apply BD in Hb' as [_ K]. rewrite (K n). apply E2. }
      assert (Q0 : offs A = [] -> q' = qn0).
      { intros EO. revert EQ. unfold calcDiv. destruct L; [congruence|]. rewrite EO. congruence. }
      destruct (offs A) as [|x0 l0] eqn:EO.
      * exists q'. split; [now apply G|]. split; [intros [K|K]; [congruence|rewrite K; auto]|]. intros b Vb Fb. apply BD. auto.
      * exists q. split; [apply G; auto; apply FQ; auto; congruence|]. split; [auto|]. intros b Vb Fb. apply BD. split; [exact Vb|]. intros n. rewrite (Fb n). symmetry. apply FQ; auto. congruence.
    + intros s Hs. fold JJ in HV. rewrite HV by exact Hs. destruct (in_dec _ _ _) as [K|K]; [reflexivity|].
      rewrite (qval_notin r0 bs L A s K). destruct D as [oD sD]; cbn [offs store]. apply ZD. apply (ranged_N ieq bs ieq_spec c cs tab T0 T1 L rem P HcL HI ER s Hs).
  - (* uncombining *)
    intros debug dirL dirR L A q (PL & LL & SA & Cq & FA) HcL HD [HR1 HR2] HdL.
    assert (HneL : L <> []) by (intros ->; contradiction).
    unfold QCombModel.times_qcombiner.
    assert (CA : checkArrows ieq dirL dirR L (c :: cs) false = Ok tt).
    { apply (checkArrows_opp ieq ieq_spec). intros x Hx [<-|Hx']; [rewrite HdL, HR1; now apply arrow_neg_ne|]. exfalso. exact (HD x Hx' Hx). }
    rewrite CA. cbn [obind]. destruct (find_pos ieq c L) as [jc|] eqn:EJ.
    2:{ apply (find_pos_none ieq ieq_spec) in EJ. contradiction. }
    destruct (find_split ieq ieq_spec _ _ _ EJ) as (a & z & EL & EA & HNa). subst L. subst jc. unfold quncombine.
    rewrite (replace_at_app (fun _ => 0) cs c a z 0 HNa : replace_at 0 (length a) (a ++ c :: z) cs = a ++ cs ++ z).
    pose proof (proj1 PL) as NDL. apply NoDup_remove in NDL as [NAB HNab].
    assert (NDN : NoDup (a ++ cs ++ z)).
    { eapply Permutation_NoDup; [symmetry; rewrite app_assoc; apply Permutation_app_tail, Permutation_app_comm|]. rewrite <- app_assoc.
      apply NoDup_app_intro; auto. intros x K1 K2. apply (HD x K1). rewrite in_app_iff in *. cbn. tauto. }
    assert (INN : forall x, In x (a ++ cs ++ z) <-> In x cs \/ (In x (a ++ c :: z) /\ x <> c)).
    { intros x. rewrite !in_app_iff. cbn [In]. rewrite in_app_iff in HNab. split.
      - intros [H|[H|H]]; auto; right; (split; [tauto|]); intros ->; tauto.
      - intros [H|[[H|[H|H]] K]]; auto; congruence. }
    assert (PN : proper (a ++ cs ++ z)).
    { split; [exact NDN|]. intros x Hx. apply INN in Hx as [Hx|[Hx _]]; [apply Hp|apply PL]; exact Hx. }
    assert (LN : labelled (a ++ cs ++ z)).
    { intros x Hx. apply INN in Hx as [Hx|[Hx _]]; [apply HLc|apply LL]; exact Hx. }
    set (dirN := dirC ieq dirL dirR (a ++ c :: z)).
    assert (DN : forall x, In x (a ++ c :: z) -> dirN x = dirL x).
    { intros x Hx. unfold dirN, dirC. replace (existsb (ieq x) (a ++ c :: z)) with true; auto. symmetry. apply existsb_exists. exists x. split; auto. now apply ieq_spec. }
    assert (DNc : forall x, In x cs -> dirN x = dir x).
    { intros x Hx. unfold dirN, dirC. destruct (existsb (ieq x) (a ++ c :: z)) eqn:EX; auto. apply existsb_exists in EX as (y & Hy & K). apply ieq_spec in K. subst. exfalso. exact (HD y Hx Hy). }
    assert (HneN : a ++ cs ++ z <> []) by (intros Q; apply app_eq_nil in Q as [_ Q]; apply app_eq_nil in Q as [Q _]; contradiction).
    destruct (remake dirL dirN (a ++ c :: z) (a ++ cs ++ z) A HneL LL LN (fun x Hx => proj1 (proj2 PN x Hx)) HneN SA) as (q' & D & EQ & CQ & ED & SD & BD & ZD & FQ).
    rewrite EQ. cbn [obind]. rewrite ED. cbn [obind].
    assert (Vk : forall k, k < size e -> valid e (decode e k)) by (intros; now apply decode_valid).
    destruct (uncombine_blocks_spec r0 ieq bs ieq_spec c cs tab Hp T0 T1 a z PL PN Hne A D SA) with (l := offs A) (dst := store D) as (S' & ES & SS & HV).
    { intros beta o k Hin Hk Ek. apply BD. destruct (stored_bound _ _ _ _ _ SA Hin) as [V _]. apply inrange_valid in V. split.
      - rewrite !map_app. apply valid_join; [|apply valid_join; auto]; apply inrange_valid; intros x Hx; apply V; rewrite in_app_iff; cbn; auto.
      - intros n. rewrite flux_app by apply map_length. rewrite flux_app by (rewrite decode_length, map_length; reflexivity).
        assert (HA : has_block A (map beta (a ++ c :: z))) by (apply in_map_iff; eexists; split; [|exact Hin]; reflexivity).
        pose proof (calc_flux dirL (a ++ c :: z) A q' LL SA HneL EQ CQ q Cq ltac:(intros Q; rewrite Q in Hin; contradiction) FA _ HA n) as K.
        rewrite <- K, map_app, flux_app by apply map_length. cbn [map flux_val]. rewrite <- Ek, TQ, HdL by exact Hk.
        rewrite Z.add_comm, <- Z.add_assoc. rewrite (flux_dir qns dirN dir cs) by exact DNc.
        rewrite (Z.add_comm (flux_val qns dirL a _ n)). rewrite <- (Z.add_assoc (arrow_int cdir * _)%Z). rewrite residue_sign by exact Hsg. f_equal.
        rewrite (flux_dir qns dirN dirL a), (flux_dir qns dirN dirL z); [ring| |]; intros x Hx; apply DN; rewrite in_app_iff; cbn; auto. }
    { apply incl_refl. } { destruct D; exact SD. }
    rewrite ES. cbn [obind]. rewrite nodup_no_dup by (exact ieq_spec || apply PN). rewrite andb_false_r. exists (a ++ cs ++ z), (mkQD (offs D) S'). split; [reflexivity|].
    split; [exact INN|]. split.
    + assert (G : forall q2, Charges M S q2 -> (forall n, qn_val_of q' n = qn_val_of q2 n) -> qtensor dirN (a ++ cs ++ z) (mkQD (offs D) S') q2).
      { intros q2 C2 E2. split; [exact PN|]. split; [exact LN|]. split; [exact SS|]. split; [exact C2|]. intros b Hb n.
        assert (Hb' : has_block D b) by exact Hb. apply BD in Hb' as [_ K]. rewrite (K n). apply E2. }
      assert (Q0 : offs A = [] -> q' = qn0).
      { intros EO. revert EQ. unfold calcDiv. destruct (a ++ c :: z) eqn:Eaz; [destruct a; discriminate|]. rewrite EO. congruence. }
      destruct (offs A) as [|x0 l0] eqn:EO; [exists q'; split; [now apply G|intros [K|K]; [congruence|rewrite K; auto]]|]. exists q. split; [|auto]. apply G; auto. apply FQ; auto. congruence.
    + intros s Hs. fold JJ in HV. destruct (HV s Hs) as [V1 V2]. destruct (in_dec (list_eq_dec Nat.eq_dec) (blockof bs (a ++ c :: z) (override ieq s c (JJ s))) (map fst (offs A))) as [K|K]; [now apply V1|].
      rewrite V2 by exact K. rewrite (qval_notin r0 bs (a ++ c :: z) A _ K). destruct D as [oD sD]; cbn [offs store]. apply ZD. exact Hs.
Qed.

(** C17.  A combiner of indices with quantum numbers.  There is one numbering J of the joint values of
    the combined indices by the values of c, keeping the charge, such that combining any tensor, in both
    builds, wherever and in whatever order it has the combined indices, replaces them by c and moves
    every element to the value J of c, and uncombining (with dag of the combiner) is the inverse.
    The flux is kept. *)
Theorem C17_qn : exists J, joint_value c cs J /\ charge_kept dir cdir c cs J /\
  (* combining *)
  (forall debug dirL dirR L A q, qtensor dirL L A q -> ~ In c L -> incl cs L -> comb_arrows dir cdir c cs dirR -> (forall x, In x cs -> dirL x = dir x) ->
   exists N B, times_qcombiner debug dirL dirR L A c cs tab = Ok (N, B) /\
    (forall x, In x N <-> x = c \/ (In x L /\ ~ In x cs)) /\
    (exists q', qtensor (dirC ieq dirL dirR L) N B q' /\ (offs A <> [] -> q' = q)) /\
    forall s, ranged L s -> qval N B (override ieq s c (J s)) = qval L A s) /\
  (* uncombining *)
  (forall debug dirL dirR L A q, qtensor dirL L A q -> In c L -> (forall x, In x cs -> ~ In x L) -> dag_arrows dir cdir c cs dirR -> dirL c = cdir ->
   exists N B, times_qcombiner debug dirL dirR L A c cs tab = Ok (N, B) /\
    (forall x, In x N <-> In x cs \/ (In x L /\ x <> c)) /\
    (exists q', qtensor (dirC ieq dirL dirR L) N B q' /\ (offs A <> [] -> q' = q)) /\
    forall s, ranged N s -> qval N B s = qval L A (override ieq s c (J s))).
Proof.
  destruct qn_full as (H1 & H2 & H3 & H4). exists (J bs c cs tab). split; [exact H1|]. split; [exact H2|]. split.
  - intros debug dirL dirR L A q K1 K2 K3 K4 K5. destruct (H3 debug dirL dirR L A q K1 K2 K3 K4 K5) as (N & B & E1 & E2 & (q' & E3 & E4 & _) & E5).
    exists N, B. split; [exact E1|]. split; [exact E2|]. split; [exists q'; split; [exact E3|intros K; apply E4; now left]|exact E5].
  - intros debug dirL dirR L A q K1 K2 K3 K4 K5. destruct (H4 debug dirL dirR L A q K1 K2 K3 K4 K5) as (N & B & E1 & E2 & (q' & E3 & E4) & E5).
    exists N, B. split; [exact E1|]. split; [exact E2|]. split; [exists q'; split; [exact E3|intros K; apply E4; now left]|exact E5].
Qed.

(** C17.  Different blocks of the combined index have different quantum numbers. *)
Theorem C17_qn_sectors : forall n n', n < length (qns c) -> n' < length (qns c) -> n <> n' -> qn_eqb (nth n (qns c) qn0) (nth n' (qns c) qn0) = false.
Proof.
  destruct made_facts as (_ & _ & _ & _ & _ & _ & _ & _ & _ & _ & _ & [LC CC] & T4); [now left|]. intros n n' Hn Hn' Ne.
  destruct (Nat.lt_gt_cases n n') as [K _]. destruct (K Ne) as [K1|K1]; [auto|].
  specialize (T4 n' n K1 Hn). destruct (qn_eqb (nth n (qns c) qn0) (nth n' (qns c) qn0)) eqn:E; auto. rewrite Forall_forall in CC.
  pose proof (proj1 (qn_eqb_iff M S _ _ Sch (CC _ (nth_In _ _ Hn)) (CC _ (nth_In _ _ Hn'))) E) as Q.
  rewrite <- T4. symmetry. apply (qn_eqb_iff M S _ _ Sch (CC _ (nth_In _ _ Hn')) (CC _ (nth_In _ _ Hn))). intros m. symmetry. apply Q.
Qed.

(** C17.  Combining and then uncombining restores every element; the indices are the original ones. *)
Theorem C17_qn_roundtrip : forall debug dirL dirR dirR' L A q N B, qtensor dirL L A q -> ~ In c L -> incl cs L ->
  comb_arrows dir cdir c cs dirR -> dag_arrows dir cdir c cs dirR' -> (forall x, In x cs -> dirL x = dir x) ->
  times_qcombiner debug dirL dirR L A c cs tab = Ok (N, B) ->
  exists L' B', times_qcombiner debug (dirC ieq dirL dirR L) dirR' N B c cs tab = Ok (L', B') /\ Permutation L' L /\ stored L' B' /\
    forall s, ranged L s -> qval L' B' s = qval L A s.
Proof.
  intros debug dirL dirR dirR' L A q N B TA HcL HI AR AR' HdL E.
  destruct C17_qn as (J & JV & _ & HC & HU).
  destruct (HC debug dirL dirR L A q TA HcL HI AR HdL) as (N' & B' & E' & HN & (q' & TB & _) & HV). rewrite E in E'. injection E' as <- <-.
  pose proof made_facts as (_ & _ & Hc & _).
  destruct (HU debug (dirC ieq dirL dirR L) dirR' N B q' TB) as (L' & B2 & E2 & HL & (q2 & TB2 & _) & HV2); auto.
  - apply HN. now left.
  - intros x Hx K. apply HN in K as [->|[_ K]]; auto.
  - unfold dirC. destruct (existsb (ieq c) L) eqn:EX; [|apply AR]. apply existsb_exists in EX as (y & Hy & K). apply ieq_spec in K. subst. contradiction.
  - assert (HP : Permutation L' L).
    { apply NoDup_Permutation; [apply TB2|apply TA|]. intros x. rewrite HL, HN. destruct (in_dec (ieq_dec ieq ieq_spec) x cs) as [K|K].
      - split; auto.
      - split; [intros [H|[[H|H] G]]; tauto|]. intros H. right. split; auto. intros ->. contradiction. }
    exists L', B2. split; [exact E2|]. split; [exact HP|]. split; [apply TB2|]. intros s Hs.
    rewrite HV2 by (intros x Hx; apply Hs; eapply Permutation_in; eauto). now apply HV.
Qed.
End Made.

(** C17.  combiner succeeds on every non-empty list of indices with quantum numbers. *)
Theorem C17_qn_made : forall dir cdir cs, cs <> [] -> proper cs -> labelled cs -> exists qms tab, qcombiner bs qns dir cdir cs = Ok (qms, tab).
Proof.
  intros dir cdir cs Hne Hp HL. destruct (qcombiner_spec bs qns dir cdir M S Sch cs Hne (fun x Hx => proj1 (proj2 Hp x Hx)) HL) as (qms & tab & E & _). eauto.
Qed.

(** C17.  A tensor one of whose indices the combiner has with the same arrow is refused. *)
Theorem C17_qn_arrows : forall debug dirL dirR L (A : qd R) c cs tab x, In x L -> In x (c :: cs) -> dirL x = dirR x ->
  times_qcombiner debug dirL dirR L A c cs tab = Err.
Proof.
  intros debug dirL dirR L A c cs tab x HL HR E. unfold QCombModel.times_qcombiner.
  destruct (checkArrows_cases ieq dirL dirR L (c :: cs) false) as [K|K]; rewrite K; [|reflexivity].
  exfalso. exact (proj1 (checkArrows_opp ieq ieq_spec dirL dirR _ _) K x HL HR E).
Qed.

(** C17.  A combiner whose combined index and some of whose combined indices the tensor lacks: an error
    in a DEBUG build; otherwise nothing is checked, and an index is written past the end of the new set. *)
Theorem C17_qn_missing : forall dirL dirR L (A : qd R) c cs tab, ~ In c L -> ~ incl cs L -> times_qcombiner true dirL dirR L A c cs tab = Err.
Proof.
  intros dirL dirR L A c cs tab HcL HI. unfold QCombModel.times_qcombiner.
  destruct (checkArrows_cases ieq dirL dirR L (c :: cs) false) as [K|K]; rewrite K; [|reflexivity]. cbn [obind].
  rewrite (proj2 (find_pos_none ieq ieq_spec c L) HcL). unfold qcombine.
  destruct (forallb (fun x => match find_pos ieq x L with Some _ => true | None => false end) cs) eqn:EF; [|reflexivity].
  exfalso. apply HI. intros x Hx. rewrite forallb_forall in EF. specialize (EF x Hx). destruct (find_pos ieq x L) eqn:EX; [|discriminate].
  destruct (in_dec (ieq_dec ieq ieq_spec) x L) as [|Nx]; auto. apply (find_pos_none ieq ieq_spec) in Nx. congruence.
Qed.
Theorem C17_qn_missing_release_refuted : forall dirL dirR L (A : qd R) c cs tab, ~ In c L -> ~ incl cs L ->
  (forall x, In x L -> In x cs -> dirL x <> dirR x) -> times_qcombiner false dirL dirR L A c cs tab = UB.
Proof.
  intros dirL dirR L A c cs tab HcL HI HA. unfold QCombModel.times_qcombiner.
  rewrite (proj2 (checkArrows_opp ieq ieq_spec dirL dirR L (c :: cs))) by (intros x Hx [<-|K]; [contradiction|auto]). cbn [obind].
  rewrite (proj2 (find_pos_none ieq ieq_spec c L) HcL). unfold qcombine.
  destruct (forallb (fun x => match find_pos ieq x L with Some _ => true | None => false end) cs) eqn:EF; [|reflexivity].
  exfalso. apply HI. intros x Hx. rewrite forallb_forall in EF. specialize (EF x Hx). destruct (find_pos ieq x L) eqn:EX; [|discriminate].
  destruct (in_dec (ieq_dec ieq ieq_spec) x L) as [|Nx]; auto. apply (find_pos_none ieq ieq_spec) in Nx. congruence.
Qed.
End Props.

(** ** concrete case: three indices with blocks of sizes 1 and 2; 9 combines (2,0) of opposite arrows
    into sectors of charge 0 (sizes 1 and 4), -1 and +1; an element of a tensor of zero flux and its
    place in the combined tensor. *)
Definition cq_bs (x : nat) : list nat := if x =? 9 then [5; 2; 2] else [1; 2].
Definition cq_dir (x : nat) : Arrow := if x =? 0 then ArrIn else ArrOut.
Definition cq_qms := match qcombiner cq_bs c20_qns cq_dir ArrOut [2; 0] with Ok (qms, _) => qms | _ => [] end.
Definition cq_tab := match qcombiner cq_bs c20_qns cq_dir ArrOut [2; 0] with Ok (_, t) => t | _ => [] end.
Definition cq_qns (x : nat) : list QN := if x =? 9 then map fst cq_qms else c20_qns x.
Definition cq_dirR (x : nat) : Arrow := if x =? 9 then ArrOut else arrow_neg (cq_dir x).
Lemma cq_qcombines : qcombines cq_bs cq_qns ex_mod ex_names cq_dir ArrOut 9 [2; 0] cq_tab.
Proof.
  exists cq_qms. split; [vm_compute; reflexivity|]. split; [vm_compute; reflexivity|]. split; [reflexivity|].
  split; [repeat constructor; cbn; intuition discriminate|]. split.
  { split; [repeat constructor; cbn; intuition discriminate|]. intros x [<-|[<-|[]]]; cbn; (split; [discriminate|repeat constructor]). }
  split; [intros x [<-|[<-|[]]]; split; try reflexivity; (constructor; [constructor|]; constructor; [exact ex_charges1|constructor])|].
  split; [discriminate|]. intros x [<-|[<-|[]]]; discriminate.
Qed.
Example C17_qn_nonvacuous : Scheme ex_mod ex_names /\ qcombines cq_bs cq_qns ex_mod ex_names cq_dir ArrOut 9 [2; 0] cq_tab /\
  cq_tab = [(0, 0, 1); (1, 0, 2); (2, 0, 2); (0, 1, 4)] /\
  comb_arrows cq_dir ArrOut 9 [2; 0] cq_dirR /\
  exists A, qtensor cq_bs cq_qns ex_mod ex_names cq_dir [0; 1; 2] A qn0 /\ offs A = [([0; 0; 0], 0); ([1; 1; 0], 1); ([1; 0; 1], 5)] /\ store A = [1; 2; 3; 4; 5; 6; 7; 8; 9]%Z /\
  match times_qcombiner 0%Z Nat.eqb cq_bs cq_qns true cq_dir cq_dirR [0; 1; 2] A 9 [2; 0] cq_tab with
  | Ok (N, B) => N = [9; 1] /\ store B = [1; 6; 8; 7; 9; 2; 3; 4; 5]%Z
  | _ => False
  end.
Proof.
  split; [exact ex_scheme|]. split; [exact cq_qcombines|]. split; [vm_compute; reflexivity|].
  split; [split; [reflexivity|intros x [<-|[<-|[]]]; reflexivity]|].
  exists (mkQD [([0; 0; 0], 0); ([1; 1; 0], 1); ([1; 0; 1], 5)] [1; 2; 3; 4; 5; 6; 7; 8; 9]%Z).
  split; [|split; [reflexivity|split; [reflexivity|vm_compute; auto]]].
  split.
  { split; [repeat constructor; cbn; intuition discriminate|]. intros x [<-|[<-|[<-|[]]]]; cbn; (split; [discriminate|repeat constructor]). }
  split; [intros x [<-|[<-|[<-|[]]]]; split; try reflexivity; (constructor; [constructor|]; constructor; [exact ex_charges1|constructor])|].
  split; [split; cbn; [|repeat constructor; cbn; lia]|].
  { split; [auto|]. split; [repeat constructor; cbn; lia|]. split; [auto|]. split; [repeat constructor; cbn; lia|]. split; [auto|]. split; [repeat constructor; cbn; lia|auto]. }
  split; [constructor|]. intros b Hb n. cbn in Hb. destruct Hb as [<-|[<-|[<-|[]]]]; rewrite <- qn0_val; unfold cq_qns, cq_dir, c20_qns; cbn [flux_val Nat.eqb nth arrow_int]; rewrite <- ?qn0_val;
    match goal with |- residue _ ?z = 0%Z => replace z with 0%Z by ring end; apply residue_0.
Qed.

Print Assumptions C17_qn.
Print Assumptions C17_qn_sectors.
Print Assumptions C17_qn_roundtrip.
Print Assumptions C17_qn_made.
Print Assumptions C17_qn_arrows.
Print Assumptions C17_qn_missing.
Print Assumptions C17_qn_missing_release_refuted.
