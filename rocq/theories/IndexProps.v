(** C06, C07, C08: indices, index sets, and tag/prime operations on index sets.
    Vocabulary: IndexSpec.v (and TagSetSpec.v for the abstract value of a tag set). *)
From Coq Require Import List ZArith Bool Lia Arith Permutation.
From Coq Require Import Init.Byte.
From Verif Require Import Util SmallStringModel SmallStringProofs TagSetModel TagSetSpec TagSetProofs TagSetProps
  QnModel IndexModel IndexSpec IndexProofs.
Import ListNotations.

(** ** C06 *)

(** Two indices are equal exactly when id, prime level and tags agree. *)
Theorem C06_equal : forall a b, valid a -> valid b -> (ix_eqb a b = true <-> same a b).
Proof. intros a b Va Vb. rewrite ix_eqb_key. symmetry. now apply same_key. Qed.

(** prime, setPrime and noPrime change the level as stated and nothing else, as long as the level is
    not negative; in a release build prime never fails. *)
Theorem C06_prime : forall dbg n J, (0 <= ix_level J + n)%Z \/ dbg = false ->
  exists J', ix_prime dbg n J = Ok J' /\ same_object J J' /\
    ix_level J' = (ix_level J + n)%Z /\ ts_list (ix_tags J') = ts_list (ix_tags J).
Proof.
  intros dbg n J H. exists (with_tags J (ts_prime (ix_tags J) n)). split; [|split; [apply same_object_tags|split; reflexivity]].
  unfold ix_prime, level_check. replace (ix_level (with_tags J (ts_prime (ix_tags J) n))) with (ix_level J + n)%Z by reflexivity.
  destruct dbg; [|reflexivity]. destruct H as [H|H]; [|discriminate].
  rewrite (proj2 (Z.ltb_ge _ _)) by lia. reflexivity.
Qed.
Theorem C06_setPrime : forall dbg p J, (0 <= p)%Z \/ dbg = false ->
  exists J', ix_setPrime dbg p J = Ok J' /\ same_object J J' /\
    ix_level J' = p /\ ts_list (ix_tags J') = ts_list (ix_tags J).
Proof.
  intros dbg p J H. exists (with_tags J (ts_setPrime (ix_tags J) p)). split; [|split; [apply same_object_tags|split; reflexivity]].
  unfold ix_setPrime, level_check. replace (ix_level (with_tags J (ts_setPrime (ix_tags J) p))) with p by reflexivity.
  destruct dbg; [|reflexivity]. destruct H as [H|H]; [|discriminate].
  rewrite (proj2 (Z.ltb_ge _ _)) by lia. reflexivity.
Qed.
Theorem C06_noPrime : forall J, same_object J (ix_noPrime J) /\ ix_level (ix_noPrime J) = 0%Z /\
  ts_list (ix_tags (ix_noPrime J)) = ts_list (ix_tags J).
Proof. intros J. repeat split. Qed.
(** Priming composes additively, and priming by 0 changes nothing. *)
Theorem C06_prime_additive : forall dbg m n J J1 J2, ix_prime dbg m J = Ok J1 -> ix_prime dbg n J1 = Ok J2 ->
  ix_prime dbg (m + n) J = Ok J2 /\ ix_prime false 0 J = Ok J.
Proof.
  assert (L : forall dbg J K, level_check dbg J = Ok K -> K = J).
  { intros dbg J K. unfold level_check. destruct (_ && _); intros E; [discriminate|congruence]. }
  assert (P : forall m n ts, ts_prime (ts_prime ts m) n = ts_prime ts (m + n)).
  { intros m n ts. unfold ts_prime. simpl. f_equal. lia. }
  intros dbg m n J J1 J2 H1 H2. unfold ix_prime in *. pose proof (L _ _ _ H1). subst J1.
  unfold with_tags in *. cbn [ix_tags ix_id ix_dim ix_dir ix_qns] in *. rewrite P in H2. split; auto.
  unfold level_check. simpl. f_equal. destruct J as [i d r q [a b c]]. simpl. unfold ts_prime. simpl. do 2 f_equal. lia.
Qed.
(** A negative level is reported in a DEBUG build. *)
Theorem C06_negative_level : forall n J, (ix_level J + n < 0)%Z -> ix_prime true n J = Err.
Proof.
  intros n J H. unfold ix_prime, level_check.
  replace (ix_level (with_tags J (ts_prime (ix_tags J) n))) with (ix_level J + n)%Z by reflexivity.
  rewrite (proj2 (Z.ltb_lt _ _)) by lia. reflexivity.
Qed.

(** dag reverses the arrow, changes nothing else, does not change equality and is an involution. *)
Theorem C06_dag : forall J, ix_dir J <> ArrNeither ->
  ix_dir (ix_dag J) = (match ix_dir J with ArrIn => ArrOut | _ => ArrIn end) /\
  ix_id (ix_dag J) = ix_id J /\ ix_dim (ix_dag J) = ix_dim J /\ ix_qns (ix_dag J) = ix_qns J /\
  ix_tags (ix_dag J) = ix_tags J /\ (forall K, ix_eqb (ix_dag J) K = ix_eqb J K) /\ ix_dag (ix_dag J) = J.
Proof. intros [i d r q t] H. simpl in H. destruct r; try contradiction; repeat split. Qed.

(** A primed index is a different index, and unpriming gives the index back. *)
Theorem C06_prime_differs : forall n J J1, n <> 0%Z -> ix_prime false n J = Ok J1 ->
  ix_eqb J1 J = false /\ ix_prime false (- n) J1 = Ok J.
Proof.
  intros n J J1 Hn H. injection H as <-. split.
  - apply ix_eqb_false. unfold key. intros E. apply (f_equal (fun x => snd (fst x))) in E. cbn [fst snd] in E.
    unfold ix_level, with_tags, ts_prime in E. cbn [ix_tags ts_plev] in E. lia.
  - unfold ix_prime, level_check. simpl. f_equal. destruct J as [i d r q [a b c]]. unfold with_tags, ts_prime. simpl. do 2 f_equal. lia.
Qed.

(** sim gives an index with the same dimension, arrow, blocks and tags, equal to the old one only if
    the generated id is the same. *)
Theorem C06_sim : forall id J, valid J ->
  let K := ix_sim id J in
  ix_dim K = ix_dim J /\ ix_dir K = ix_dir J /\ ix_qns K = ix_qns J /\ ix_tags K = ix_tags J /\
  (ix_eqb K J = true <-> id = ix_id J).
Proof.
  intros id J VJ. repeat split.
  - intros H. apply C06_equal in H; auto. apply H.
  - intros ->. apply C06_equal; auto. repeat split; auto.
Qed.

(** The constructor keeps the dimension it is given if that fits a 32-bit integer. *)
Theorem C06_dim : forall id m ts, (-2147483648 <= m <= 2147483647)%Z -> ix_dim (ix_new id m ts) = m.
Proof.
  intros id m ts H. simpl. unfold to_int. rewrite Z.mod_small by lia. lia.
Qed.
(** Finding: a larger dimension (the parameter is long) silently changes. *)
Theorem C06_dim_refuted : exists m, (0 < m)%Z /\ forall id ts, ix_dim (ix_new id m ts) = 3%Z /\ m <> 3%Z.
Proof. exists 4294967299%Z. split; [lia|]. intros id ts. split; [reflexivity|lia]. Qed.

(** operator< orders by dimension, id, level: a strict order ... *)
Theorem C06_less_strict : forall a b c, ix_ltb a a = false /\ (ix_ltb a b = true -> ix_ltb b c = true -> ix_ltb a c = true).
Proof.
  intros a b c. unfold ix_ltb. split.
  - rewrite Z.eqb_refl, N.eqb_refl. apply Z.ltb_irrefl.
  - destruct (Z.eqb_spec (ix_dim a) (ix_dim b)), (Z.eqb_spec (ix_dim b) (ix_dim c)), (Z.eqb_spec (ix_dim a) (ix_dim c)),
      (N.eqb_spec (ix_id a) (ix_id b)), (N.eqb_spec (ix_id b) (ix_id c)), (N.eqb_spec (ix_id a) (ix_id c));
      rewrite ?Z.ltb_lt, ?N.ltb_lt; intros; try lia; try congruence.
Qed.
(** ... but (finding) different indices that differ in tags only are not ordered. *)
Theorem C06_less_total_refuted :
  exists a b, valid a /\ valid b /\ ~ same a b /\ ix_ltb a b = false /\ ix_ltb b a = false.
Proof.
  exists (ix_new 7 2 exAB), (ix_new 7 2 ts_new).
  assert (V1 : valid (ix_new 7 2 exAB)).
  { apply (api_op (OSetPrime 0) exAB); [apply exAB_api|constructor|reflexivity]. }
  assert (V2 : valid (ix_new 7 2 ts_new)) by (apply (api_op (OSetPrime 0) ts_new); [constructor|constructor|reflexivity]).
  split; auto. split; auto. split; [|split; reflexivity].
  intros H. apply same_key in H; auto. vm_compute in H. discriminate.
Qed.

(** ** C07 *)
Section Sets.
Variables is1 is2 : list index.
Hypothesis V1 : Forall valid is1.
Hypothesis V2 : Forall valid is2.
Hypothesis D1 : distinct is1.
Hypothesis D2 : distinct is2.

Lemma val1 J : In J is1 -> valid J.
Proof. rewrite Forall_forall in V1. auto. Qed.
Lemma val2 J : In J is2 -> valid J.
Proof. rewrite Forall_forall in V2. auto. Qed.

(** commonInds: the indices of the first argument that the second also has, in order. *)
Theorem C07_common : sublist (commonInds is1 is2) is1 /\
  forall J, In J (commonInds is1 is2) <-> In J is1 /\ has is2 J.
Proof.
  split; [apply filter_sublist|]. intros J. unfold commonInds. rewrite filter_In.
  split; intros [H1 H2]; split; auto; apply hasIndex_has; auto using val1.
Qed.
(** uniqueInds: those that the second does not have. *)
Theorem C07_unique : sublist (uniqueInds is1 is2) is1 /\
  forall J, In J (uniqueInds is1 is2) <-> In J is1 /\ ~ has is2 J.
Proof.
  split; [apply filter_sublist|]. intros J. unfold uniqueInds. rewrite filter_In, negb_true_iff.
  split; intros [H1 H2]; split; auto.
  - rewrite <- hasIndex_has by auto using val1. congruence.
  - rewrite <- hasIndex_has in H2 by auto using val1. destruct (hasIndex is2 J); congruence.
Qed.
(** Every index is in exactly one of the two. *)
Theorem C07_partition : Permutation is1 (commonInds is1 is2 ++ uniqueInds is1 is2).
Proof.
  unfold commonInds, uniqueInds. induction is1 as [|J l IH]; simpl; auto.
  inversion V1; subst. assert (DD : distinct l).
  { apply distinct_keys; auto. apply distinct_keys in D1; auto. now inversion D1. }
  specialize (IH H2 DD). destruct (hasIndex is2 J); simpl; [now constructor|]. apply Permutation_cons_app. auto.
Qed.
(** unionInds: the first argument, then what is new in the second; no repetitions. *)
Theorem C07_union : exists l, unionInds is1 is2 = is1 ++ l /\ sublist l is2 /\
  (forall K, valid K -> (has (unionInds is1 is2) K <-> has is1 K \/ has is2 K)) /\ distinct (unionInds is1 is2).
Proof.
  exists (filter (fun J => negb (hasIndex is1 J)) is2). split; [reflexivity|]. split; [apply filter_sublist|].
  assert (VF : Forall valid (filter (fun J => negb (hasIndex is1 J)) is2)).
  { apply Forall_forall. intros x Hx. apply filter_In in Hx. apply val2. tauto. }
  assert (VU : Forall valid (unionInds is1 is2)) by (apply Forall_app; auto).
  split.
  - intros K VK. rewrite !has_key by auto. unfold unionInds. rewrite map_app, in_app_iff. split; intros [H|H]; auto.
    + right. apply in_map_iff in H as (J & E & HJ). apply filter_In in HJ. apply in_map_iff. exists J. tauto.
    + apply in_map_iff in H as (J & E & HJ). destruct (hasIndex is1 J) eqn:EH.
      * left. rewrite <- E. now apply hasIndex_key.
      * right. apply in_map_iff. exists J. split; auto. apply filter_In. rewrite EH. auto.
  - apply distinct_keys; auto. unfold unionInds. rewrite map_app. apply NoDup_app_intro.
    + now apply distinct_keys.
    + apply distinct_keys in D2; auto. clear - D2. induction is2 as [|J l IH]; simpl; [constructor|].
      simpl in D2. inversion D2; subst. destruct (hasIndex is1 J); simpl; auto. constructor; auto.
      intros H. apply H1. apply in_map_iff in H as (K & E & HK). apply filter_In in HK. apply in_map_iff. exists K. tauto.
    + intros k H3 H4. apply in_map_iff in H4 as (K & E & HK). apply filter_In in HK as [_ HK].
      apply negb_true_iff in HK. subst k. apply hasIndex_key in H3. congruence.
Qed.
(** noncommonInds: the symmetric difference. *)
Theorem C07_noncommon : forall K, valid K ->
  (has (noncommonInds is1 is2) K <-> (has is1 K /\ ~ has is2 K) \/ (has is2 K /\ ~ has is1 K)).
Proof.
  intros K VK.
  assert (VA : forall l l', Forall valid l -> Forall valid (uniqueInds l l')).
  { intros l l' H. apply Forall_forall. intros x Hx. apply filter_In in Hx. rewrite Forall_forall in H. apply H. tauto. }
  assert (M : forall l l' k, In k (map key (uniqueInds l l')) <-> In k (map key l) /\ ~ In k (map key l')).
  { intros l l' k. unfold uniqueInds. split.
    - intros H. apply in_map_iff in H as (J & <- & HJ). apply filter_In in HJ as [HJ HE]. apply negb_true_iff in HE.
      split; [now apply in_map|]. rewrite <- hasIndex_key. congruence.
    - intros [H1 H2]. apply in_map_iff in H1 as (J & <- & HJ). apply in_map. apply filter_In. split; auto.
      apply negb_true_iff. rewrite <- hasIndex_key in H2. destruct (hasIndex l' J); congruence. }
  unfold noncommonInds. rewrite !has_key; auto.
  2:{ apply Forall_app. split; auto. apply Forall_forall. intros x Hx. apply filter_In in Hx as [Hx _].
      specialize (VA is2 is1 V2). rewrite Forall_forall in VA. auto. }
  unfold unionInds. rewrite map_app, in_app_iff, (M is1 is2).
  change (filter (fun J => negb (hasIndex (uniqueInds is1 is2) J)) (uniqueInds is2 is1)) with (uniqueInds (uniqueInds is2 is1) (uniqueInds is1 is2)).
  rewrite M, (M is2 is1), (M is1 is2). tauto.
Qed.

(** hasSameInds holds exactly when one is a reordering of the other. *)
Theorem C07_same_inds : hasSameInds is1 is2 = true <-> exists l, Permutation is1 l /\ Forall2 same l is2.
Proof.
  unfold hasSameInds. rewrite andb_true_iff, Nat.eqb_eq. unfold hasInds. rewrite forallb_forall.
  pose proof (proj1 (distinct_keys _ V1) D1) as N1. pose proof (proj1 (distinct_keys _ V2) D2) as N2. split.
  - intros [HL HA].
    assert (HP : Permutation (map key is2) (map key is1)).
    { apply NoDup_Permutation_bis; auto. { rewrite !map_length. lia. }
      intros k Hk. apply in_map_iff in Hk as (J & <- & HJ). apply hasIndex_key. auto. }
    destruct (Permutation_map_inv _ _ HP) as (l & El & Pl). exists l. split; [now symmetry|].
    assert (Vl : Forall valid l).
    { apply Forall_forall. intros x Hx. apply val1. apply (Permutation_in _ (Permutation_sym Pl)). exact Hx. }
    clear - El Vl V2. revert is2 V2 El. induction l as [|a l IH]; intros [|b m] V2 El; try discriminate; constructor.
    + inversion Vl; inversion V2; subst. apply same_key; auto. simpl in El. congruence.
    + inversion Vl; inversion V2; subst. apply IH; auto. simpl in El. congruence.
  - intros (l & Pl & F). split.
    + rewrite (Permutation_length Pl). clear - F. induction F; simpl; auto.
    + intros K HK. apply hasIndex_has; auto using val2. 
      assert (E : exists J, In J l /\ same J K).
      { clear - F HK. induction F; [contradiction|]. destruct HK as [<-|HK]; [exists x; simpl; auto|].
        destruct (IHF HK) as (J & ? & ?). exists J. simpl; auto. }
      destruct E as (J & HJ & HS). exists J. split; auto. eapply Permutation_in; [symmetry|]; eauto.
Qed.
(** equals holds exactly when they are the same position by position. *)
Theorem C07_equals : equals is1 is2 = true <-> Forall2 same is1 is2.
Proof.
  unfold equals. destruct (Nat.eqb_spec (length is2) (length is1)) as [E|E]; cbn [negb].
  - revert E. clear D1 D2. revert is2 V2. induction is1 as [|a l IH]; intros [|b m] W2 E; try discriminate; simpl.
    + split; auto.
    + inversion V1; inversion W2; subst. simpl in E. destruct (ix_eqb a b) eqn:EE.
      * apply ix_eqb_key in EE. rewrite IH by (auto; lia). split; [intros; constructor; auto; apply same_key; auto|].
        intros H. now inversion H.
      * split; [discriminate|]. intros H. inversion H; subst. apply ix_eqb_false in EE. exfalso. apply EE. apply same_key; auto.
  - split; [discriminate|]. intros H. exfalso. apply E. clear - H. induction H; simpl; auto.
Qed.
End Sets.

(** findInds returns the indices with the given tags in order; findIndex fails on several. *)
Theorem C07_find : forall is ts, Forall valid is -> api_tagset ts ->
  sublist (findInds is ts) is /\
  (forall J, In J (findInds is ts) <-> In J is /\ a_incl (abs ts) (abs (ix_tags J))) /\
  (forall J, findIndex is ts = Ok J <->
     findInds is ts = [J] \/ (findInds is ts = [] /\ J = ix_default)) /\
  (findIndex is ts = Err <-> 2 <= length (findInds is ts)).
Proof.
  intros is ts V T. split; [apply filter_sublist|]. split; [|split].
  - intros J. unfold findInds. rewrite filter_In. rewrite Forall_forall in V.
    split; intros [H1 H2]; split; auto; apply ts_hasTags_iff; auto using api_WF; apply api_WF; apply V; auto.
  - intros J. unfold findIndex. destruct (findInds is ts) as [|a [|b l]]; split; intros H.
    + right. split; auto. congruence.
    + destruct H as [H|[_ ->]]; [discriminate|auto].
    + left. congruence.
    + destruct H as [H|[H _]]; [congruence|discriminate].
    + discriminate.
    + destruct H as [H|[H _]]; discriminate.
  - unfold findIndex. destruct (findInds is ts) as [|a [|b l]]; simpl; split; intros H; try discriminate; try lia; auto.
Qed.

(** ** C08 *)

(** Every tag or prime operation that returns changes exactly the selected indices, in the way the
    operation says, and leaves order and all other indices alone. *)
Theorem C08_selected_only : forall dbg o s is is',
  Forall valid is -> distinct is -> valid_selector s -> valid_iop o -> is_op dbg o s is = Ok is' ->
  Forall2 (fun J J' => (selected s J -> effect o J J') /\ (~ selected s J -> J' = J)) is is'.
Proof.
  intros dbg o s is is' V D VS VO H.
  assert (H' : is_op false o s is = Ok is') by (destruct dbg; auto; now apply is_op_debug).
  pose proof (is_op_release o s is (proj1 (distinct_keys _ V) D)) as R.
  assert (NS : match s with SInds sel => NoDup (map key sel) | _ => True end).
  { destruct s; auto. apply distinct_keys; apply VS. }
  specialize (R NS). rewrite H' in R. unfold each_where in R.
  pose proof (each_spec (fun J => if selb s J then ix_op false o J else Ok J) is) as E. rewrite R in E.
  clear - V VS VO E. induction E; constructor.
  - inversion V; subst. pose proof (selb_selected s x H2 VS) as HS. destruct (selb s x).
    + split; [intros _; eapply ix_op_effect; eauto|]. intros Q. exfalso. apply Q. now apply HS.
    + split; [intros Q; apply HS in Q; discriminate|]. intros _. congruence.
  - inversion V; subst. auto.
Qed.

(** In a release build the operation returns exactly when it does on every selected index. *)
Theorem C08_succeeds : forall o s is,
  Forall valid is -> distinct is -> valid_selector s ->
  ((exists is', is_op false o s is = Ok is') <->
   (forall J, In J is -> selected s J -> exists J', ix_op false o J = Ok J')).
Proof.
  intros o s is V D VS.
  pose proof (is_op_release o s is (proj1 (distinct_keys _ V) D)) as R.
  assert (NS : match s with SInds sel => NoDup (map key sel) | _ => True end).
  { destruct s; auto. apply distinct_keys; apply VS. }
  specialize (R NS). assert (V' := V). rewrite Forall_forall in V'.
  split.
  - intros (is' & H) J HJ HS. rewrite H in R. unfold each_where in R.
    pose proof (each_spec (fun J => if selb s J then ix_op false o J else Ok J) is) as E. rewrite R in E.
    apply (selb_selected s J (V' J HJ) VS) in HS. clear - E HJ HS. induction E; [contradiction|].
    destruct HJ as [<-|HJ]; auto. rewrite HS in H. eauto.
  - intros H. destruct (is_op false o s is) as [is'| |]; [eauto| |];
    destruct R as (J & HJ & HS & HO); apply (selb_selected s J (V' J HJ) VS) in HS;
    destruct (H J HJ HS) as (J' & EJ); destruct HO; congruence.
Qed.

(** In a DEBUG build an operation never returns an index set with a repeated index; otherwise it gives
    the release result. *)
Theorem C08_debug_no_duplicates : forall o s is is',
  Forall valid is -> distinct is -> valid_selector s -> valid_iop o ->
  is_op true o s is = Ok is' -> distinct is' /\ is_op false o s is = Ok is'.
Proof.
  intros o s is is' V D VS VO H. pose proof (C08_selected_only true o s is is' V D VS VO H) as F.
  apply is_op_debug in H as (ND & _ & H). split; auto. apply distinct_keys; auto.
  clear - V VS F. induction F; constructor.
  - inversion V; subst. pose proof (selb_selected s x H2 VS) as HS. destruct (selb s x).
    + apply (proj1 H); now apply HS.
    + replace y with x; auto. symmetry. apply (proj2 H). intros Q. apply HS in Q. discriminate.
  - inversion V; auto.
Qed.

Definition iA := ix_new 1 2 ts_new.
Definition iA' := with_tags iA (ts_setPrime (ix_tags iA) 1).
Definition iB := ix_new 2 3 exAB.
Definition iC := ix_new 3 3 exAB.
Lemma vA : valid iA. Proof. apply (api_op (OSetPrime 0) ts_new); [constructor|constructor|reflexivity]. Qed.
Lemma vA' : valid iA'. Proof. apply (api_op (OSetPrime 1) (ix_tags iA)); [apply vA|constructor|reflexivity]. Qed.
Lemma vB : valid iB. Proof. apply (api_op (OSetPrime 0) exAB); [apply exAB_api|constructor|reflexivity]. Qed.
Lemma vC : valid iC. Proof. apply vB. Qed.
Lemma dABC : distinct [iA; iA'; iB; iC].
Proof.
  apply distinct_keys; [repeat constructor; auto using vA, vA', vB, vC|].
  apply NoDup_nth_error. intros i j Hi. simpl in Hi.
  destruct i as [|[|[|[|i]]]]; try lia; destruct j as [|[|[|[|j]]]]; vm_compute; try reflexivity; try discriminate; destruct j; discriminate.
Qed.

(** Finding: in a release build an operation can create a repeated index without an error. *)
Theorem C08_release_duplicates_refuted :
  exists o s is is', Forall valid is /\ distinct is /\ valid_selector s /\ valid_iop o /\
    is_op false o s is = Ok is' /\ ~ distinct is'.
Proof.
  exists (IPrime 1), (SInds [iA]), [iA; iA'; iB; iC]. eexists.
  split; [repeat constructor; auto using vA, vA', vB, vC|]. split; [apply dABC|].
  split; [split; [repeat constructor; apply vA|]|].
  { intros [|m] [|n] a b Ha Hb Hn; try contradiction; try (destruct m; discriminate); destruct n; discriminate. }
  split; [exact Logic.I|]. split; [vm_compute; reflexivity|].
  intros D. apply (D 0 1 _ _ eq_refl eq_refl); [lia|]. repeat split; auto.
Qed.

(** Finding: an index given twice in the selector is changed twice (checked under DEBUG only). *)
Theorem C08_repeated_selector_refuted :
  exists is', is_op false (IPrime 1) (SInds [iB; iB]) [iA; iB] = Ok is' /\
    map ix_level is' = [0; 2]%Z /\ is_op true (IPrime 1) (SInds [iB; iB]) [iA; iB] = Err.
Proof. eexists. split; [reflexivity|]. split; reflexivity. Qed.

(** Finding: with repeated indices hasSameInds accepts different index sets, and unionInds of a
    vector of index sets repeats shared indices. *)
Theorem C07_duplicates_refuted :
  hasSameInds [iA; iB] [iA; iA] = true /\ hasIndex [iA; iA] iB = false /\
  ~ distinct (unionInds_vec [[iA; iB]; [iB; iC]]).
Proof.
  split; [reflexivity|]. split; [reflexivity|]. intros D. apply (D 1 2 iB iB eq_refl eq_refl); [lia|]. repeat split; auto.
Qed.

Example C06_nonvacuous :
  valid iB /\ ix_dir iB <> ArrNeither /\ ix_level iB = 0%Z /\
  exists K, ix_prime true 3 iB = Ok K /\ ix_level K = 3%Z /\ ix_eqb K iB = false.
Proof. split; [apply vB|]. split; [discriminate|]. split; [reflexivity|]. eexists. split; [reflexivity|]. split; reflexivity. Qed.
Example C07_nonvacuous :
  commonInds [iA; iB; iC] [iC; iA'; iA] = [iA; iC] /\ uniqueInds [iA; iB; iC] [iC; iA'; iA] = [iB] /\
  unionInds [iA; iB; iC] [iC; iA'; iA] = [iA; iB; iC; iA'] /\ hasSameInds [iA; iB; iC] [iC; iA; iB] = true.
Proof. repeat split; vm_compute; reflexivity. Qed.
Example C08_nonvacuous :
  exists is', is_op true (IPrime 2) (SInds [iA; iB]) [iA; iA'; iB; iC] = Ok is' /\ map ix_level is' = [2; 1; 2; 0]%Z.
Proof. eexists. split; [vm_compute; reflexivity|reflexivity]. Qed.

Print Assumptions C06_equal.
Print Assumptions C06_prime.
Print Assumptions C06_setPrime.
Print Assumptions C06_noPrime.
Print Assumptions C06_prime_additive.
Print Assumptions C06_negative_level.
Print Assumptions C06_dag.
Print Assumptions C06_prime_differs.
Print Assumptions C06_sim.
Print Assumptions C06_dim.
Print Assumptions C06_dim_refuted.
Print Assumptions C06_less_strict.
Print Assumptions C06_less_total_refuted.
Print Assumptions C07_common.
Print Assumptions C07_unique.
Print Assumptions C07_partition.
Print Assumptions C07_union.
Print Assumptions C07_noncommon.
Print Assumptions C07_same_inds.
Print Assumptions C07_equals.
Print Assumptions C07_find.
Print Assumptions C07_duplicates_refuted.
Print Assumptions C08_selected_only.
Print Assumptions C08_succeeds.
Print Assumptions C08_debug_no_duplicates.
Print Assumptions C08_release_duplicates_refuted.
Print Assumptions C08_repeated_selector_refuted.
