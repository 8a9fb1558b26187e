(** Proofs about indices and index sets. *)
From Coq Require Import List ZArith Bool Lia Arith Permutation.
From Verif Require Import Util SmallStringModel SmallStringProofs TagSetModel TagSetSpec TagSetProofs QnModel IndexModel IndexSpec.
Import ListNotations.
Local Open Scope outcome_scope.

(** ** Equality *)
Definition key (J : index) : N * Z * list Tag := (ix_id J, ix_level J, ts_list (ix_tags J)).

Lemma ts_eqb_key a b : ts_eqb a b = true <-> ts_plev a = ts_plev b /\ ts_list a = ts_list b.
Proof.
  unfold ts_eqb, ts_list. rewrite !andb_true_iff, Z.eqb_eq, Nat.eqb_eq. split.
  - intros [[H1 H2] H3]. split; auto. rewrite <- H2. apply map_ext_in. intros i Hi.
    rewrite forallb_forall in H3. apply H3 in Hi. now apply ss_eqb_eq in Hi.
  - intros [H1 H2]. assert (L : ts_size a = ts_size b).
    { apply (f_equal (@length Tag)) in H2. now rewrite !map_length, !seq_length in H2. }
    split; [auto|]. rewrite <- L in H2. apply forallb_forall. intros i Hi.
    apply ss_eqb_eq. revert H2 i Hi. generalize (seq 0 (ts_size a)).
    induction l as [|x l IH]; simpl; intros E i Hi; [contradiction|]. injection E as E1 E2.
    destruct Hi as [<-|Hi]; auto.
Qed.

Lemma ix_eqb_key a b : ix_eqb a b = true <-> key a = key b.
Proof.
  unfold ix_eqb, key, ix_level. rewrite andb_true_iff, N.eqb_eq, ts_eqb_key. split.
  - intros (-> & -> & ->). reflexivity.
  - intros H. injection H as H1 H2 H3. auto.
Qed.
Lemma ix_eqb_false a b : ix_eqb a b = false <-> key a <> key b.
Proof. rewrite <- ix_eqb_key. destruct (ix_eqb a b); split; congruence. Qed.
Lemma ix_eqb_refl a : ix_eqb a a = true.
Proof. now apply ix_eqb_key. Qed.
Lemma ix_eqb_sym a b : ix_eqb a b = ix_eqb b a.
Proof. destruct (ix_eqb b a) eqn:E; [apply ix_eqb_key in E; apply ix_eqb_key; auto|apply ix_eqb_false in E; apply ix_eqb_false; auto]. Qed.

Lemma same_key a b : valid a -> valid b -> (same a b <-> key a = key b).
Proof.
  intros Va Vb. rewrite <- ix_eqb_key. unfold ix_eqb. rewrite andb_true_iff, N.eqb_eq.
  rewrite (ts_eqb_iff (ix_tags a) (ix_tags b)) by (now apply api_WF). unfold same, aeq, abs, ix_level. simpl. tauto.
Qed.

Lemma key_dec (a b : N * Z * list Tag) : {a = b} + {a <> b}.
Proof.
  destruct a as [[a1 a2] a3], b as [[b1 b2] b3].
  destruct (N.eq_dec a1 b1), (Z.eq_dec a2 b2), (list_eq_dec ss_dec a3 b3); [left|right..]; congruence.
Qed.

Lemma distinct_keys is : Forall valid is -> (distinct is <-> NoDup (map key is)).
Proof.
  intros V. rewrite Forall_forall in V. split.
  - intros D. apply NoDup_nth_error. intros i j Hi E. rewrite map_length in Hi.
    destruct (Nat.eq_dec i j) as [|Ne]; auto. exfalso.
    rewrite !nth_error_map in E.
    destruct (nth_error is i) as [a|] eqn:Ea; [|apply nth_error_None in Ea; lia].
    destruct (nth_error is j) as [b|] eqn:Eb; [|discriminate]. simpl in E. injection E as E1 E2 E3.
    apply (D i j a b); auto. apply same_key; [apply V; eapply nth_error_In; eauto|apply V; eapply nth_error_In; eauto|].
    unfold key. congruence.
  - intros ND m n a b Ha Hb Ne HS. apply Ne.
    rewrite NoDup_nth_error in ND. apply ND.
    + rewrite map_length. apply nth_error_Some. congruence.
    + rewrite !nth_error_map, Ha, Hb. simpl. f_equal. apply same_key; auto; apply V; eapply nth_error_In; eauto.
Qed.

Lemma has_key is K : Forall valid is -> valid K -> (has is K <-> In (key K) (map key is)).
Proof.
  intros V VK. rewrite Forall_forall in V. unfold has. rewrite in_map_iff. split.
  - intros (J & HJ & HS). exists J. split; auto. apply same_key; auto.
  - intros (J & E & HJ). exists J. split; auto. apply same_key; auto.
Qed.

Lemma hasIndex_key is K : hasIndex is K = true <-> In (key K) (map key is).
Proof.
  unfold hasIndex. rewrite existsb_exists, in_map_iff. split.
  - intros (J & HJ & E). apply ix_eqb_key in E. eauto.
  - intros (J & E & HJ). exists J. split; auto. now apply ix_eqb_key.
Qed.
Lemma hasIndex_has is K : Forall valid is -> valid K -> (hasIndex is K = true <-> has is K).
Proof. intros V VK. rewrite hasIndex_key. symmetry. now apply has_key. Qed.

Lemma existsb_ext' {A} (f g : A -> bool) l : (forall x, f x = g x) -> existsb f l = existsb g l.
Proof. intros H. induction l; simpl; auto. rewrite H, IHl. auto. Qed.
Lemma has_dup_key is : has_dup is = false <-> NoDup (map key is).
Proof.
  induction is as [|J is IH]; simpl; [split; auto; constructor|].
  rewrite orb_false_iff, IH, NoDup_cons_iff. rewrite <- hasIndex_key. unfold hasIndex.
  rewrite (existsb_ext' _ (fun K => ix_eqb K J)); [|intros; apply ix_eqb_sym].
  destruct (existsb _ is); split; intros [? ?]; split; auto; congruence.
Qed.

(** ** Positions *)
Lemma indexPosition_spec is K :
  match indexPosition is K with
  | Some p => exists J, nth_error is p = Some J /\ key J = key K
  | None => ~ In (key K) (map key is)
  end.
Proof.
  induction is as [|J is IH]; simpl; auto.
  destruct (ix_eqb J K) eqn:E.
  - exists J. split; auto. now apply ix_eqb_key.
  - apply ix_eqb_false in E. destruct (indexPosition is K) as [p|]; simpl; [exact IH|tauto].
Qed.
Lemma indexPosition_lt is K p : indexPosition is K = Some p -> p < length is.
Proof.
  intros H. pose proof (indexPosition_spec is K) as S. rewrite H in S. destruct S as (J & E & _).
  apply nth_error_Some. congruence.
Qed.

Lemma in_positions is sel p : NoDup (map key is) ->
  (In p (positions is sel) <-> exists J, nth_error is p = Some J /\ In (key J) (map key sel)).
Proof.
  intros ND. unfold positions. rewrite in_flat_map. split.
  - intros (K & HK & H). pose proof (indexPosition_spec is K) as S. destruct (indexPosition is K) as [q|]; [|contradiction].
    destruct H as [<-|[]]. destruct S as (J & E & EK). exists J. split; auto. rewrite EK. now apply in_map.
  - intros (J & E & H). apply in_map_iff in H as (K & EK & HK). exists K. split; auto.
    pose proof (indexPosition_spec is K) as S. destruct (indexPosition is K) as [q|].
    + destruct S as (J' & E' & EK'). left. rewrite NoDup_nth_error in ND. apply ND.
      * rewrite map_length. apply nth_error_Some. congruence.
      * rewrite !nth_error_map, E, E'. simpl. congruence.
    + exfalso. apply S. rewrite EK. apply in_map. eapply nth_error_In; eauto.
Qed.
Lemma positions_nodup is sel : NoDup (map key sel) -> NoDup (positions is sel).
Proof.
  induction sel as [|K sel IH]; intros ND; [constructor|]. simpl in ND |- *. inversion ND as [|? ? H1 H2]; subst.
  apply NoDup_app_intro; [destruct (indexPosition is K); repeat constructor; auto| now apply IH|].
  intros p Hp Hq. pose proof (indexPosition_spec is K) as S. destruct (indexPosition is K) as [q|]; [|contradiction].
  destruct Hp as [<-|[]]. destruct S as (J & E & EK). unfold positions in Hq. apply in_flat_map in Hq as (K' & HK' & Hq).
  pose proof (indexPosition_spec is K') as S'. destruct (indexPosition is K') as [q'|]; [|contradiction].
  destruct Hq as [<-|[]]. destruct S' as (J' & E' & EK'). rewrite E' in E. injection E as <-. apply H1.
  rewrite <- EK, EK'. now apply in_map.
Qed.
Lemma dup_nat_spec l : dup_nat l = false <-> NoDup l.
Proof.
  induction l as [|n l IH]; simpl; [split; auto; constructor|].
  rewrite orb_false_iff, IH, NoDup_cons_iff. split; intros [H1 H2]; split; auto.
  - intros H. assert (existsb (Nat.eqb n) l = true) by (apply existsb_exists; exists n; split; auto; apply Nat.eqb_refl). congruence.
  - destruct (existsb _ l) eqn:E; auto. apply existsb_exists in E as (m & Hm & E). apply Nat.eqb_eq in E. subst. contradiction.
Qed.

(** ** Loops over selected indices *)
Definition each_where (f : index -> outcome index) (sel : index -> bool) (is : list index) : outcome (list index) :=
  each (fun J => if sel J then f J else Ok J) is.

Lemma each_spec f is :
  match each f is with
  | Ok is' => Forall2 (fun J J' => f J = Ok J') is is'
  | _ => exists J, In J is /\ (f J = Err \/ f J = UB)
  end.
Proof.
  induction is as [|J is IH]; simpl; [constructor|].
  destruct (f J) eqn:E; simpl; [|exists J; simpl; auto|exists J; simpl; auto].
  destruct (each f is) as [r| |]; simpl; [constructor; auto| |]; destruct IH as (K & HK & H); exists K; simpl; auto.
Qed.
Lemma each_ext f g is : (forall J, In J is -> f J = g J) -> each f is = each g is.
Proof. induction is as [|J is IH]; simpl; intros H; auto. rewrite H, IH; auto. Qed.
Lemma each_tags_where f ts is : each_tags f ts is = each_where f (fun J => ix_hasTags J ts) is.
Proof. unfold each_where. induction is as [|J is IH]; simpl; auto. rewrite IH. reflexivity. Qed.
Lemma each_Forall2 f is is' : Forall2 (fun J J' => f J = Ok J') is is' -> each f is = Ok is'.
Proof. induction 1; simpl; auto. rewrite H. simpl. rewrite IHForall2. reflexivity. Qed.

Lemma each_pos_spec f l : forall is, NoDup l -> (forall p, In p l -> p < length is) ->
  match each_pos f l is with
  | Ok is' => length is' = length is /\
      forall n J, nth_error is n = Some J ->
        (In n l -> exists J', f J = Ok J' /\ nth_error is' n = Some J') /\
        (~ In n l -> nth_error is' n = Some J)
  | _ => exists n J, In n l /\ nth_error is n = Some J /\ (f J = Err \/ f J = UB)
  end.
Proof.
  induction l as [|p l IH]; intros is ND HL; simpl.
  - split; auto. intros n J E. split; [intros []|auto].
  - inversion ND as [|? ? H1 H2]; subst. unfold oget.
    destruct (nth_error is p) as [J|] eqn:E; [|apply nth_error_None in E; specialize (HL p (or_introl eq_refl)); lia].
    simpl. destruct (f J) as [J'| |] eqn:Ef; simpl; [|exists p, J; auto|exists p, J; auto].
    unfold oupd. rewrite (proj2 (Nat.ltb_lt p (length is))) by (apply HL; simpl; auto). simpl.
    specialize (IH (upd p J' is) H2). assert (HL' : forall q, In q l -> q < length (upd p J' is)).
    { intros q Hq. rewrite upd_length. apply HL. simpl; auto. }
    specialize (IH HL'). destruct (each_pos f l (upd p J' is)) as [is'| |].
    + destruct IH as [EL IH]. rewrite upd_length in EL. split; auto. intros n K EK.
      destruct (Nat.eq_dec p n) as [<-|Ne].
      * assert (K = J) by congruence. subst K. split; [|intros H; exfalso; apply H; auto]. intros _. exists J'. split; auto.
        apply (IH p J'); [apply nth_error_upd_eq; apply HL; simpl; auto|auto].
      * specialize (IH n K). rewrite nth_error_upd_neq in IH by auto. specialize (IH EK). split.
        -- intros [H|H]; [contradiction|]. now apply IH.
        -- intros H. apply IH. tauto.
    + destruct IH as (n & K & Hn & EK & H). exists n, K. split; auto. split; auto.
      rewrite nth_error_upd_neq in EK; auto. intros <-. contradiction.
    + destruct IH as (n & K & Hn & EK & H). exists n, K. split; auto. split; auto.
      rewrite nth_error_upd_neq in EK; auto. intros <-. contradiction.
Qed.

Definition selb (s : selector) (J : index) : bool :=
  match s with
  | SAll => true
  | SInds sel => hasIndex sel J
  | STags ts => ix_hasTags J ts
  end.
Lemma selb_selected s J : valid J -> valid_selector s -> (selb s J = true <-> selected s J).
Proof.
  destruct s as [|sel|ts]; simpl; intros VJ VS; [tauto|apply hasIndex_has; tauto|].
  apply ts_hasTags_iff; now apply api_WF.
Qed.

Lemma Forall2_nth {A B} (P : A -> B -> Prop) l l' : length l' = length l ->
  (forall n a, nth_error l n = Some a -> exists b, nth_error l' n = Some b /\ P a b) -> Forall2 P l l'.
Proof.
  revert l'. induction l as [|a l IH]; intros [|b l'] E H; try discriminate; constructor.
  - destruct (H 0 a eq_refl) as (b' & E' & P'). simpl in E'. congruence.
  - apply IH; [simpl in E; lia|]. intros n x Hn. apply (H (S n) x Hn).
Qed.

(** In a release build each operation changes exactly the indices its selector matches. *)
Lemma is_op_release o s is : NoDup (map key is) ->
  match s with SInds sel => NoDup (map key sel) | _ => True end ->
  match is_op false o s is with
  | Ok is' => each_where (ix_op false o) (selb s) is = Ok is'
  | _ => exists J, In J is /\ selb s J = true /\ (ix_op false o J = Err \/ ix_op false o J = UB)
  end.
Proof.
  intros ND NS. unfold is_op, checked. cbn [andb].
  assert (HE : forall f, match each_where f (selb s) is with
    | Ok _ => True | _ => exists J, In J is /\ selb s J = true /\ (f J = Err \/ f J = UB) end).
  { intros f. unfold each_where. pose proof (each_spec (fun J => if selb s J then f J else Ok J) is) as H.
    destruct (each _ is); auto; destruct H as (J & HJ & H); exists J; destruct (selb s J); destruct H; try discriminate; auto. }
  specialize (HE (ix_op false o)).
  destruct s as [|sel|ts].
  - assert (E : each_where (ix_op false o) (selb SAll) is = each (ix_op false o) is) by reflexivity.
    rewrite E in *. destruct (each (ix_op false o) is); simpl; auto.
  - unfold indexPositions. cbn [andb obind].
    pose proof (each_pos_spec (ix_op false o) (positions is sel) is) as HP.
    specialize (HP (positions_nodup is sel NS)).
    assert (HL : forall p, In p (positions is sel) -> p < length is).
    { intros p Hp. apply in_positions in Hp as (J & E & _); auto. apply nth_error_Some. congruence. }
    specialize (HP HL). destruct (each_pos _ _ is) as [is'| |]; simpl.
    + destruct HP as [EL HP]. apply each_Forall2. apply Forall2_nth; auto. intros n J E.
      destruct (HP n J E) as [P1 P2]. destruct (hasIndex sel J) eqn:EH.
      * assert (Q : In n (positions is sel)).
        { apply in_positions; auto. exists J. split; auto. now apply hasIndex_key. }
        destruct (P1 Q) as (J' & E1 & E2). exists J'. cbn [selb]. rewrite EH. auto.
      * exists J. cbn [selb]. rewrite EH. split; auto. apply P2. intros H. apply in_positions in H as (K & EK & HK); auto.
        assert (K = J) by congruence. subst K. apply hasIndex_key in HK. congruence.
    + destruct HP as (n & J & Hn & E & H). exists J. split; [eapply nth_error_In; eauto|]. split; auto.
      apply in_positions in Hn as (K & EK & HK); auto. assert (K = J) by congruence. subst K. now apply hasIndex_key.
    + destruct HP as (n & J & Hn & E & H). exists J. split; [eapply nth_error_In; eauto|]. split; auto.
      apply in_positions in Hn as (K & EK & HK); auto. assert (K = J) by congruence. subst K. now apply hasIndex_key.
  - cbn [selb] in *. rewrite each_tags_where. destruct (each_where _ _ is); simpl; auto.
Qed.

(** A DEBUG build gives the same, or an error. *)
Lemma is_op_debug o s is is' :
  is_op true o s is = Ok is' ->
  NoDup (map key is') /\
  (match s with SInds sel => NoDup (positions is sel) | _ => True end) /\
  is_op false o s is = Ok is'.
Proof.
  assert (HO : forall J J', ix_op true o J = Ok J' -> ix_op false o J = Ok J').
  { intros J J'. destruct o; simpl; auto; unfold ix_setPrime, ix_prime, level_check; simpl.
    - destruct (_ <? 0)%Z; intros H; [discriminate|auto].
    - destruct (_ <? 0)%Z; intros H; [discriminate|auto].
    - destruct (_ =? _)%Z; auto. destruct (_ <? 0)%Z; intros H; [discriminate|auto]. }
  assert (HEach : forall l l', each (ix_op true o) l = Ok l' -> each (ix_op false o) l = Ok l').
  { induction l as [|J l IH]; simpl; intros l' H; auto. destruct (ix_op true o J) eqn:E; try discriminate. simpl in H.
    rewrite (HO _ _ E). simpl. destruct (each (ix_op true o) l) eqn:E2; try discriminate. simpl in H. rewrite (IH _ eq_refl). auto. }
  assert (HTags : forall ts l l', each_tags (ix_op true o) ts l = Ok l' -> each_tags (ix_op false o) ts l = Ok l').
  { intros ts. induction l as [|J l IH]; simpl; intros l' H; auto. destruct (ix_hasTags J ts).
    - destruct (ix_op true o J) eqn:E; try discriminate. simpl in H.
      rewrite (HO _ _ E). simpl. destruct (each_tags (ix_op true o) ts l) eqn:E2; try discriminate. simpl in H. rewrite (IH _ eq_refl). auto.
    - simpl in *. destruct (each_tags (ix_op true o) ts l) eqn:E2; try discriminate. simpl in H. rewrite (IH _ eq_refl). auto. }
  assert (HPos : forall ps l l', each_pos (ix_op true o) ps l = Ok l' -> each_pos (ix_op false o) ps l = Ok l').
  { induction ps as [|p ps IH]; simpl; intros l l' H; auto. destruct (oget l p); try discriminate. simpl in *.
    destruct (ix_op true o a) eqn:E; try discriminate. rewrite (HO _ _ E). simpl in *.
    destruct (oupd p a0 l); try discriminate. simpl in *. auto. }
  unfold is_op, checked. cbn [andb].
  intros H.
  match type of H with (let! r := ?e in _) = _ => destruct e as [r| |] eqn:E; try discriminate end.
  cbn [obind] in H. destruct (has_dup r) eqn:ED; try discriminate. injection H as <-.
  split; [now apply has_dup_key|].
  destruct s as [|sel|ts].
  - split; auto. rewrite (HEach _ _ E). reflexivity.
  - unfold indexPositions in E |- *. cbn [andb] in E |- *. destruct (dup_nat (positions is sel)) eqn:EP; try discriminate.
    split; [now apply dup_nat_spec|]. cbn [obind] in E |- *. rewrite (HPos _ _ _ E). reflexivity.
  - split; auto. rewrite (HTags _ _ _ E). reflexivity.
Qed.

(** ** Effect of one operation *)
Lemma same_object_tags J ts : same_object J (with_tags J ts).
Proof. repeat split. Qed.

Lemma ix_op_effect o J J' dbg : valid J -> valid_iop o -> ix_op dbg o J = Ok J' -> effect o J J'.
Proof.
  intros VJ VO H.
  assert (G : forall to ts, api_args to -> run_op to (ix_tags J) = Ok ts ->
     valid (with_tags J ts) /\ exists a', a_step to (abs (ix_tags J)) a' /\ aeq (abs ts) a').
  { intros to ts HA E. split; [eapply api_op; eauto|].
    destruct (api_WF _ VJ) as (l & r & W). pose proof (run_op_spec to (ix_tags J) l r W (api_args_WF _ HA)) as S.
    rewrite E in S. apply S. }
  assert (LC : forall K, level_check dbg K = Ok J' -> K = J').
  { intros K. unfold level_check. destruct (_ && _); intros E; [discriminate|congruence]. }
  destruct o; simpl in H, VO.
  - unfold ix_addTags, omap in H. destruct (addTags (ix_tags J) ts) eqn:E; try discriminate. injection H as <-.
    destruct (G (OAddTags ts) a) as [V S]; [constructor; auto|auto|]. split; [apply same_object_tags|split; auto].
  - unfold ix_removeTags, omap in H. destruct (removeTags (ix_tags J) ts) eqn:E; try discriminate. injection H as <-.
    destruct (G (ORemoveTags ts) a) as [V S]; [constructor; auto|auto|]. split; [apply same_object_tags|split; auto].
  - injection H as <-.
    destruct (G (OSetTags ts) (setTags (ix_tags J) ts)) as [V S]; [constructor; auto|auto|]. split; [apply same_object_tags|split; auto].
  - injection H as <-.
    destruct (G ONoTags (noTags (ix_tags J))) as [V S]; [constructor; auto|auto|]. split; [apply same_object_tags|split; auto].
  - unfold ix_replaceTags, omap in H. destruct (replaceTags (ix_tags J) t1 t2) eqn:E; try discriminate. injection H as <-.
    destruct (G (OReplace t1 t2) a) as [V S]; [constructor; tauto|auto|]. split; [apply same_object_tags|split; auto].
  - apply LC in H. subst J'.
    destruct (G (OSetPrime p) (ts_setPrime (ix_tags J) p)) as [V S]; [constructor; auto|auto|]. split; [apply same_object_tags|split; auto].
  - apply LC in H. subst J'.
    destruct (G (OPrime n) (ts_prime (ix_tags J) n)) as [V S]; [constructor; auto|auto|]. split; [apply same_object_tags|split; auto].
  - unfold ix_level in *. split; [|split].
    + destruct (ts_plev (ix_tags J) =? p1)%Z; [apply LC in H; subst; apply same_object_tags|injection H as <-; repeat split].
    + destruct (ts_plev (ix_tags J) =? p1)%Z; [apply LC in H; subst|injection H as <-; auto].
      eapply api_op with (o := OSetPrime p2); [exact VJ|constructor|reflexivity].
    + eexists. split; [reflexivity|]. simpl. destruct (ts_plev (ix_tags J) =? p1)%Z; [apply LC in H; subst|injection H as <-; auto].
      * split; simpl; auto. intros t. unfold tag_in, ts_at, ts_setPrime. simpl. tauto.
      * split; simpl; auto. tauto.
Qed.

Lemma filter_sublist {A} (f : A -> bool) l : sublist (filter f l) l.
Proof. induction l as [|x l IH]; simpl; [constructor|]. destruct (f x); [apply sub_keep|apply sub_skip]; auto. Qed.
Lemma sublist_app {A} (a b c d : list A) : sublist a b -> sublist c d -> sublist (a ++ c) (b ++ d).
Proof. induction 1; simpl; intros; auto; [apply sub_skip|apply sub_keep]; auto. Qed.
Lemma sublist_refl {A} (l : list A) : sublist l l.
Proof. induction l; [constructor|apply sub_keep; auto]. Qed.
