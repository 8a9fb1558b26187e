From Coq Require Import List ZArith Bool Lia Sorting.Sorted Permutation.
From Coq Require Import Init.Byte.
From Verif Require Import Util SmallStringModel SmallStringProofs TagSetModel TagSetSpec.
Import ListNotations.
Local Arguments Nat.sub : simpl never.

Definition tlt (a b : Tag) : Prop := (ss_key a < ss_key b)%N.

(** Tags that may be stored: not empty, not a number. *)
Definition storable (t : Tag) : Prop := t <> ss_empty /\ ss_toInt t = None.

(** Invariant: [l] is the list of tags in use and [r] the remaining slots. *)
Definition wf (ts : TagSet) (l r : list Tag) : Prop :=
  ts_tags ts = l ++ r /\ length l = ts_size ts /\ length l + length r = 4 /\
  StronglySorted tlt l /\ Forall storable l.

Lemma wf_at ts l r i : wf ts l r -> i < ts_size ts -> ts_at ts i = nth i l ss_empty.
Proof. intros (E & Hl & _) Hi. unfold ts_at. rewrite E. apply app_nth1. lia. Qed.

Lemma wf_list ts l r : wf ts l r -> ts_list ts = l.
Proof.
  intros W. pose proof W as (E & Hl & _). unfold ts_list.
  apply nth_ext with (d := ss_empty) (d' := ss_empty).
  - rewrite map_length, seq_length. auto.
  - intros i Hi. rewrite map_length, seq_length in Hi.
    rewrite (nth_indep _ ss_empty (ts_at ts 0)) by (rewrite map_length, seq_length; auto).
    rewrite map_nth. rewrite seq_nth by auto. simpl. now apply (wf_at ts l r).
Qed.

Lemma wf_mem ts l r t : wf ts l r -> (tag_in ts t <-> In t l).
Proof.
  intros W. pose proof W as (E & Hl & _). unfold tag_in. split.
  - intros (i & Hi & <-). rewrite (wf_at ts l r) by auto. apply nth_In. lia.
  - intros Hin. destruct (In_nth l t ss_empty Hin) as (i & Hi & En).
    exists i. split; [lia|]. rewrite (wf_at ts l r); auto. lia.
Qed.

Lemma pos_from_spec t k : forall i tags,
  match pos_from t k i tags with
  | Some p => i <= p < i + k /\ nth p tags ss_empty = t /\ (forall j, i <= j < p -> nth j tags ss_empty <> t)
  | None => forall j, i <= j < i + k -> nth j tags ss_empty <> t
  end.
Proof.
  induction k as [|k IH]; intros i tags; simpl.
  - intros j Hj; lia.
  - destruct (ss_eqb t (nth i tags ss_empty)) eqn:E.
    + apply ss_eqb_eq in E. split; [lia|]. split; auto. intros j Hj; lia.
    + apply ss_eqb_neq in E. specialize (IH (S i) tags).
      destruct (pos_from t k (S i) tags) as [p|].
      * destruct IH as (H1 & H2 & H3). split; [lia|]. split; auto.
        intros j Hj. destruct (Nat.eq_dec j i) as [->|]; [congruence|]. apply H3; lia.
      * intros j Hj. destruct (Nat.eq_dec j i) as [->|]; [congruence|]. apply IH; lia.
Qed.

Lemma tagPosition_spec ts l r t : wf ts l r ->
  match tagPosition ts t with
  | Some p => p < length l /\ nth p l ss_empty = t
  | None => ~ In t l
  end.
Proof.
  intros W. pose proof W as (E & Hl & _). unfold tagPosition.
  pose proof (pos_from_spec t (ts_size ts) 0 (ts_tags ts)) as H.
  destruct (pos_from t (ts_size ts) 0 (ts_tags ts)) as [p|].
  - destruct H as (H1 & H2 & _). split; [lia|]. rewrite E, app_nth1 in H2 by lia. auto.
  - intros Hin. destruct (In_nth l t ss_empty Hin) as (i & Hi & En).
    apply (H i); [lia|]. rewrite E, app_nth1 by lia. auto.
Qed.

Lemma tagPosition_in ts l r t : wf ts l r -> In t l -> exists p, tagPosition ts t = Some p.
Proof.
  intros W Hin. pose proof (tagPosition_spec ts l r t W). destruct (tagPosition ts t); eauto. contradiction.
Qed.

(** insertion *)
Fixpoint insert_t (t : Tag) (l : list Tag) : list Tag :=
  match l with
  | [] => [t]
  | a :: l' => if ss_ltb a t then a :: insert_t t l' else t :: l
  end.

Lemma insert_t_perm t l : Permutation (insert_t t l) (t :: l).
Proof.
  induction l as [|a l IH]; simpl; auto. destruct (ss_ltb a t); auto.
  eapply perm_trans; [apply perm_skip, IH|]. apply perm_swap.
Qed.

Lemma insert_t_length t l : length (insert_t t l) = S (length l).
Proof. apply (Permutation_length (insert_t_perm t l)). Qed.

Lemma insert_t_sorted t l : StronglySorted tlt l -> ~ In t l -> StronglySorted tlt (insert_t t l).
Proof.
  induction 1 as [|a l Hs IH Hf]; intros Hni; simpl.
  - repeat constructor.
  - destruct (ss_ltb a t) eqn:E.
    + apply ss_ltb_lt in E. constructor.
      * apply IH. intros H; apply Hni; right; auto.
      * rewrite Forall_forall in *. intros x Hx.
        apply (Permutation_in _ (insert_t_perm t l)) in Hx as [<-|Hx]; auto.
    + apply ss_ltb_ge in E.
      assert (tlt t a).
      { unfold tlt. assert (ss_key a <> ss_key t) by (intros H; apply Hni; left; now apply ss_key_inj). lia. }
      constructor; [constructor; auto|]. constructor; auto.
      rewrite Forall_forall in *. intros x Hx. specialize (Hf _ Hx). unfold tlt in *. lia.
Qed.

Lemma insert_t_last t l a : StronglySorted tlt (l ++ [a]) ->
  insert_t t (l ++ [a]) = if ss_ltb a t then l ++ [a; t] else insert_t t l ++ [a].
Proof.
  induction l as [|b l IH]; intros Hs; simpl.
  - destruct (ss_ltb a t); auto.
  - inversion Hs as [|? ? Hs' Hf]; subst. rewrite IH by auto.
    destruct (ss_ltb a t) eqn:E.
    + assert (tlt b a) by (rewrite Forall_forall in Hf; apply Hf, in_or_app; right; left; auto).
      assert (Hb : ss_ltb b t = true) by (apply ss_ltb_lt; apply ss_ltb_lt in E; unfold tlt in H; lia).
      now rewrite Hb.
    + destruct (ss_ltb b t); auto.
Qed.

Lemma tsorted_app_l l1 l2 : StronglySorted tlt (l1 ++ l2) -> StronglySorted tlt l1.
Proof.
  induction l1 as [|a l IH]; intros H; simpl in *; constructor; inversion H; subst; auto.
  rewrite Forall_app in H3. tauto.
Qed.

Lemma insert_tag_loop_spec t l : StronglySorted tlt l ->
  forall hole r, insert_tag_loop t (length l) (l ++ hole :: r) = insert_t t l ++ r.
Proof.
  induction l as [|a l IH] using rev_ind; intros Hs hole r.
  - reflexivity.
  - rewrite app_length. simpl length. rewrite Nat.add_1_r. cbn [insert_tag_loop].
    assert (Hn : nth (length l) ((l ++ [a]) ++ hole :: r) ss_empty = a).
    { rewrite <- app_assoc. rewrite app_nth2 by lia. now rewrite Nat.sub_diag. }
    rewrite Hn, insert_t_last by auto. unfold ss_gtb.
    assert (Hl : S (length l) = length (l ++ [a])) by (rewrite app_length; simpl; lia).
    destruct (ss_ltb a t).
    + rewrite Hl, upd_middle. rewrite <- !app_assoc. reflexivity.
    + rewrite Hl, upd_middle. rewrite <- !app_assoc. simpl app. rewrite IH; auto.
      eapply tsorted_app_l; eauto.
Qed.

(** ** addTag *)
Lemma addTag_spec ts l r t : wf ts l r ->
  match addTag ts t with
  | Ok ts' => (exists l' r', wf ts' l' r' /\ (forall x, In x l' <-> In x l \/ (ss_toInt t = None /\ x = t /\ t <> ss_empty)))
      /\ ts_plev ts' = match ss_toInt t with Some n => Z.of_N n | None => ts_plev ts end
  | Err => match ss_toInt t with Some _ => (0 < ts_plev ts)%Z | None => ts_size ts = 4 end
  | UB => False
  end.
Proof.
  intros W. pose proof W as (E & Hl & H4 & Hs & Hf). unfold addTag.
  destruct (ss_toInt t) as [n|] eqn:Ei.
  - destruct (Z.ltb 0 (ts_plev ts)) eqn:Ep.
    + now apply Z.ltb_lt.
    + split; auto. exists l, r. split; [repeat split; auto|]. intros x; split; auto. intros [H|[H _]]; auto; discriminate.
  - destruct (Nat.eqb (ts_size ts) MAX_TAGS) eqn:Es.
    + now apply Nat.eqb_eq in Es.
    + apply Nat.eqb_neq in Es. unfold MAX_TAGS in Es.
      pose proof (tagPosition_spec ts l r t W) as Hpos.
      destruct (tagPosition ts t) as [p|].
      * destruct Hpos as [Hp Hn]. split; auto. exists l, r. split; auto.
        intros x; split; auto. intros [H|(_ & -> & _)]; auto. rewrite <- Hn. now apply nth_In.
      * destruct (ss_eqb t ss_empty) eqn:Ee.
        -- apply ss_eqb_eq in Ee. split; auto. exists l, r. split; auto.
           intros x; split; auto. intros [H|(_ & _ & H)]; auto; contradiction.
        -- apply ss_eqb_neq in Ee. split; auto.
           destruct r as [|hole r]; [simpl in H4; lia|].
           exists (insert_t t l), r. split.
           ++ unfold wf; cbn [ts_tags ts_size]. rewrite E, <- Hl, insert_tag_loop_spec by auto.
              rewrite insert_t_length. repeat split; auto.
              ** simpl in H4; lia.
              ** now apply insert_t_sorted.
              ** rewrite Forall_forall in *. intros x Hx.
                 apply (Permutation_in _ (insert_t_perm t l)) in Hx as [<-|Hx]; auto. split; auto.
           ++ intros x. split; intros H.
              ** apply (Permutation_in _ (insert_t_perm t l)) in H as [<-|H]; auto.
              ** apply (Permutation_in _ (Permutation_sym (insert_t_perm t l))). destruct H as [H|(_ & -> & _)]; [right|left]; auto.
Qed.

Lemma addTag_list_spec l0 : Forall storable l0 -> forall ts l r, wf ts l r ->
  match addTag_list ts l0 with
  | Ok ts' => (exists l' r', wf ts' l' r' /\ (forall x, In x l' <-> In x l \/ In x l0))
      /\ ts_plev ts' = ts_plev ts
  | Err => True
  | UB => False
  end.
Proof.
  induction 1 as [|t l0 [Ht Hi] Hl0 IH]; intros ts l r W; simpl.
  - split; auto. exists l, r. split; auto. intuition.
  - pose proof (addTag_spec ts l r t W) as H. rewrite Hi in H.
    destruct (addTag ts t) as [ts'| |]; simpl; auto.
    destruct H as [(l' & r' & W' & Hm) Hp].
    specialize (IH ts' l' r' W'). destruct (addTag_list ts' l0) as [ts''| |]; auto.
    destruct IH as [(l'' & r'' & W'' & Hm') Hp']. split; [|congruence].
    exists l'', r''. split; auto. intros x. rewrite Hm', Hm. intuition (subst; auto).
Qed.

(** ** removeTag *)
Fixpoint remove_at {A} (n : nat) (l : list A) : list A :=
  match l, n with
  | [], _ => []
  | _ :: t, O => t
  | h :: t, S n' => h :: remove_at n' t
  end.

Lemma remove_loop_spec : forall k (i : nat) pre x rest r0 r,
  i = length pre -> length rest = k ->
  remove_loop (S k) i (pre ++ (x :: rest) ++ r0 :: r) = Ok (pre ++ (rest ++ [r0]) ++ r0 :: r).
Proof.
  induction k as [|k IH]; intros i pre x rest r0 r Hi Hk.
  - destruct rest; [|discriminate]. subst i. cbn [remove_loop].
    assert (Hg : oget (pre ++ [x] ++ r0 :: r) (S (length pre)) = Ok r0).
    { unfold oget. rewrite nth_error_app2 by lia. replace (S (length pre) - length pre) with 1 by lia. reflexivity. }
    rewrite Hg. cbn [obind]. unfold oupd.
    replace (length pre <? length (pre ++ [x] ++ r0 :: r)) with true
      by (symmetry; apply Nat.ltb_lt; rewrite app_length; simpl; lia).
    cbn [obind app]. rewrite upd_middle. reflexivity.
  - destruct rest as [|y rest]; [discriminate|]. simpl in Hk. subst i. 
    change (remove_loop (S (S k)) (length pre)) with
      (fun tags => obind (oget tags (S (length pre))) (fun t => obind (oupd (length pre) t tags) (fun tags' => remove_loop (S k) (S (length pre)) tags'))).
    cbn beta.
    assert (Hg : oget (pre ++ (x :: y :: rest) ++ r0 :: r) (S (length pre)) = Ok y).
    { unfold oget. rewrite nth_error_app2 by lia. replace (S (length pre) - length pre) with 1 by lia. reflexivity. }
    rewrite Hg. cbn [obind]. unfold oupd.
    replace (length pre <? length (pre ++ (x :: y :: rest) ++ r0 :: r)) with true
      by (symmetry; apply Nat.ltb_lt; rewrite app_length; simpl; lia).
    cbn [obind app]. rewrite upd_middle.
    specialize (IH (S (length pre)) (pre ++ [y]) y rest r0 r).
    rewrite <- !app_assoc in IH. simpl app in IH. rewrite IH.
    + rewrite <- !app_assoc. reflexivity.
    + rewrite app_length; simpl; lia.
    + lia.
Qed.

Lemma remove_loop_full : forall k (i : nat) pre x rest,
  i = length pre -> length rest = k ->
  remove_loop (S k) i (pre ++ (x :: rest)) = UB.
Proof.
  induction k as [|k IH]; intros i pre x rest Hi Hk.
  - destruct rest; [|discriminate]. subst i. cbn [remove_loop]. unfold oget.
    replace (nth_error (pre ++ [x]) (S (length pre))) with (@None Tag); auto.
    symmetry. apply nth_error_None. rewrite app_length; simpl; lia.
  - destruct rest as [|y rest]; [discriminate|]. simpl in Hk. subst i.
    change (remove_loop (S (S k)) (length pre)) with
      (fun tags => obind (oget tags (S (length pre))) (fun t => obind (oupd (length pre) t tags) (fun tags' => remove_loop (S k) (S (length pre)) tags'))).
    cbn beta.
    assert (Hg : oget (pre ++ (x :: y :: rest)) (S (length pre)) = Ok y).
    { unfold oget. rewrite nth_error_app2 by lia. replace (S (length pre) - length pre) with 1 by lia. reflexivity. }
    rewrite Hg. cbn [obind]. unfold oupd.
    replace (length pre <? length (pre ++ (x :: y :: rest))) with true
      by (symmetry; apply Nat.ltb_lt; rewrite app_length; simpl; lia).
    cbn [obind]. rewrite upd_middle.
    specialize (IH (S (length pre)) (pre ++ [y]) y rest).
    rewrite <- !app_assoc in IH. simpl app in IH. apply IH; [rewrite app_length; simpl; lia|lia].
Qed.

Lemma tsorted_nodup l : StronglySorted tlt l -> NoDup l.
Proof.
  induction 1 as [|a l Hs IH Hf]; constructor; auto.
  intros Hin. rewrite Forall_forall in Hf. specialize (Hf _ Hin). unfold tlt in Hf. lia.
Qed.

Lemma tsorted_remove pre x rest : StronglySorted tlt (pre ++ x :: rest) -> StronglySorted tlt (pre ++ rest).
Proof.
  induction pre as [|a pre IH]; simpl; intros H; inversion H; subst; auto.
  constructor; auto. rewrite Forall_app in *. destruct H3 as [H3 H4]. inversion H4; auto.
Qed.

Lemma removeTag_spec ts l r t : wf ts l r ->
  match removeTag ts t with
  | Ok ts' => (exists l' r', wf ts' l' r' /\ (forall x, In x l' <-> In x l /\ x <> t)
                 /\ (In t l -> exists r0, r' = r0 :: r /\ head r = Some r0) /\ (~ In t l -> r' = r))
      /\ ts_plev ts' = ts_plev ts
  | Err => False
  | UB => In t l /\ ts_size ts = 4
  end.
Proof.
  intros W. pose proof W as (E & Hl & H4 & Hs & Hf). unfold removeTag.
  pose proof (tagPosition_spec ts l r t W) as Hpos.
  destruct (tagPosition ts t) as [p|].
  - destruct Hpos as [Hp Hn].
    destruct (nth_split l ss_empty Hp) as (pre & rest & El & Hlp). rewrite Hn in El.
    assert (Hin : In t l) by (rewrite El; apply in_or_app; right; left; auto).
    assert (Hk : ts_size ts - p = S (length rest)).
    { rewrite <- Hl, El, app_length. simpl. lia. }
    rewrite Hk.
    assert (ET : ts_tags ts = (pre ++ t :: rest) ++ r) by (rewrite E, El; auto).
    destruct r as [|r0 r].
    + rewrite ET, app_nil_r, remove_loop_full by auto. simpl.
      split; auto. simpl in H4. lia.
    + rewrite ET, <- app_assoc. rewrite remove_loop_spec by auto. cbn [obind].
      split; auto. exists (pre ++ rest), (r0 :: r0 :: r). split; [|split; [|split]].
      * unfold wf; cbn [ts_tags ts_size]. rewrite El in *.
        rewrite app_length in Hl, H4. simpl length in Hl, H4.
        rewrite !app_length. simpl length.
        repeat split; try lia.
        -- rewrite <- !app_assoc. reflexivity.
        -- eapply tsorted_remove; eauto.
        -- rewrite Forall_app in *. destruct Hf as [Hf1 Hf2]. inversion Hf2; auto.
      * intros x. rewrite El in *. apply tsorted_nodup in Hs. rewrite !in_app_iff. simpl.
        apply NoDup_remove_2 in Hs. rewrite in_app_iff in Hs. split.
        -- intros H. split; [tauto|]. intros ->. tauto.
        -- intros [[H|[H|H]] Hne]; auto. congruence.
      * intros _. exists r0. auto.
      * contradiction.
  - split; auto. exists l, r. split; auto. split; [|split; auto; try contradiction].
    intros x; split; [|tauto]. intros H; split; auto. intros ->; contradiction.
Qed.

Lemma removeTag_list_spec l0 : forall ts l r, wf ts l r ->
  match removeTag_list ts l0 with
  | Ok ts' => (exists l' r', wf ts' l' r' /\ (forall x, In x l' <-> In x l /\ ~ In x l0))
      /\ ts_plev ts' = ts_plev ts
  | Err => False
  | UB => ts_size ts = 4 /\ exists x, In x l /\ In x l0
  end.
Proof.
  induction l0 as [|t l0 IH]; intros ts l r W; simpl.
  - split; auto. exists l, r. split; auto. intuition.
  - pose proof (removeTag_spec ts l r t W) as H.
    destruct (removeTag ts t) as [ts'| |]; simpl; auto.
    + destruct H as [(l' & r' & W' & Hm & Hr & Hr') Hp].
      specialize (IH ts' l' r' W'). destruct (removeTag_list ts' l0) as [ts''| |]; auto.
      * destruct IH as [(l'' & r'' & W'' & Hm') Hp']. split; [|congruence].
        exists l'', r''. split; auto. intros x. rewrite Hm', Hm. intuition.
      * destruct IH as [Hs4 (x & Hx & Hx0)]. apply Hm in Hx.
        assert (Hsz : ts_size ts = 4).
        { destruct W as (_ & Hl & H4 & _). destruct W' as (_ & Hl' & H4' & _).
          destruct (in_dec ss_dec t l) as [Hi|Hi].
          - destruct (Hr Hi) as (r0 & -> & Hh). simpl in H4'. lia.
          - rewrite (Hr' Hi) in H4'. lia. }
        split; auto. exists x. tauto.
    + destruct H as [Hi Hs4]. split; auto. exists t. auto.
Qed.

(** ** Whole operations *)

Lemma wf_new : wf ts_new [] (repeat ss_empty 4).
Proof. repeat split; simpl; auto; constructor. Qed.

Lemma setTags_wf T l r ts l2 r2 : wf T l r -> wf ts l2 r2 ->
  exists r', wf (setTags T ts) l2 r'.
Proof.
  intros (E & Hl & H4 & Hs & Hf) (E2 & Hl2 & H42 & Hs2 & Hf2).
  unfold setTags, wf; cbn [ts_tags ts_size].
  set (m := Nat.max (ts_size T) (ts_size ts)).
  exists (firstn (m - length l2) r2 ++ skipn m (ts_tags T)).
  rewrite E2, firstn_app. rewrite (firstn_all2 l2) by lia. rewrite <- app_assoc.
  repeat split; auto. rewrite !app_length, firstn_length, skipn_length.
  rewrite E, app_length. lia.
Qed.

Scheme api_tagset_mut := Induction for api_tagset Sort Prop
  with api_args_mut := Induction for api_args Sort Prop.

Definition WF (ts : TagSet) : Prop := exists l r, wf ts l r.

Definition args_WF (o : tag_op) : Prop :=
  match o with
  | OAddTags ts | ORemoveTags ts | OSetTags ts => WF ts
  | OReplace r a => WF r /\ WF a
  | _ => True
  end.

Lemma run_op_spec o T l r : wf T l r -> args_WF o ->
  match run_op o T with
  | Ok T' => WF T' /\ exists a', a_step o (abs T) a' /\ aeq (abs T') a'
  | _ => True
  end.
Proof.
  intros W HA. pose proof (wf_mem T l r) as HM.
  destruct o as [t|ts|t|ts|ts| |rm ad|p|n]; simpl in HA |- *.
  - pose proof (addTag_spec T l r t W) as H. destruct (addTag T t) as [T'| |]; auto.
    destruct H as [(l' & r' & W' & Hm) Hp]. split; [exists l', r'; auto|].
    eexists. split; [constructor|]. unfold a_addTag. split; simpl.
    + rewrite Hp. destruct (ss_toInt t); auto.
    + intros x. rewrite (wf_mem T' l' r') by auto. rewrite Hm.
      destruct (ss_toInt t); simpl; rewrite (wf_mem T l r) by auto; intuition discriminate.
  - destruct HA as (l2 & r2 & W2). unfold addTags. destruct (Z.leb 0 (ts_plev ts)); auto.
    rewrite (wf_list ts l2 r2) by auto. pose proof W2 as (_ & _ & _ & _ & Hf2).
    pose proof (addTag_list_spec l2 Hf2 T l r W) as H. destruct (addTag_list T l2) as [T'| |]; auto.
    destruct H as [(l' & r' & W' & Hm) Hp]. split; [exists l', r'; auto|].
    eexists. split; [constructor|]. split; simpl; auto.
    intros x. rewrite (wf_mem T' l' r'), (wf_mem T l r), (wf_mem ts l2 r2) by auto. apply Hm.
  - pose proof (removeTag_spec T l r t W) as H. destruct (removeTag T t) as [T'| |]; auto.
    destruct H as [(l' & r' & W' & Hm & _) Hp]. split; [exists l', r'; auto|].
    eexists. split; [constructor|]. split; simpl; auto.
    intros x. rewrite (wf_mem T' l' r'), (wf_mem T l r) by auto. apply Hm.
  - destruct HA as (l2 & r2 & W2). unfold removeTags. destruct (Z.leb 0 (ts_plev ts)); auto.
    rewrite (wf_list ts l2 r2) by auto.
    pose proof (removeTag_list_spec l2 T l r W) as H. destruct (removeTag_list T l2) as [T'| |]; auto.
    destruct H as [(l' & r' & W' & Hm) Hp]. split; [exists l', r'; auto|].
    eexists. split; [constructor|]. split; simpl; auto.
    intros x. rewrite (wf_mem T' l' r'), (wf_mem T l r), (wf_mem ts l2 r2) by auto. apply Hm.
  - destruct HA as (l2 & r2 & W2). destruct (setTags_wf T l r ts l2 r2) as (r' & W'); auto.
    split; [exists l2, r'; auto|]. eexists. split; [constructor|]. split; simpl.
    + destruct (Z.ltb_spec (ts_plev ts) 0); lia.
    + intros x. rewrite (wf_mem (setTags T ts) l2 r'), (wf_mem ts l2 r2) by auto. tauto.
  - split.
    + exists [], (ts_tags T). destruct W as (E & Hl & H4 & Hs & Hf). unfold wf; simpl.
      rewrite E, app_length. repeat split; auto; constructor.
    + eexists. split; [constructor|]. split; simpl; auto. intros x. split; [|tauto].
      intros (i & Hi & _). simpl in Hi. lia.
  - destruct HA as [(l2 & r2 & W2) (l3 & r3 & W3)]. unfold replaceTags.
    destruct ((Z.leb 0 (ts_plev ad) && Z.ltb (ts_plev rm) 0) || (Z.ltb (ts_plev ad) 0 && Z.leb 0 (ts_plev rm)))%bool; auto.
    assert (Hhas : ts_hasTags T rm = true <-> a_incl (abs rm) (abs T)).
    { unfold ts_hasTags, a_incl; simpl.
      assert (Hall : forallb (fun i => match tagPosition T (ts_at rm i) with Some _ => true | None => false end) (seq 0 (ts_size rm)) = true
          <-> (forall t, tag_in rm t -> tag_in T t)).
      { rewrite forallb_forall. split.
        - intros H t (i & Hi & <-). specialize (H i). rewrite in_seq in H. specialize (H ltac:(lia)).
          pose proof (tagPosition_spec T l r (ts_at rm i) W) as Hpos.
          destruct (tagPosition T (ts_at rm i)) as [p|]; [|discriminate].
          destruct Hpos as [Hp Hn]. apply (wf_mem T l r); auto. rewrite <- Hn. now apply nth_In.
        - intros H i Hi. rewrite in_seq in Hi. assert (Ht : tag_in T (ts_at rm i)) by (apply H; exists i; split; [lia|auto]).
          apply (wf_mem T l r) in Ht; auto. destruct (tagPosition_in T l r _ W Ht) as [p ->]. auto. }
      destruct (Z.leb_spec 0 (ts_plev rm)); simpl.
      - destruct (Z.eqb_spec (ts_plev T) (ts_plev rm)); simpl.
        + rewrite Hall. intuition.
        + split; [discriminate|]. intros [_ H']. specialize (H' H). contradiction.
      - rewrite Hall. split; [intros; split; auto; lia|tauto]. }
    destruct (ts_hasTags T rm) eqn:Eh; simpl negb; cbn match.
    + set (T1 := if Z.leb 0 (ts_plev rm) then mkTS (ts_tags T) (ts_plev ad) (ts_size T) else T).
      assert (W1 : wf T1 l r) by (unfold T1; destruct (Z.leb 0 (ts_plev rm)); auto).
      rewrite (wf_list rm l2 r2), (wf_list ad l3 r3) by auto.
      pose proof (removeTag_list_spec l2 T1 l r W1) as H. destruct (removeTag_list T1 l2) as [T2| |]; simpl; auto.
      destruct H as [(l' & r' & W' & Hm) Hp].
      pose proof W3 as (_ & _ & _ & _ & Hf3).
      pose proof (addTag_list_spec l3 Hf3 T2 l' r' W') as H. destruct (addTag_list T2 l3) as [T3| |]; auto.
      destruct H as [(l'' & r'' & W'' & Hm'') Hp'']. split; [exists l'', r''; auto|].
      eexists. split; [apply as_rep_yes; tauto|]. split; simpl.
      * rewrite Hp'', Hp. unfold T1. destruct (Z.leb 0 (ts_plev rm)); auto.
      * intros x. rewrite (wf_mem T3 l'' r''), (wf_mem ad l3 r3), (wf_mem rm l2 r2) by auto.
        rewrite Hm'', Hm. destruct (Z.leb 0 (ts_plev rm)); simpl; rewrite (wf_mem T l r) by auto; tauto.
    + split; [exists l, r; auto|]. eexists. split; [apply as_rep_no|].
      * intros H. apply Hhas in H. discriminate.
      * split; simpl; tauto.
  - split; [exists l, r; auto|]. eexists. split; [constructor|]. split; simpl; auto. tauto.
  - split; [exists l, r; auto|]. eexists. split; [constructor|]. split; simpl; auto. tauto.
Qed.

Lemma api_WF ts : api_tagset ts -> WF ts.
Proof.
  intros H. induction H using api_tagset_mut with (P0 := fun o _ => args_WF o); simpl; auto.
  - exists [], (repeat ss_empty 4). apply wf_new.
  - destruct IHapi_tagset as (l & r & W). pose proof (run_op_spec o T l r W IHapi_tagset0) as Hs.
    rewrite e in Hs. tauto.
Qed.

Lemma api_args_WF o : api_args o -> args_WF o.
Proof. destruct 1; simpl; auto using api_WF. Qed.

Lemma aeq_step o a b a' : aeq a b -> a_step o a a' -> exists b', a_step o b b' /\ aeq a' b'.
Proof.
  intros (Hp & Hm) H. inversion H; subst; try (eexists; split; [constructor|]; split; simpl; auto; firstorder; fail).
  - eexists; split; [constructor|]. unfold a_addTag. destruct (ss_toInt t); split; simpl; auto; firstorder.
  - eexists; split; [apply as_rep_yes|].
    + destruct H0 as [H1 H2]. split; [firstorder|]. intros H3. rewrite <- Hp. auto.
    + split; simpl; destruct (0 <=? ts_plev r)%Z; simpl; auto; firstorder.
  - eexists; split; [apply as_rep_no|split; auto].
    intros [H1 H2]. apply H0. split; [firstorder|]. intros H3. rewrite Hp. auto.
  - eexists; split; [constructor|]; split; simpl; auto. now rewrite Hp.
Qed.

Lemma aeq_trans a b c : aeq a b -> aeq b c -> aeq a c.
Proof. intros [H1 H2] [H3 H4]. split; [congruence|]. intros t. rewrite H2. auto. Qed.
Lemma aeq_sym a b : aeq a b -> aeq b a.
Proof. intros [H1 H2]. split; [congruence|]. intros t. symmetry; auto. Qed.

Lemma aeq_steps l : forall a b a', aeq a b -> a_steps l a a' -> exists b', a_steps l b b' /\ aeq a' b'.
Proof.
  induction l as [|o l IH]; intros a b a' E H; inversion H as [|o1 l1 a1 b0 c1 H3 H5]; subst.
  - exists b. split; [constructor|auto].
  - destruct (aeq_step o a b b0 E H3) as (b1 & S1 & E1).
    destruct (IH _ _ _ E1 H5) as (b2 & S2 & E2). exists b2. split; auto. econstructor; eauto.
Qed.

Lemma run_ops_spec ops : forall T T', WF T -> Forall args_WF ops -> run_ops ops T = Ok T' ->
  WF T' /\ exists a', a_steps ops (abs T) a' /\ aeq (abs T') a'.
Proof.
  induction ops as [|o ops IH]; intros T T' WT HA H; simpl in H.
  - inversion H; subst. split; auto. exists (abs T'). split; [constructor|]. split; [auto|tauto].
  - inversion HA as [|? ? HA1 HA2]; subst. destruct WT as (l & r & W).
    pose proof (run_op_spec o T l r W HA1) as Hs.
    destruct (run_op o T) as [T1| |]; try discriminate. simpl in H.
    destruct Hs as [WT1 (a1 & S1 & E1)].
    destruct (IH T1 T' WT1 HA2 H) as [WT' (a2 & S2 & E2)]. split; auto.
    destruct (aeq_steps _ _ _ _ E1 S2) as (a3 & S3 & E3).
    exists a3. split; [econstructor; eauto|]. eapply aeq_trans; eauto.
Qed.

(** ** Equality, hasTags *)
Lemma tsorted_ext l1 l2 : StronglySorted tlt l1 -> StronglySorted tlt l2 ->
  (forall t, In t l1 <-> In t l2) -> l1 = l2.
Proof.
  intros H1. revert l2. induction H1 as [|a l Hs IH Hf]; intros l2 H2 HE.
  - destruct l2 as [|b l2]; auto. exfalso. apply (HE b). left; auto.
  - destruct l2 as [|b l2]. { exfalso. apply (HE a). left; auto. }
    inversion H2 as [|? ? Hs2 Hf2]; subst. rewrite Forall_forall in Hf, Hf2.
    assert (a = b).
    { destruct (proj1 (HE a) (or_introl eq_refl)) as [|Ha]; auto.
      destruct (proj2 (HE b) (or_introl eq_refl)) as [|Hb]; auto.
      specialize (Hf _ Hb). specialize (Hf2 _ Ha). unfold tlt in *. lia. }
    subst b. f_equal. apply IH; auto. intros t. split; intros Ht.
    + destruct (proj1 (HE t) (or_intror Ht)) as [<-|]; auto. specialize (Hf _ Ht). unfold tlt in Hf. lia.
    + destruct (proj2 (HE t) (or_intror Ht)) as [<-|]; auto. specialize (Hf2 _ Ht). unfold tlt in Hf2. lia.
Qed.

Lemma ts_eqb_iff T1 T2 : WF T1 -> WF T2 -> (ts_eqb T1 T2 = true <-> aeq (abs T1) (abs T2)).
Proof.
  intros (l1 & r1 & W1) (l2 & r2 & W2). unfold ts_eqb, aeq; simpl.
  pose proof W1 as (E1 & L1 & H41 & S1 & _). pose proof W2 as (E2 & L2 & H42 & S2 & _).
  rewrite !andb_true_iff, Z.eqb_eq, Nat.eqb_eq, forallb_forall. split.
  - intros [[Hp Hs] Hall]. split; auto.
    assert (l1 = l2).
    { apply nth_ext with ss_empty ss_empty; [lia|]. intros i Hi.
      rewrite <- (wf_at T1 l1 r1) by (auto; lia). rewrite <- (wf_at T2 l2 r2) by (auto; lia).
      apply ss_eqb_eq, Hall. apply in_seq. lia. }
    subst l2. intros t. rewrite (wf_mem T1 l1 r1), (wf_mem T2 l1 r2) by auto. tauto.
  - intros [Hp Hm].
    assert (l1 = l2).
    { apply tsorted_ext; auto. intros t. rewrite <- (wf_mem T1 l1 r1), <- (wf_mem T2 l2 r2) by auto. auto. }
    subst l2. repeat split; auto; try lia. intros i Hi. apply in_seq in Hi.
    apply ss_eqb_eq. rewrite (wf_at T1 l1 r1), (wf_at T2 l1 r2) by (auto; lia). auto.
Qed.

Lemma ts_hasTags_iff T rm : WF T -> WF rm -> (ts_hasTags T rm = true <-> a_incl (abs rm) (abs T)).
Proof.
  intros (l & r & W) (l2 & r2 & W2).
  unfold ts_hasTags, a_incl; simpl.
  assert (Hall : forallb (fun i => match tagPosition T (ts_at rm i) with Some _ => true | None => false end) (seq 0 (ts_size rm)) = true
      <-> (forall t, tag_in rm t -> tag_in T t)).
  { rewrite forallb_forall. split.
    - intros H t (i & Hi & <-). specialize (H i). rewrite in_seq in H. specialize (H ltac:(lia)).
      pose proof (tagPosition_spec T l r (ts_at rm i) W) as Hpos.
      destruct (tagPosition T (ts_at rm i)) as [p|]; [|discriminate].
      destruct Hpos as [Hp Hn]. apply (wf_mem T l r); auto. rewrite <- Hn. now apply nth_In.
    - intros H i Hi. rewrite in_seq in Hi. assert (Ht : tag_in T (ts_at rm i)) by (apply H; exists i; split; [lia|auto]).
      apply (wf_mem T l r) in Ht; auto. destruct (tagPosition_in T l r _ W Ht) as [p ->]. auto. }
  destruct (Z.leb_spec 0 (ts_plev rm)); simpl.
  - destruct (Z.eqb_spec (ts_plev T) (ts_plev rm)); simpl.
    + rewrite Hall. intuition.
    + split; [discriminate|]. intros [_ H']. specialize (H' H). contradiction.
  - rewrite Hall. split; [intros; split; auto; lia|tauto].
Qed.

Lemma WF_nodup T : WF T -> NoDup (ts_list T) /\ length (ts_list T) <= 4 /\ (forall t, In t (ts_list T) <-> tag_in T t).
Proof.
  intros (l & r & W). rewrite (wf_list T l r) by auto. split; [|split].
  - destruct W as (_ & _ & _ & Hs & _). now apply tsorted_nodup.
  - destruct W as (_ & _ & H4 & _). lia.
  - intros t. symmetry. now apply (wf_mem T l r).
Qed.

(** ** Parsing *)
Lemma split_comma_nonempty s : exists p ps, split_comma s = p :: ps.
Proof.
  induction s as [|c s (p & ps & E)]; simpl; eauto. rewrite E. destruct (Byte.eqb c comma); eauto.
Qed.

Lemma parse_loop_addlist s : forall ts cur,
  ~ In UB (parse_loop ts cur s :: nil) ->
  parse_loop ts cur s =
  match split_comma s with
  | [] => Err
  | p :: ps => addTag_list ts (map ss_of_bytes ((cur ++ strip_spaces p) :: map strip_spaces ps))
  end.
Proof.
  induction s as [|c s IH]; intros ts cur Hub.
  - simpl. rewrite app_nil_r. destruct (addTag ts (ss_of_bytes cur)); reflexivity.
  - cbn [parse_loop split_comma] in *. destruct (split_comma_nonempty s) as (p & ps & E). rewrite E.
    destruct (Byte.eqb c comma) eqn:Ec.
    + cbn [map addTag_list strip_spaces filter]. rewrite app_nil_r.
      destruct (addTag ts (ss_of_bytes cur)) as [ts'| |]; simpl; auto.
      rewrite IH by auto. rewrite E. reflexivity.
    + destruct (Byte.eqb c space) eqn:Esp.
      * rewrite IH by auto. rewrite E. unfold strip_spaces at 3. cbn [filter]. rewrite Esp. reflexivity.
      * destruct (Nat.leb 7 (length cur)); [exfalso; apply Hub; left; auto|].
        rewrite IH by auto. rewrite E. unfold strip_spaces at 3. cbn [filter]. rewrite Esp. cbn [negb].
        rewrite <- app_assoc. reflexivity.
Qed.

Lemma ts_parse_text s ts : ts_parse s = Ok ts -> addTag_list ts_new (text_tags s) = Ok ts.
Proof.
  unfold ts_parse. intros H. rewrite parse_loop_addlist in H.
  - unfold text_tags. destruct (split_comma s) as [|p ps]; [discriminate|].
    cbn [app] in H. rewrite <- H. cbn [map]. now rewrite map_map.
  - rewrite H. intros [|[]]; discriminate.
Qed.

Lemma addTag_list_any l0 : forall ts, WF ts -> forall ts', addTag_list ts l0 = Ok ts' ->
  WF ts' /\ (forall x, tag_in ts' x <-> tag_in ts x \/ (In x l0 /\ ss_toInt x = None /\ x <> ss_empty)) /\
  (ts_plev ts' = ts_plev ts /\ (forall x, In x l0 -> ss_toInt x = None) \/
   exists x n, In x l0 /\ ss_toInt x = Some n /\ ts_plev ts' = Z.of_N n).
Proof.
  induction l0 as [|t l0 IH]; intros ts HW ts' H; simpl in H.
  - inversion H; subst. split; auto. split; [intros x; simpl; tauto|]. left; split; auto. intros x [].
  - destruct HW as (l & r & W). pose proof (addTag_spec ts l r t W) as Ha.
    destruct (addTag ts t) as [ts1| |]; try discriminate. simpl in H.
    destruct Ha as [(l1 & r1 & W1 & Hm) Hp].
    destruct (IH ts1 (ex_intro _ l1 (ex_intro _ r1 W1)) ts' H) as (HW' & Hm' & Hp').
    split; auto. split.
    + intros x. rewrite Hm', (wf_mem ts1 l1 r1), Hm, (wf_mem ts l r) by auto. simpl.
      split; [intros [[H1|(H1 & H2 & H3)]|H1]|intros [H1|[[H1|H1] H2]]]; subst; auto; try tauto.
    + destruct Hp' as [[Hp' Hn]|(x & n & Hx & Hxn & Hp')].
      * destruct (ss_toInt t) as [n|] eqn:Et.
        -- right. exists t, n. split; [left; auto|]. split; auto. congruence.
        -- left. split; [congruence|]. intros x [<-|Hx]; auto.
      * right. exists x, n. split; [right; auto|]. auto.
Qed.

(** ** Write / read round trip *)
Definition clean (ts : TagSet) : Prop := exists l, wf ts l (repeat ss_empty (4 - length l)).

Lemma addTag_list_padding k ts l r : wf ts l r -> length l < 4 -> addTag_list ts (repeat ss_empty k) = Ok ts.
Proof.
  intros W Hl. induction k as [|k IH]; simpl; auto.
  unfold addTag at 1. change (ss_toInt ss_empty) with (@None N). cbn match.
  destruct (Nat.eqb (ts_size ts) MAX_TAGS) eqn:E.
  - apply Nat.eqb_eq in E. destruct W as (_ & H1 & _). unfold MAX_TAGS in E. lia.
  - destruct (tagPosition ts ss_empty); auto.
Qed.

Lemma addTag_storable ts l r t : wf ts l r -> length l < 4 -> ~ In t l -> storable t ->
  exists ts' r', addTag ts t = Ok ts' /\ wf ts' (insert_t t l) r' /\ ts_plev ts' = ts_plev ts.
Proof.
  intros W Hl Hni (Hne & Hi). pose proof W as (E & Hll & H4 & Hs & Hf). unfold addTag. rewrite Hi.
  destruct (Nat.eqb (ts_size ts) MAX_TAGS) eqn:Es. { apply Nat.eqb_eq in Es. unfold MAX_TAGS in Es. lia. }
  pose proof (tagPosition_spec ts l r t W) as Hpos.
  destruct (tagPosition ts t) as [p|].
  { destruct Hpos as [Hp Hn]. exfalso. apply Hni. rewrite <- Hn. now apply nth_In. }
  apply ss_eqb_neq in Hne. rewrite Hne.
  destruct r as [|hole r]; [simpl in H4; lia|].
  eexists _, r. split; [reflexivity|]. split; auto.
  unfold wf; cbn [ts_tags ts_size]. rewrite E, <- Hll, insert_tag_loop_spec by auto.
  rewrite insert_t_length. repeat split; auto.
  - simpl in H4; lia.
  - now apply insert_t_sorted.
  - rewrite Forall_forall in *. intros x Hx.
    apply (Permutation_in _ (insert_t_perm t l)) in Hx as [<-|Hx]; auto. split; auto. now apply ss_eqb_neq.
Qed.

Lemma insert_t_app t l : Forall (fun a => tlt a t) l -> insert_t t l = l ++ [t].
Proof.
  induction 1 as [|a l Ha Hl IH]; simpl; auto.
  apply ss_ltb_lt in Ha. rewrite Ha, IH. reflexivity.
Qed.

Lemma addTag_list_sorted l2 : forall ts l r, wf ts l r -> StronglySorted tlt (l ++ l2) ->
  Forall storable l2 -> length l + length l2 <= 4 ->
  exists ts' r', addTag_list ts l2 = Ok ts' /\ wf ts' (l ++ l2) r' /\ ts_plev ts' = ts_plev ts.
Proof.
  induction l2 as [|t l2 IH]; intros ts l r W Hs Hf Hl.
  - exists ts, r. rewrite app_nil_r. auto.
  - inversion Hf; subst. simpl in Hl.
    assert (Hlt : Forall (fun a => tlt a t) l).
    { clear -Hs. induction l as [|a l IH]; auto. simpl in Hs. inversion Hs; subst. constructor; auto.
      rewrite Forall_app in H2. destruct H2 as [_ H2]. inversion H2; auto. }
    assert (Hni : ~ In t l).
    { intros Hin. rewrite Forall_forall in Hlt. specialize (Hlt _ Hin). unfold tlt in Hlt. lia. }
    destruct (addTag_storable ts l r t) as (ts1 & r1 & E1 & W1 & P1); auto; try lia.
    rewrite insert_t_app in W1 by auto.
    destruct (IH ts1 (l ++ [t]) r1 W1) as (ts2 & r2 & E2 & W2 & P2); auto.
    + rewrite <- app_assoc. auto.
    + rewrite app_length; simpl; lia.
    + exists ts2, r2. rewrite <- app_assoc in W2. simpl in *. rewrite E1. simpl. repeat split; auto; try congruence; apply W2.
Qed.

Lemma clean_roundtrip T : clean T -> exists T', ts_read_from T ts_new = Ok T' /\ ts_eqb T' T = true.
Proof.
  intros (l & W). pose proof W as (E & Hl & H4 & Hs & Hf). unfold ts_read_from. rewrite E.
  assert (Hsplit : forall a b t, addTag_list t (a ++ b) = obind (addTag_list t a) (fun t' => addTag_list t' b)).
  { induction a as [|x a IH]; intros b t; simpl; auto. destruct (addTag t x); simpl; auto. }
  rewrite Hsplit.
  destruct (addTag_list_sorted l ts_new [] (repeat ss_empty 4)) as (T1 & r1 & E1 & W1 & P1); auto using wf_new.
  { simpl. lia. }
  rewrite E1. cbn [obind app] in *.
  assert (E2 : addTag_list T1 (repeat ss_empty (4 - length l)) = Ok T1).
  { destruct (Nat.eq_dec (length l) 4) as [->|Hne]; [reflexivity|]. eapply addTag_list_padding; eauto. lia. }
  rewrite E2. cbn [obind]. eexists; split; [reflexivity|].
  apply ts_eqb_iff.
  - exists l, r1. auto.
  - eexists _, _; eauto.
  - split; simpl; auto. intros t. rewrite (wf_mem _ l r1), (wf_mem T l _) by eauto. tauto.
Qed.

Lemma addTag_clean T t T' : clean T -> addTag T t = Ok T' -> clean T'.
Proof.
  intros (l & W) H. pose proof W as (E & Hl & H4 & Hs & Hf). unfold addTag in H.
  destruct (ss_toInt t) eqn:Ei.
  - destruct (Z.ltb 0 (ts_plev T)); inversion H; subst. exists l. auto.
  - destruct (Nat.eqb (ts_size T) MAX_TAGS) eqn:Es; [discriminate|]. apply Nat.eqb_neq in Es. unfold MAX_TAGS in Es.
    pose proof (tagPosition_spec T l _ t W) as Hpos.
    destruct (tagPosition T t) as [p|]; [inversion H; subst; exists l; auto|].
    destruct (ss_eqb t ss_empty) eqn:Ee; inversion H; subst; [exists l; auto|].
    rewrite repeat_length in H4.
    exists (insert_t t l). replace (4 - length l) with (S (3 - length l)) in E by lia. cbn [repeat] in E.
    unfold wf; cbn [ts_tags ts_size]. rewrite E, <- Hl, insert_tag_loop_spec by auto.
    rewrite insert_t_length, repeat_length. repeat split; auto; try lia.
    + now apply insert_t_sorted.
    + rewrite Forall_forall in *. intros x Hx.
      apply (Permutation_in _ (insert_t_perm t l)) in Hx as [<-|Hx]; auto. split; auto. now apply ss_eqb_neq.
Qed.

Lemma addTag_list_clean l0 : forall T T', clean T -> addTag_list T l0 = Ok T' -> clean T'.
Proof.
  induction l0 as [|t l0 IH]; intros T T' HC H; simpl in H; [inversion H; subst; auto|].
  destruct (addTag T t) eqn:E; try discriminate. simpl in H. eapply IH; [|eauto]. eapply addTag_clean; eauto.
Qed.

Lemma removeTag_clean T t T' : clean T -> removeTag T t = Ok T' -> clean T'.
Proof.
  intros (l & W) H. pose proof W as (E & Hl & H4 & _). rewrite repeat_length in H4.
  pose proof (removeTag_spec T l _ t W) as Hs. rewrite H in Hs.
  destruct Hs as [(l' & r' & W' & Hm & Hr & Hr') Hp].
  exists l'. destruct (in_dec ss_dec t l) as [Hi|Hi].
  - destruct (Hr Hi) as (r0 & Hr0 & Hh).
    pose proof W' as (_ & _ & H4' & _). rewrite Hr0 in *.
    simpl in H4'. rewrite repeat_length in H4'.
    destruct (4 - length l) as [|k] eqn:Ek; [simpl in Hh; discriminate|]. simpl in Hh. inversion Hh; subst r0.
    replace (4 - length l') with (S (S k)) by lia. exact W'.
  - rewrite (Hr' Hi) in *. pose proof W' as (_ & _ & H4' & _). rewrite repeat_length in H4'.
    replace (4 - length l') with (4 - length l) by lia. auto.
Qed.

Lemma removeTag_list_clean l0 : forall T T', clean T -> removeTag_list T l0 = Ok T' -> clean T'.
Proof.
  induction l0 as [|t l0 IH]; intros T T' HC H; simpl in H; [inversion H; subst; auto|].
  destruct (removeTag T t) eqn:E; try discriminate. simpl in H. eapply IH; [|eauto]. eapply removeTag_clean; eauto.
Qed.

Lemma firstn_repeat' {A} (x : A) n m : firstn n (repeat x m) = repeat x (min n m).
Proof. revert m; induction n; intros [|m]; simpl; auto. now rewrite IHn. Qed.
Lemma skipn_repeat' {A} (x : A) n m : skipn n (repeat x m) = repeat x (m - n).
Proof.
  revert m; induction n; intros [|m]; auto.
  change (skipn (S n) (repeat x (S m))) with (skipn n (repeat x m)). rewrite IHn. f_equal.
Qed.

Lemma setTags_clean T ts : clean T -> clean ts -> clean (setTags T ts).
Proof.
  intros (l & E & Hl & H4 & Hs & Hf) (l2 & E2 & Hl2 & H42 & Hs2 & Hf2).
  rewrite repeat_length in *. exists l2. unfold setTags, wf; cbn [ts_tags ts_size].
  set (m := Nat.max (ts_size T) (ts_size ts)).
  rewrite E2, E, firstn_app. rewrite (firstn_all2 l2) by lia.
  rewrite skipn_app. rewrite (skipn_all2 l) by lia. simpl app.
  rewrite firstn_repeat', skipn_repeat', <- app_assoc, <- repeat_app, repeat_length.
  repeat split; auto; try lia. f_equal. f_equal. lia.
Qed.

(** operations other than noTags keep the unused slots empty *)
Definition not_noTags (o : tag_op) : Prop := match o with ONoTags => False | _ => True end.
Definition args_clean (o : tag_op) : Prop :=
  match o with OSetTags ts => clean ts | _ => True end.

Lemma run_op_clean o T T' : clean T -> not_noTags o -> args_clean o -> run_op o T = Ok T' -> clean T'.
Proof.
  intros HC HN HA H. destruct o as [t|ts|t|ts|ts| |rm ad|p|n]; simpl in H.
  - eapply addTag_clean; eauto.
  - unfold addTags in H. destruct (Z.leb 0 (ts_plev ts)); [discriminate|]. eapply addTag_list_clean; eauto.
  - eapply removeTag_clean; eauto.
  - unfold removeTags in H. destruct (Z.leb 0 (ts_plev ts)); [discriminate|]. eapply removeTag_list_clean; eauto.
  - inversion H; subst. apply setTags_clean; auto.
  - destruct HN.
  - unfold replaceTags in H. destruct (_ || _)%bool; [discriminate|].
    destruct (ts_hasTags T rm); simpl negb in H; cbn match in H; [|inversion H; subst; auto].
    set (T1 := if Z.leb 0 (ts_plev rm) then mkTS (ts_tags T) (ts_plev ad) (ts_size T) else T) in *.
    assert (C1 : clean T1) by (unfold T1; destruct (Z.leb 0 (ts_plev rm)); auto; destruct HC as (l & W); exists l; auto).
    destruct (removeTag_list T1 (ts_list rm)) eqn:E1; try discriminate. simpl in H.
    eapply addTag_list_clean; [|eauto]. eapply removeTag_list_clean; eauto.
  - inversion H; subst. destruct HC as (l & W). exists l; auto.
  - inversion H; subst. destruct HC as (l & W). exists l; auto.
Qed.

Lemma clean_new : clean ts_new.
Proof. exists []. apply wf_new. Qed.
