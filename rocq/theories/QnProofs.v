From Coq Require Import List ZArith Bool Lia Sorting.Sorted Permutation.
From Verif Require Import Util SmallStringModel SmallStringProofs QnModel QnSpec.
Import ListNotations.
Local Open Scope Z_scope.
Local Arguments Nat.sub : simpl never.

(** * One charge *)

Lemma qset_residue m v : qset m v = residue m v.
Proof.
  unfold qset, residue. cbn zeta.
  destruct (1 <? Z.abs m) eqn:E; auto.
  apply Z.ltb_lt in E.
  rewrite Z.rem_mod_nonneg by nia.
  rewrite Z.mul_comm, Z.add_comm, Z.mod_add by lia. reflexivity.
Qed.

Lemma residue_idem m v : residue m (residue m v) = residue m v.
Proof.
  unfold residue. destruct (1 <? Z.abs m) eqn:E; auto.
  apply Z.ltb_lt in E. now rewrite Z.mod_mod by lia.
Qed.

Lemma residue_add_l m a b : residue m (residue m a + b) = residue m (a + b).
Proof.
  unfold residue. destruct (1 <? Z.abs m) eqn:E; auto.
  apply Z.ltb_lt in E. now rewrite Z.add_mod_idemp_l by lia.
Qed.

Lemma residue_add_r m a b : residue m (a + residue m b) = residue m (a + b).
Proof. rewrite Z.add_comm, residue_add_l. f_equal; lia. Qed.

Lemma residue_opp m a : residue m (- residue m a) = residue m (- a).
Proof.
  unfold residue. destruct (1 <? Z.abs m) eqn:E; auto.
  apply Z.ltb_lt in E.
  replace (- (a mod Z.abs m)) with (0 - a mod Z.abs m) by lia.
  rewrite Zminus_mod_idemp_r. f_equal; lia.
Qed.

Lemma residue_0 m : residue m 0 = 0.
Proof. unfold residue. destruct (1 <? Z.abs m) eqn:E; auto. Qed.

Lemma qset32_ok m v :
  Z.abs m <= 2147483647 -> 0 <= Z.abs v <= 2147483647 ->
  (1 < Z.abs m -> Z.abs m * Z.abs v + Z.abs v <= 2147483647) ->
  qset32 m v = Some (residue m v).
Proof.
  intros Hm Hv Hmv. rewrite <- qset_residue. unfold qset32, qset, fits32. cbn zeta.
  destruct (1 <? Z.abs m) eqn:E.
  - apply Z.ltb_lt in E. specialize (Hmv E).
    repeat match goal with
    | |- context[negb ?b] =>
      replace b with true by (symmetry; apply andb_true_iff; split; apply Z.leb_le; nia)
    end. reflexivity.
  - replace ((-2147483648 <=? Z.abs m) && (Z.abs m <=? 2147483647)) with true
      by (symmetry; apply andb_true_iff; split; apply Z.leb_le; lia).
    reflexivity.
Qed.

(** * Canonical stores *)

Definition klt (a b : QNum) : Prop := (ss_key (qn_name a) < ss_key (qn_name b))%N.

Definition good (M : SmallString -> Z) (S : list SmallString) (v : QNum) : Prop :=
  In (qn_name v) S /\ qn_mod v = M (qn_name v) /\ qn_mod v <> 0 /\
  qn_val v = residue (qn_mod v) (qn_val v).

Definition pad (act : list QNum) : QN := act ++ repeat qnum0 (4 - length act).

Definition wf M S (q : QN) (act : list QNum) : Prop :=
  q = pad act /\ (length act <= 4)%nat /\ StronglySorted klt act /\ Forall (good M S) act.

Lemma wf_length M S q act : wf M S q act -> length q = 4%nat.
Proof. intros (-> & H & _). unfold pad. rewrite app_length, repeat_length. lia. Qed.

Lemma good_active M S v : good M S v -> isActive v = true.
Proof. intros (_ & _ & H & _). unfold isActive. apply negb_true_iff. now apply Z.eqb_neq. Qed.

Lemma inactive0 : isActive qnum0 = false.
Proof. reflexivity. Qed.

Definition names (l : list QNum) := map qn_name l.

Lemma sorted_nodup l : StronglySorted klt l -> NoDup (names l).
Proof.
  induction 1 as [|a l Hs IH Hf]; simpl; constructor; auto.
  intros Hin. apply in_map_iff in Hin as (b & Hb & Hin).
  rewrite Forall_forall in Hf. specialize (Hf _ Hin). unfold klt in Hf. rewrite Hb in Hf. lia.
Qed.

Lemma names_incl M S act : Forall (good M S) act -> incl (names act) S.
Proof.
  intros H n Hin. apply in_map_iff in Hin as (b & <- & Hin).
  rewrite Forall_forall in H. now apply H.
Qed.

(** room for a new name *)
Lemma room M S act n :
  NoDup S -> (length S <= 4)%nat -> StronglySorted klt act -> Forall (good M S) act ->
  In n S -> ~ In n (names act) -> (length act < 4)%nat.
Proof.
  intros Hnd Hl Hs Hg Hn Hni.
  assert (length (n :: names act) <= length S)%nat.
  { apply NoDup_incl_length.
    - constructor; auto. now apply sorted_nodup.
    - intros x [<-|Hx]; auto. eapply names_incl; eauto. }
  simpl in H. unfold names in H. rewrite map_length in H. lia.
Qed.

(** ** addNum *)

Fixpoint insert_q (v : QNum) (l : list QNum) : list QNum :=
  match l with
  | [] => [v]
  | a :: t => if ss_ltb (qn_name a) (qn_name v) then a :: insert_q v t else v :: l
  end.

Lemma insert_q_length v l : length (insert_q v l) = S (length l).
Proof. induction l; simpl; auto. destruct (ss_ltb _ _); simpl; auto. Qed.

Lemma insert_q_perm v l : Permutation (insert_q v l) (v :: l).
Proof.
  induction l as [|a t IH]; simpl; auto.
  destruct (ss_ltb _ _); auto.
  eapply perm_trans; [apply perm_skip, IH|]. apply perm_swap.
Qed.

Lemma insert_q_sorted v l :
  StronglySorted klt l -> ~ In (qn_name v) (names l) -> StronglySorted klt (insert_q v l).
Proof.
  induction 1 as [|a l Hs IH Hf]; intros Hni; simpl.
  - repeat constructor.
  - destruct (ss_ltb (qn_name a) (qn_name v)) eqn:E.
    + constructor.
      * apply IH. intros H; apply Hni; right; auto.
      * rewrite Forall_forall in *. intros x Hx.
        apply (Permutation_in _ (insert_q_perm v l)) in Hx. destruct Hx as [<-|Hx]; auto.
        now apply ss_ltb_lt.
    + apply ss_ltb_ge in E.
      assert (klt v a).
      { unfold klt. destruct (N.lt_trichotomy (ss_key (qn_name v)) (ss_key (qn_name a))) as [H|[H|H]]; auto; try lia.
        exfalso; apply Hni; left. symmetry. now apply ss_key_inj. }
      constructor; [constructor; auto|].
      constructor; auto. rewrite Forall_forall in *. intros x Hx.
      specialize (Hf _ Hx). unfold klt in *. lia.
Qed.

Ltac bytes4 q Hq :=
  destruct q as [|?q0 [|?q1 [|?q2 [|?q3 [|? ?]]]]]; simpl in Hq; try lia.

Lemma insert_q_last v l a :
  StronglySorted klt (l ++ [a]) ->
  insert_q v (l ++ [a]) =
  if ss_ltb (qn_name a) (qn_name v) then l ++ [a; v] else insert_q v l ++ [a].
Proof.
  induction l as [|b l IH]; intros Hs; simpl.
  - destruct (ss_ltb _ _); auto.
  - inversion Hs; subst. rewrite IH by auto.
    destruct (ss_ltb (qn_name a) (qn_name v)) eqn:E.
    + assert (klt b a). { rewrite Forall_forall in H2. apply H2. apply in_or_app; right; left; auto. }
      assert (Hb : ss_ltb (qn_name b) (qn_name v) = true).
      { apply ss_ltb_lt. apply ss_ltb_lt in E. unfold klt in H. lia. }
      rewrite Hb. reflexivity.
    + destruct (ss_ltb (qn_name b) (qn_name v)); auto.
Qed.

Lemma sorted_app_l {A} (R : A -> A -> Prop) l1 l2 :
  StronglySorted R (l1 ++ l2) -> StronglySorted R l1.
Proof.
  induction l1 as [|a l IH]; intros H; simpl in *; constructor; inversion H; subst; auto.
  rewrite Forall_app in H3. tauto.
Qed.

(** addNum's loop, on a store whose active part is [act]; slots past [n] are already
    final ([tl]) and slot [n] is free. *)
Lemma addNum_loop_hole act v :
  (length act <= 3)%nat -> StronglySorted klt act ->
  Forall (fun a => isActive a = true) act -> ~ In (qn_name v) (names act) ->
  forall hole tl, 
  addNum_loop (length act) (act ++ hole :: tl) v = Ok (insert_q v act ++ tl).
Proof.
  induction act as [|a act IH] using rev_ind; intros Hl Hs Ha Hni hole tl.
  - reflexivity.
  - rewrite app_length in *. simpl length in *. rewrite Nat.add_1_r in *.
    cbn [addNum_loop].
    assert (Hslot : slot ((act ++ [a]) ++ hole :: tl) (length act) = a).
    { unfold slot. rewrite <- app_assoc. rewrite app_nth2 by lia. rewrite Nat.sub_diag. reflexivity. }
    rewrite Hslot.
    rewrite Forall_app in Ha. destruct Ha as [Ha Haa]. inversion Haa; subst. rewrite H1.
    assert (Hne : qn_name a <> qn_name v).
    { intros E. apply Hni. unfold names. rewrite map_app. apply in_or_app; right; left; auto. }
    apply ss_eqb_neq in Hne. rewrite Hne.
    rewrite insert_q_last by auto.
    destruct (ss_ltb (qn_name a) (qn_name v)) eqn:E.
    + replace (S (length act)) with (length (act ++ [a])) by (rewrite app_length; simpl; lia).
      rewrite upd_middle. rewrite <- !app_assoc. reflexivity.
    + replace (S (length act)) with (length (act ++ [a])) by (rewrite app_length; simpl; lia).
      rewrite upd_middle. rewrite <- !app_assoc. simpl app.
      rewrite IH; auto; try lia.
      * eapply sorted_app_l; eauto.
      * intros H; apply Hni. unfold names in *. rewrite map_app. apply in_or_app; auto.
Qed.

Lemma repeat_snoc {A} (x : A) n : repeat x (S n) = repeat x n ++ [x].
Proof. induction n; simpl; auto. now rewrite <- IHn. Qed.

Lemma addNum_loop_pad act v k :
  Forall (fun a => isActive a = true) act ->
  forall m, (k <= m)%nat ->
  addNum_loop (length act + k) (act ++ repeat qnum0 (S m)) v =
  addNum_loop (length act) (act ++ repeat qnum0 (S m)) v.
Proof.
  intros Ha. induction k as [|k IH]; intros m Hk.
  - now rewrite Nat.add_0_r.
  - rewrite Nat.add_succ_r. cbn [addNum_loop].
    assert (Hs : slot (act ++ repeat qnum0 (S m)) (length act + k) = qnum0).
    { unfold slot. rewrite app_nth2 by lia. apply nth_repeat. }
    rewrite Hs, inactive0. apply IH. lia.
Qed.

Lemma addNum_ok act v :
  (length act <= 3)%nat -> StronglySorted klt act ->
  Forall (fun a => isActive a = true) act -> ~ In (qn_name v) (names act) ->
  addNum (pad act) v = Ok (pad (insert_q v act)).
Proof.
  intros Hl Hs Ha Hni. unfold addNum, pad, QNSize.
  assert (Hslot : slot (act ++ repeat qnum0 (4 - length act)) (4 - 1) = qnum0).
  { unfold slot. rewrite app_nth2 by lia. apply nth_repeat. }
  rewrite Hslot, inactive0.
  replace (4 - 1)%nat with (length act + (3 - length act))%nat by lia.
  replace (4 - length act)%nat with (S (3 - length act)) by lia.
  rewrite addNum_loop_pad by (auto; lia).
  simpl repeat. rewrite addNum_loop_hole by auto.
  rewrite insert_q_length. reflexivity.
Qed.

Lemma pad_nil : pad [] = qn0.
Proof. reflexivity. Qed.

Lemma wf_zero M S : wf M S qn0 [].
Proof. repeat split; simpl; auto; try lia; constructor. Qed.

Lemma good_make M S n v : In n S -> M n <> 0 -> good M S (qnum_make n v (M n)).
Proof.
  intros Hin Hm. unfold good, qnum_make; simpl. rewrite qset_residue, residue_idem. auto.
Qed.

Lemma qn_make_rest_wf M S : NoDup S -> (length S <= 4)%nat ->
  (forall n, In n S -> M n <> 0) ->
  forall entries act,
  NoDup (map fst entries ++ names act) ->
  (forall n v, In (n, v) entries -> In n S) ->
  (length act <= 4)%nat -> StronglySorted klt act -> Forall (good M S) act ->
  exists act', qn_make_rest (pad act) (map (fun e => qnum_make (fst e) (snd e) (M (fst e))) entries)
     = Ok (pad act') /\ (length act' <= 4)%nat /\ StronglySorted klt act' /\ Forall (good M S) act' /\
     Permutation act' (map (fun e => qnum_make (fst e) (snd e) (M (fst e))) entries ++ act).
Proof.
  intros HnS HlS HM entries. induction entries as [|[n v] t IH]; intros act Hnd Hin Hl Hs Hg.
  - exists act. simpl. auto.
  - simpl map. cbn [qn_make_rest fst snd].
    assert (HnS' : In n S) by (eapply Hin; left; eauto).
    assert (Hgood : good M S (qnum_make n v (M n))) by (apply good_make; auto).
    rewrite (good_active _ _ _ Hgood).
    simpl in Hnd. inversion Hnd as [|x l Hni Hnd']; subst.
    assert (Hni' : ~ In n (names act)) by (intros H; apply Hni, in_or_app; auto).
    assert (length act < 4)%nat by (apply (room M S act n); auto).
    rewrite addNum_ok; auto; try lia.
    2:{ eapply Forall_impl; [|exact Hg]. intros; eapply good_active; eauto. }
    simpl obind.
    destruct (IH (insert_q (qnum_make n v (M n)) act)) as (act' & E & Hl' & Hs' & Hg' & Hp).
    + apply (Permutation_NoDup (l := n :: map fst t ++ names act)); auto.
      eapply perm_trans; [apply Permutation_middle|].
      apply Permutation_app_head. unfold names.
      change (n :: map qn_name act) with (map qn_name (qnum_make n v (M n) :: act)).
      apply Permutation_map. apply Permutation_sym, insert_q_perm.
    + intros n' v' H'. eapply Hin; right; eauto.
    + rewrite insert_q_length. lia.
    + apply insert_q_sorted; auto.
    + rewrite Forall_forall in *. intros x Hx.
      apply (Permutation_in _ (insert_q_perm _ _)) in Hx. destruct Hx as [<-|Hx]; auto.
    + exists act'. repeat split; auto.
      eapply perm_trans; [exact Hp|].
      eapply perm_trans; [apply Permutation_app_head, insert_q_perm|].
      apply Permutation_sym, Permutation_middle.
Qed.

Lemma qn_make_wf M S entries : Scheme M S ->
  NoDup (map fst entries) -> (forall n v, In (n, v) entries -> In n S) ->
  exists act, qn_make (map (fun e => qnum_make (fst e) (snd e) (M (fst e))) entries) = Ok (pad act)
   /\ wf M S (pad act) act
   /\ Permutation act (map (fun e => qnum_make (fst e) (snd e) (M (fst e))) entries).
Proof.
  intros (HnS & HlS & HM) Hnd Hin.
  destruct (qn_make_rest_wf M S HnS HlS HM entries []) as (act & E & Hl & Hs & Hg & Hp);
    auto; try constructor.
  - simpl. now rewrite app_nil_r.
  - exists act. rewrite app_nil_r in Hp. rewrite pad_nil in E.
    assert (E' : qn_make (map (fun e => qnum_make (fst e) (snd e) (M (fst e))) entries)
            = qn_make_rest qn0 (map (fun e => qnum_make (fst e) (snd e) (M (fst e))) entries)).
    { destruct entries as [|[n v] t]; auto. simpl map. cbn [qn_make qn_make_rest].
      rewrite (good_active M S); auto. apply good_make; eauto.
      - apply (Hin n v); left; auto.
      - apply HM. apply (Hin n v); left; auto. }
    rewrite E'. repeat split; auto.
Qed.

(** ** combineQN *)

Fixpoint add_q (v : QNum) (l : list QNum) : list QNum :=
  match l with
  | [] => [v]
  | a :: t =>
    if ss_eqb (qn_name a) (qn_name v) then qnum_add a v :: t
    else if ss_ltb (qn_name v) (qn_name a) then v :: l
    else a :: add_q v t
  end.

Lemma shift_spec (q : QN) n v : length q = 4%nat -> (n < 4)%nat ->
  upd n v (shift_loop 3 n q) = firstn n q ++ v :: firstn (3 - n) (skipn n q).
Proof.
  intros Hq Hn. bytes4 q Hq.
  destruct n as [|[|[|[|n]]]]; try lia; reflexivity.
Qed.

Lemma firstn_repeat {A} (x : A) n m : firstn n (repeat x m) = repeat x (min n m).
Proof. revert m; induction n; intros [|m]; simpl; auto. now rewrite IHn. Qed.

Lemma combine_one_spec pre rest v :
  (length (pre ++ rest) <= 4)%nat ->
  (~ In (qn_name v) (names (pre ++ rest)) -> (length (pre ++ rest) < 4)%nat) ->
  StronglySorted klt (pre ++ rest) ->
  Forall (fun a => isActive a = true) (pre ++ rest) ->
  Forall (fun a => klt a v) pre ->
  combine_one (4 - length pre) (length pre) (pad (pre ++ rest)) v = pad (pre ++ add_q v rest).
Proof.
  revert pre. induction rest as [|a rest IH]; intros pre Hl Hroom Hs Ha Hpre.
  - rewrite app_nil_r in *. simpl add_q.
    assert (length pre < 4)%nat.
    { apply Hroom. intros Hin. apply in_map_iff in Hin as (b & Hb & Hin).
      rewrite Forall_forall in Hpre. specialize (Hpre _ Hin). unfold klt in Hpre. rewrite Hb in Hpre. lia. }
    replace (4 - length pre)%nat with (S (3 - length pre)) by lia.
    cbn [combine_one].
    assert (Hslot : slot (pad pre) (length pre) = qnum0).
    { unfold slot, pad. rewrite app_nth2 by lia. apply nth_repeat. }
    rewrite Hslot, inactive0. simpl negb. cbn match.
    unfold pad. replace (4 - length pre)%nat with (S (3 - length pre)) by lia.
    simpl repeat. rewrite upd_middle. rewrite app_length. simpl length.
    replace (4 - (length pre + 1))%nat with (3 - length pre)%nat by lia.
    rewrite <- app_assoc. reflexivity.
  - rewrite app_length in Hl. simpl length in Hl.
    replace (4 - length pre)%nat with (S (3 - length pre)) by lia.
    cbn [combine_one add_q].
    assert (Hslot : slot (pad (pre ++ a :: rest)) (length pre) = a).
    { unfold slot, pad. rewrite <- app_assoc. rewrite app_nth2 by lia. rewrite Nat.sub_diag. reflexivity. }
    rewrite Hslot.
    assert (Haa : isActive a = true).
    { rewrite Forall_app in Ha. destruct Ha as [_ Ha]. inversion Ha; auto. }
    rewrite Haa. simpl negb. cbn match.
    destruct (ss_eqb (qn_name a) (qn_name v)) eqn:Ee.
    + unfold pad. rewrite <- app_assoc. simpl app. rewrite upd_middle.
      rewrite !app_length. simpl length. rewrite <- app_assoc. reflexivity.
    + destruct (ss_ltb (qn_name v) (qn_name a)) eqn:El.
      * (* insertion *)
        assert (Hg : (Nat.eqb (length pre) 0 || ss_gtb (qn_name v) (qn_name (slot (pad (pre ++ a :: rest)) (length pre - 1))))%bool = true).
        { destruct pre as [|p0 pre'] using rev_ind; auto. apply orb_true_iff; right.
          unfold slot, pad, ss_gtb. rewrite app_length. simpl length.
          replace (length pre' + 1 - 1)%nat with (length pre') by lia.
          rewrite <- !app_assoc. rewrite app_nth2 by lia. rewrite Nat.sub_diag. simpl nth.
          apply ss_ltb_lt. rewrite Forall_app in Hpre. destruct Hpre as [_ Hp]. inversion Hp; auto. }
        rewrite Hg. simpl andb. cbn match. 
        assert (Hlt : (length (pre ++ a :: rest) < 4)%nat).
        { apply Hroom. intros Hin. apply in_map_iff in Hin as (b & Hb & Hin).
          apply in_app_or in Hin as [Hin|Hin].
          - rewrite Forall_forall in Hpre. specialize (Hpre _ Hin). unfold klt in Hpre. rewrite Hb in Hpre. lia.
          - apply ss_ltb_lt in El. destruct Hin as [<-|Hin].
            + apply ss_eqb_neq in Ee. contradiction.
            + assert (Hs2 : StronglySorted klt (a :: rest)).
              { clear -Hs. induction pre; simpl in *; auto. inversion Hs; auto. }
              inversion Hs2; subst. rewrite Forall_forall in H2. specialize (H2 _ Hin).
              unfold klt in H2. rewrite Hb in H2. lia. }
        rewrite app_length in Hlt. simpl length in Hlt.
        change (QNSize - 1)%nat with 3%nat. rewrite shift_spec.
        2:{ unfold pad. rewrite app_length, repeat_length, app_length. simpl length. lia. }
        2:{ lia. }
        unfold pad. rewrite <- app_assoc.
        rewrite firstn_app, Nat.sub_diag, firstn_all. simpl firstn. rewrite app_nil_r.
        rewrite skipn_app, Nat.sub_diag, skipn_all. cbn [skipn app].
        rewrite <- app_assoc. f_equal. cbn [app]. f_equal.
        rewrite app_comm_cons.
        rewrite firstn_app. rewrite firstn_all2 by (simpl; lia). simpl app. f_equal.
        rewrite firstn_repeat. f_equal.
        rewrite !app_length. simpl length. f_equal. lia.
      * simpl andb. cbn match.
        assert (Hav : klt a v).
        { unfold klt. apply ss_ltb_ge in El. apply ss_eqb_neq in Ee.
          assert (ss_key (qn_name a) <> ss_key (qn_name v)) by (intros H; apply Ee, ss_key_inj, H). lia. }
        specialize (IH (pre ++ [a])).
        rewrite <- !(app_assoc pre) in IH. simpl app in IH.
        assert (Lp : length (pre ++ [a]) = S (length pre)) by (rewrite app_length; simpl; lia).
        rewrite Lp in IH.
        replace (4 - S (length pre))%nat with (3 - length pre)%nat in IH by lia.
        apply IH; auto; try (rewrite app_length; simpl; lia).
        rewrite Forall_app. split; auto.
Qed.

Lemma add_q_length v l : (length (add_q v l) <= S (length l))%nat.
Proof. induction l; simpl; auto. destruct (ss_eqb _ _); [|destruct (ss_ltb _ _)]; simpl; lia. Qed.

Lemma add_q_names v l n : In n (names (add_q v l)) <-> n = qn_name v \/ In n (names l).
Proof.
  induction l as [|a t IH]; simpl.
  - intuition.
  - destruct (ss_eqb (qn_name a) (qn_name v)) eqn:E.
    + apply ss_eqb_eq in E. simpl. rewrite E. intuition.
    + destruct (ss_ltb _ _); simpl; try rewrite IH; intuition.
Qed.

Lemma add_q_sorted v l : StronglySorted klt l -> StronglySorted klt (add_q v l).
Proof.
  induction 1 as [|a l Hs IH Hf]; simpl.
  - repeat constructor.
  - destruct (ss_eqb (qn_name a) (qn_name v)) eqn:E.
    + constructor; auto.
    + destruct (ss_ltb (qn_name v) (qn_name a)) eqn:El.
      * apply ss_ltb_lt in El. constructor; [constructor; auto|].
        constructor; auto. rewrite Forall_forall in *. intros x Hx. specialize (Hf _ Hx).
        unfold klt in *. lia.
      * constructor; auto. apply ss_ltb_ge in El. apply ss_eqb_neq in E.
        assert (klt a v). { unfold klt. assert (ss_key (qn_name a) <> ss_key (qn_name v)) by (intros H; apply E, ss_key_inj, H). lia. }
        rewrite Forall_forall in *. intros x Hx.
        assert (Hn : In (qn_name x) (names (add_q v l))) by (apply in_map; auto).
        apply add_q_names in Hn. destruct Hn as [Hn|Hn]; unfold klt in *.
        -- rewrite Hn. auto.
        -- apply in_map_iff in Hn as (y & Hy & Hin). specialize (Hf _ Hin). rewrite <- Hy. auto.
Qed.

Lemma add_q_good M S v l : good M S v -> Forall (good M S) l -> Forall (good M S) (add_q v l).
Proof.
  intros Hv. induction 1 as [|a l Ha Hl IH]; simpl.
  - auto.
  - destruct (ss_eqb (qn_name a) (qn_name v)) eqn:E.
    + constructor; auto. destruct Ha as (H1 & H2 & H3 & H4). unfold good, qnum_add; simpl.
      rewrite qset_residue, residue_idem. auto.
    + destruct (ss_ltb _ _); auto.
Qed.

Lemma add_q_val M S v l n : good M S v -> Forall (good M S) l -> StronglySorted klt l ->
  qn_val_of (add_q v l) n =
  if ss_eqb (qn_name v) n then residue (M n) (qn_val_of l n + qn_val v) else qn_val_of l n.
Proof.
  intros Hv Hl. induction 1 as [|a t Hs IH Hf]; simpl.
  - destruct (ss_eqb (qn_name v) n) eqn:E; auto.
    apply ss_eqb_eq in E. destruct Hv as (_ & H2 & _ & H4). rewrite H2, E in H4. lia.
  - inversion Hl as [|? ? Hla Hlt]; subst. specialize (IH Hlt).
    destruct (ss_eqb (qn_name a) (qn_name v)) eqn:E.
    + apply ss_eqb_eq in E. simpl. rewrite E.
      destruct (ss_eqb (qn_name v) n) eqn:En; auto.
      apply ss_eqb_eq in En. rewrite qset_residue. destruct Hla as (_ & H2 & _).
      rewrite H2, E, En. reflexivity.
    + destruct (ss_ltb (qn_name v) (qn_name a)) eqn:El; simpl.
      * destruct (ss_eqb (qn_name v) n) eqn:En; auto.
        apply ss_eqb_eq in En. rewrite <- En, E.
        assert (Hz : qn_val_of t (qn_name v) = 0).
        { clear -Hf El. rewrite Forall_forall in Hf. apply ss_ltb_lt in El.
          induction t as [|b t IHt]; simpl; auto.
          destruct (ss_eqb (qn_name b) (qn_name v)) eqn:Eb.
          - apply ss_eqb_eq in Eb. specialize (Hf b (or_introl eq_refl)). unfold klt in Hf. rewrite Eb in Hf. lia.
          - apply IHt. intros x Hx; apply Hf; right; auto. }
        rewrite Hz. destruct Hv as (_ & H2 & _ & H4). rewrite H2 in H4. exact H4.
      * rewrite IH. destruct (ss_eqb (qn_name a) n) eqn:Ea; auto.
        apply ss_eqb_eq in Ea. subst n. rewrite ss_eqb_sym, E. reflexivity.
Qed.

Lemma add_q_length4 M S v act :
  NoDup S -> (length S <= 4)%nat -> good M S v ->
  StronglySorted klt act -> Forall (good M S) act -> (length (add_q v act) <= 4)%nat.
Proof.
  intros HnS HlS Hv Hs Hg.
  assert (incl (names (add_q v act)) S).
  { apply names_incl with M. now apply add_q_good. }
  apply NoDup_incl_length in H; [|apply sorted_nodup, add_q_sorted; auto].
  unfold names in H. rewrite map_length in H. lia.
Qed.

Lemma combine_all_spec M S bs act k :
  NoDup S -> (length S <= 4)%nat ->
  Forall (good M S) bs -> (length act <= 4)%nat -> StronglySorted klt act -> Forall (good M S) act ->
  combine_all (pad act) (bs ++ repeat qnum0 k) = pad (fold_left (fun l v => add_q v l) bs act).
Proof.
  intros HnS HlS Hbs. revert act. induction Hbs as [|v bs Hv Hbs IH]; intros act Hl Hs Hg.
  - simpl. destruct k; reflexivity.
  - cbn [app combine_all fold_left].
    rewrite (good_active _ _ _ Hv).
    assert (E : combine_one QNSize 0 (pad act) v = pad (add_q v act)).
    { apply (combine_one_spec [] act v); simpl; auto.
      - intros Hni. apply (room M S act (qn_name v)); auto. now destruct Hv.
      - eapply Forall_impl; [|exact Hg]; intros; eapply good_active; eauto. }
    rewrite E. apply IH.
    + eapply add_q_length4; eauto.
    + now apply add_q_sorted.
    + now apply add_q_good.
Qed.

Definition merge_q (bs act : list QNum) := fold_left (fun l v => add_q v l) bs act.

Lemma merge_q_wf M S bs act :
  NoDup S -> (length S <= 4)%nat ->
  Forall (good M S) bs -> (length act <= 4)%nat -> StronglySorted klt act -> Forall (good M S) act ->
  (length (merge_q bs act) <= 4)%nat /\ StronglySorted klt (merge_q bs act) /\
  Forall (good M S) (merge_q bs act).
Proof.
  intros HnS HlS Hbs. revert act. induction Hbs as [|v bs Hv Hbs IH]; intros act Hl Hs Hg; simpl.
  - auto.
  - apply IH.
    + eapply add_q_length4; eauto.
    + now apply add_q_sorted.
    + now apply add_q_good.
Qed.

Lemma merge_q_names bs act n : In n (names (merge_q bs act)) <-> In n (names bs) \/ In n (names act).
Proof.
  revert act. induction bs as [|v bs IH]; intros act; simpl.
  - intuition.
  - rewrite IH, add_q_names. intuition.
Qed.

Lemma val_notin l n : ~ In n (names l) -> qn_val_of l n = 0.
Proof.
  induction l as [|a t IH]; simpl; intros H; auto.
  destruct (ss_eqb (qn_name a) n) eqn:E; auto.
  apply ss_eqb_eq in E. exfalso; auto.
Qed.

Lemma merge_q_val M S bs act n :
  Forall (good M S) bs -> StronglySorted klt bs -> StronglySorted klt act -> Forall (good M S) act ->
  qn_val_of (merge_q bs act) n = residue (M n) (qn_val_of act n + qn_val_of bs n).
Proof.
  intros Hbs Hsb. revert act. induction Hbs as [|v bs Hv Hbs IH]; intros act Hs Hg.
  - simpl. rewrite Z.add_0_r.
    clear Hsb. induction Hg as [|a t Ha Ht IHt]; simpl.
    + now rewrite residue_0.
    + inversion Hs; subst. destruct (ss_eqb (qn_name a) n) eqn:E; auto.
      apply ss_eqb_eq in E. destruct Ha as (_ & H3 & _ & H4). rewrite H3, E in H4. exact H4.
  - inversion Hsb as [|? ? Hsb' Hf]; subst.
    simpl merge_q. rewrite IH; auto using add_q_sorted, add_q_good.
    rewrite (add_q_val M S) by auto. simpl qn_val_of.
    destruct (ss_eqb (qn_name v) n) eqn:E; auto.
    apply ss_eqb_eq in E.
    rewrite (val_notin bs n).
    + rewrite Z.add_0_r, residue_idem. reflexivity.
    + intros Hin. apply in_map_iff in Hin as (y & Hy & Hin). rewrite Forall_forall in Hf.
      specialize (Hf _ Hin). unfold klt in Hf. rewrite Hy, E in Hf. lia.
Qed.

(** ** Reachable QNs are canonical *)

Lemma qnum_neg_good M S v : good M S v -> good M S (qnum_neg v).
Proof. intros (H1 & H2 & H3 & _). unfold good, qnum_neg, qnum_make; simpl. rewrite qset_residue, residue_idem. auto. Qed.

Lemma qnum_mul_good M S v d : good M S v -> good M S (qnum_mul v d).
Proof. intros (H1 & H2 & H3 & _). unfold good, qnum_mul; simpl. rewrite qset_residue, residue_idem. auto. Qed.

Lemma map_pad (f : QNum -> QNum) act : f qnum0 = qnum0 -> map f (pad act) = pad (map f act).
Proof.
  intros H. unfold pad. rewrite map_app, map_length. f_equal.
  generalize (4 - length act)%nat as k. induction k; simpl; auto. now rewrite IHk, H.
Qed.

Lemma map_sorted (f : QNum -> QNum) act : (forall v, qn_name (f v) = qn_name v) ->
  StronglySorted klt act -> StronglySorted klt (map f act).
Proof.
  intros Hf. induction 1 as [|a l Hs IH HF]; simpl; constructor; auto.
  rewrite Forall_map. eapply Forall_impl; [|exact HF]. intros b. unfold klt. now rewrite !Hf.
Qed.

Lemma qn_neg_wf M S q act : wf M S q act -> wf M S (qn_neg q) (map qnum_neg act).
Proof.
  intros (-> & Hl & Hs & Hg). unfold wf, qn_neg. rewrite map_pad by reflexivity.
  rewrite map_length. repeat split; auto.
  - apply map_sorted; auto.
  - rewrite Forall_map. eapply Forall_impl; [|exact Hg]. intros; now apply qnum_neg_good.
Qed.

Lemma qn_mul_wf M S q act d : wf M S q act -> wf M S (qn_mul q d) (map (fun v => qnum_mul v d) act).
Proof.
  intros (-> & Hl & Hs & Hg). unfold wf, qn_mul. rewrite map_pad by reflexivity.
  rewrite map_length. repeat split; auto.
  - apply map_sorted; auto.
  - rewrite Forall_map. eapply Forall_impl; [|exact Hg]. intros; now apply qnum_mul_good.
Qed.

Lemma qn_add_wf M S q1 q2 a1 a2 : NoDup S -> (length S <= 4)%nat ->
  wf M S q1 a1 -> wf M S q2 a2 -> wf M S (qn_add q1 q2) (merge_q a2 a1).
Proof.
  intros HnS HlS (-> & Hl1 & Hs1 & Hg1) (-> & Hl2 & Hs2 & Hg2).
  unfold wf, qn_add. unfold pad at 2. rewrite (combine_all_spec M S) by auto.
  split; auto. now apply merge_q_wf.
Qed.

Lemma charges_wf M S q : Scheme M S -> Charges M S q -> exists act, wf M S q act.
Proof.
  intros Hsch. pose proof Hsch as (HnS & HlS & HM).
  induction 1 as [ | entries q Hnd Hin Hmk | q1 q2 _ [a1 H1] _ [a2 H2] | q1 q2 _ [a1 H1] _ [a2 H2] | q _ [a H] | q d _ [a H] ].
  - exists []. apply wf_zero.
  - destruct (qn_make_wf M S entries) as (act & E & Hwf & _); auto.
    rewrite E in Hmk. inversion Hmk; subst. eauto.
  - eexists. eapply qn_add_wf; eauto.
  - eexists. unfold qn_sub. eapply qn_add_wf; eauto. eapply qn_neg_wf; eauto.
  - eexists. eapply qn_neg_wf; eauto.
  - eexists. eapply qn_mul_wf; eauto.
Qed.

(** ** Values *)

Lemma val_pad act n : qn_val_of (pad act) n = qn_val_of act n.
Proof.
  unfold pad. generalize (4 - length act)%nat as k. intros k.
  induction act as [|a t IH]; simpl.
  - induction k; cbn [repeat qn_val_of]; auto. change (qn_val qnum0) with 0. rewrite IHk. destruct (ss_eqb _ _); auto.
  - now rewrite IH.
Qed.

Lemma val_reduced M S l n : Forall (good M S) l -> residue (M n) (qn_val_of l n) = qn_val_of l n.
Proof.
  induction 1 as [|a t Ha Ht IH]; simpl.
  - apply residue_0.
  - destruct (ss_eqb (qn_name a) n) eqn:E; auto.
    apply ss_eqb_eq in E. destruct Ha as (_ & H3 & _ & H4). rewrite H3, E in H4. auto.
Qed.

Lemma val_map (f : QNum -> QNum) (g : Z -> Z -> Z) M S l n :
  (forall v, qn_name (f v) = qn_name v) ->
  (forall v, good M S v -> qn_val (f v) = g (M (qn_name v)) (qn_val v)) ->
  (forall m, g m 0 = 0) ->
  Forall (good M S) l -> qn_val_of (map f l) n = g (M n) (qn_val_of l n).
Proof.
  intros Hn Hv H0. induction 1 as [|a t Ha Ht IH]; simpl; auto.
  rewrite Hn. destruct (ss_eqb (qn_name a) n) eqn:E; auto.
  apply ss_eqb_eq in E. rewrite Hv by auto. now rewrite E.
Qed.

Lemma qn_add_val M S q1 q2 n : Scheme M S -> Charges M S q1 -> Charges M S q2 ->
  qn_val_of (qn_add q1 q2) n = residue (M n) (qn_val_of q1 n + qn_val_of q2 n).
Proof.
  intros Hsch H1 H2. pose proof Hsch as (HnS & HlS & HM).
  destruct (charges_wf M S q1) as [a1 W1]; auto. destruct (charges_wf M S q2) as [a2 W2]; auto.
  pose proof (qn_add_wf M S _ _ _ _ HnS HlS W1 W2) as (E & _). rewrite E.
  destruct W1 as (-> & Hl1 & Hs1 & Hg1), W2 as (-> & Hl2 & Hs2 & Hg2).
  rewrite !val_pad. now apply (merge_q_val M S).
Qed.

Lemma qn_neg_val M S q n : Scheme M S -> Charges M S q ->
  qn_val_of (qn_neg q) n = residue (M n) (- qn_val_of q n).
Proof.
  intros Hsch H. destruct (charges_wf M S q) as [a W]; auto.
  pose proof (qn_neg_wf M S _ _ W) as (E & _). rewrite E. destruct W as (-> & Hl & Hs & Hg).
  rewrite !val_pad. apply (val_map qnum_neg (fun m v => residue m (- v)) M S); auto.
  - intros v (_ & H2 & _). simpl. rewrite qset_residue, H2. reflexivity.
  - intros m. simpl. apply residue_0.
Qed.

Lemma qn_mul_val M S q d n : Scheme M S -> Charges M S q ->
  qn_val_of (qn_mul q d) n = residue (M n) (qn_val_of q n * arrow_int d).
Proof.
  intros Hsch H. destruct (charges_wf M S q) as [a W]; auto.
  pose proof (qn_mul_wf M S _ _ d W) as (E & _). rewrite E. destruct W as (-> & Hl & Hs & Hg).
  rewrite !val_pad. apply (val_map (fun v => qnum_mul v d) (fun m v => residue m (v * arrow_int d)) M S); auto.
  - intros v (_ & H2 & _). simpl. rewrite qset_residue, H2. reflexivity.
  - intros m. apply residue_0.
Qed.

Lemma qn_sub_val M S q1 q2 n : Scheme M S -> Charges M S q1 -> Charges M S q2 ->
  qn_val_of (qn_sub q1 q2) n = residue (M n) (qn_val_of q1 n - qn_val_of q2 n).
Proof.
  intros Hsch H1 H2. unfold qn_sub. rewrite (qn_add_val M S) by (auto; now apply ch_neg).
  rewrite (qn_neg_val M S) by auto. rewrite residue_add_r. f_equal; lia.
Qed.

Lemma qn_val_residue M S q n : Scheme M S -> Charges M S q ->
  residue (M n) (qn_val_of q n) = qn_val_of q n.
Proof.
  intros Hsch H. destruct (charges_wf M S q) as [a (-> & _ & _ & Hg)]; auto.
  rewrite val_pad. now apply (val_reduced M S).
Qed.

(** ** Equality *)

Lemma find_name_val q n : qn_val_of q n = match find_name q n with Some v => qn_val v | None => 0 end.
Proof. induction q as [|a t IH]; simpl; auto. destruct (ss_eqb _ _); auto. Qed.

Lemma covers_spec qa qb :
  covers qa qb = true <->
  (forall v, In v qb -> qn_val v <> 0 -> qn_val_of qa (qn_name v) = qn_val v).
Proof.
  unfold covers. rewrite forallb_forall. split; intros H v Hv.
  - intros Hz. specialize (H v Hv). destruct (qn_val v =? 0) eqn:E; [apply Z.eqb_eq in E; lia|].
    rewrite find_name_val. destruct (find_name qa (qn_name v)); [|discriminate]. now apply Z.eqb_eq.
  - destruct (qn_val v =? 0) eqn:E; auto. apply Z.eqb_neq in E. specialize (H v Hv E).
    rewrite find_name_val in H. destruct (find_name qa (qn_name v)); [now apply Z.eqb_eq|]. congruence.
Qed.

Lemma val_in l v : NoDup (names l) -> In v l -> qn_val_of l (qn_name v) = qn_val v.
Proof.
  induction l as [|a t IH]; simpl; intros Hnd Hin0; [destruct Hin0|destruct Hin0 as [<-|Hin]].
  - now rewrite ss_eqb_refl.
  - inversion Hnd; subst. destruct (ss_eqb (qn_name a) (qn_name v)) eqn:E; auto.
    apply ss_eqb_eq in E. exfalso; apply H1. rewrite E. now apply in_map.
Qed.

Lemma val_nonzero_in l n : qn_val_of l n <> 0 -> exists v, In v l /\ qn_name v = n /\ qn_val v = qn_val_of l n.
Proof.
  induction l as [|a t IH]; simpl; intros H; [lia|].
  destruct (ss_eqb (qn_name a) n) eqn:E.
  - exists a. apply ss_eqb_eq in E. auto.
  - destruct (IH H) as (v & Hv & H2). eauto.
Qed.

Lemma qn_eqb_iff M S q1 q2 : Scheme M S -> Charges M S q1 -> Charges M S q2 ->
  (qn_eqb q1 q2 = true <-> forall n, qn_val_of q1 n = qn_val_of q2 n).
Proof.
  intros Hsch H1 H2.
  destruct (charges_wf M S q1) as [a1 (-> & _ & Hs1 & _)]; auto.
  destruct (charges_wf M S q2) as [a2 (-> & _ & Hs2 & _)]; auto.
  assert (Hpad : forall a b, (forall v, In v (pad b) -> qn_val v <> 0 -> qn_val_of (pad a) (qn_name v) = qn_val v)
             <-> (forall v, In v b -> qn_val v <> 0 -> qn_val_of a (qn_name v) = qn_val v)).
  { intros a b. split; intros H v Hv Hz.
    - rewrite <- val_pad. apply H; auto. apply in_or_app; auto.
    - rewrite val_pad. apply in_app_or in Hv as [Hv|Hv]; auto. apply repeat_spec in Hv. subst. now destruct Hz. }
  unfold qn_eqb. rewrite andb_true_iff, !covers_spec, !Hpad.
  split.
  - intros [Ha Hb] n. rewrite !val_pad.
    destruct (Z.eq_dec (qn_val_of a1 n) 0) as [E1|E1].
    + destruct (Z.eq_dec (qn_val_of a2 n) 0) as [E2|E2]; [congruence|].
      destruct (val_nonzero_in _ _ E2) as (v & Hv & Hn & Hval). subst n. rewrite Ha; auto. congruence.
    + destruct (val_nonzero_in _ _ E1) as (v & Hv & Hn & Hval). subst n. rewrite Hb; auto. congruence.
  - intros H. split; intros v Hv Hz.
    + specialize (H (qn_name v)). rewrite !val_pad in H. rewrite H. apply val_in; auto. now apply sorted_nodup.
    + specialize (H (qn_name v)). rewrite !val_pad in H. rewrite <- H. apply val_in; auto. now apply sorted_nodup.
Qed.

(** Two canonical stores with the same names and values are the same store. *)
Lemma canon_ext M S l1 l2 : StronglySorted klt l1 -> StronglySorted klt l2 ->
  Forall (good M S) l1 -> Forall (good M S) l2 ->
  (forall n, In n (names l1) <-> In n (names l2)) ->
  (forall n, qn_val_of l1 n = qn_val_of l2 n) -> l1 = l2.
Proof.
  intros Hs1. revert l2. induction Hs1 as [|a t Hs IH Hf]; intros l2 Hs2 Hg1 Hg2 Hn Hv.
  - destruct l2 as [|b l2]; auto. exfalso. apply (proj2 (Hn (qn_name b))). left; auto.
  - destruct l2 as [|b l2]. { exfalso. apply (proj1 (Hn (qn_name a))). left; auto. }
    inversion Hs2 as [|? ? Hs2' Hf2]; subst. inversion Hg1 as [|? ? Ga Gt]; subst. inversion Hg2 as [|? ? Gb Gl]; subst.
    rewrite Forall_forall in Hf, Hf2.
    assert (Hab : qn_name a = qn_name b).
    { assert (A1 : In (qn_name a) (names (b :: l2))) by (apply Hn; left; auto).
      assert (A2 : In (qn_name b) (names (a :: t))) by (apply Hn; left; auto).
      destruct A1 as [A1|A1]; auto. destruct A2 as [A2|A2]; auto.
      apply in_map_iff in A1 as (x & Hx & Hinx). apply in_map_iff in A2 as (y & Hy & Hiny).
      specialize (Hf _ Hiny). specialize (Hf2 _ Hinx). unfold klt in *. rewrite Hy in Hf. rewrite Hx in Hf2. lia. }
    assert (Ea : a = b).
    { destruct Ga as (_ & M1 & _), Gb as (_ & M2 & _).
      specialize (Hv (qn_name a)). simpl in Hv. rewrite ss_eqb_refl in Hv. rewrite <- Hab, ss_eqb_refl in Hv.
      destruct a, b; simpl in *. congruence. }
    subst b. f_equal. apply IH; auto.
    + intros n. specialize (Hn n). simpl in Hn. split; intros Hi.
      * destruct (proj1 Hn (or_intror Hi)) as [E|]; auto.
        apply in_map_iff in Hi as (x & Hx & Hin). specialize (Hf _ Hin). unfold klt in Hf. rewrite Hx, E in Hf. lia.
      * destruct (proj2 Hn (or_intror Hi)) as [E|]; auto.
        apply in_map_iff in Hi as (x & Hx & Hin). specialize (Hf2 _ Hin). unfold klt in Hf2. rewrite Hx, E in Hf2. lia.
    + intros n. specialize (Hv n). simpl in Hv. destruct (ss_eqb (qn_name a) n) eqn:E; auto.
      apply ss_eqb_eq in E. subst n. rewrite !val_notin; auto.
      * intros Hi. apply in_map_iff in Hi as (x & Hx & Hin). specialize (Hf2 _ Hin). unfold klt in Hf2. rewrite Hx in Hf2. lia.
      * intros Hi. apply in_map_iff in Hi as (x & Hx & Hin). specialize (Hf _ Hin). unfold klt in Hf. rewrite Hx in Hf. lia.
Qed.

Lemma qn_add_comm M S q1 q2 : Scheme M S -> Charges M S q1 -> Charges M S q2 ->
  qn_add q1 q2 = qn_add q2 q1.
Proof.
  intros Hsch H1 H2. pose proof Hsch as (HnS & HlS & HM).
  destruct (charges_wf M S q1) as [a1 W1]; auto. destruct (charges_wf M S q2) as [a2 W2]; auto.
  pose proof (qn_add_wf M S _ _ _ _ HnS HlS W1 W2) as (E & _ & S1 & G1).
  pose proof (qn_add_wf M S _ _ _ _ HnS HlS W2 W1) as (E' & _ & S2 & G2).
  rewrite E, E'. f_equal. apply (canon_ext M S); auto.
  - intros n. rewrite !merge_q_names. tauto.
  - intros n. destruct W1 as (_ & _ & ? & ?), W2 as (_ & _ & ? & ?).
    rewrite !(merge_q_val M S) by auto. f_equal; lia.
Qed.

Lemma qn_add_assoc M S q1 q2 q3 : Scheme M S -> Charges M S q1 -> Charges M S q2 -> Charges M S q3 ->
  qn_add (qn_add q1 q2) q3 = qn_add q1 (qn_add q2 q3).
Proof.
  intros Hsch H1 H2 H3. pose proof Hsch as (HnS & HlS & HM).
  destruct (charges_wf M S q1) as [a1 W1]; auto. destruct (charges_wf M S q2) as [a2 W2]; auto.
  destruct (charges_wf M S q3) as [a3 W3]; auto.
  pose proof (qn_add_wf M S _ _ _ _ HnS HlS W1 W2) as W12.
  pose proof (qn_add_wf M S _ _ _ _ HnS HlS W2 W3) as W23.
  pose proof (qn_add_wf M S _ _ _ _ HnS HlS W12 W3) as (E & _ & S1 & G1).
  pose proof (qn_add_wf M S _ _ _ _ HnS HlS W1 W23) as (E' & _ & S2 & G2).
  rewrite E, E'. f_equal. apply (canon_ext M S); auto.
  - intros n. rewrite !merge_q_names. tauto.
  - intros n. destruct W1 as (_ & _ & ? & ?), W2 as (_ & _ & ? & ?), W3 as (_ & _ & ? & ?),
      W12 as (_ & _ & ? & ?), W23 as (_ & _ & ? & ?).
    rewrite !(merge_q_val M S) by auto. rewrite residue_add_l, residue_add_r. f_equal; lia.
Qed.

Lemma qn_add_0_r q : qn_add q qn0 = q.
Proof. reflexivity. Qed.

(** ** Construction *)

Lemma qn_make_perm M S e1 e2 : Scheme M S -> NoDup (map fst e1) ->
  (forall n v, In (n, v) e1 -> In n S) -> Permutation e1 e2 ->
  qn_make (map (fun e => qnum_make (fst e) (snd e) (M (fst e))) e1) =
  qn_make (map (fun e => qnum_make (fst e) (snd e) (M (fst e))) e2).
Proof.
  intros Hsch Hnd Hin Hp.
  destruct (qn_make_wf M S e1) as (a1 & E1 & (_ & _ & S1 & G1) & P1); auto.
  destruct (qn_make_wf M S e2) as (a2 & E2 & (_ & _ & S2 & G2) & P2); auto.
  { apply (Permutation_NoDup (l := map fst e1)); auto. now apply Permutation_map. }
  { intros n v H. apply (Hin n v). eapply Permutation_in; [apply Permutation_sym; eauto|auto]. }
  rewrite E1, E2. do 2 f_equal.
  assert (P : Permutation a1 a2).
  { eapply perm_trans; [exact P1|]. eapply perm_trans; [|apply Permutation_sym; exact P2]. now apply Permutation_map. }
  apply (canon_ext M S); auto.
  - intros n. split; intros H; eapply Permutation_in; try exact H.
    + now apply Permutation_map.
    + apply Permutation_map. now apply Permutation_sym.
  - intros n.
    assert (V : forall a b, Permutation a b -> NoDup (names a) -> NoDup (names b) -> qn_val_of a n <> 0 -> qn_val_of a n = qn_val_of b n).
    { intros a b Pab Na Nb Hz. destruct (val_nonzero_in _ _ Hz) as (v & Hv & Hn & Hval). subst n.
      rewrite (val_in b v); auto. eapply Permutation_in; eauto. }
    destruct (Z.eq_dec (qn_val_of a1 n) 0) as [Z1|Z1].
    + destruct (Z.eq_dec (qn_val_of a2 n) 0) as [Z2|Z2]; [congruence|].
      symmetry. apply V; auto using sorted_nodup. now apply Permutation_sym.
    + apply V; auto using sorted_nodup.
Qed.

Lemma qn_make_val M S e q n v : Scheme M S -> NoDup (map fst e) ->
  (forall n v, In (n, v) e -> In n S) ->
  qn_make (map (fun e => qnum_make (fst e) (snd e) (M (fst e))) e) = Ok q ->
  In (n, v) e -> qn_val_of q n = residue (M n) v.
Proof.
  intros Hsch Hnd Hin E Hi.
  destruct (qn_make_wf M S e) as (a & E1 & (_ & _ & S1 & G1) & P1); auto.
  rewrite E1 in E. inversion E; subst q. rewrite val_pad.
  assert (Ia : In (qnum_make n v (M n)) a).
  { eapply Permutation_in; [apply Permutation_sym; exact P1|].
    apply (in_map (fun e => qnum_make (fst e) (snd e) (M (fst e))) e (n, v)) in Hi. exact Hi. }
  change n with (qn_name (qnum_make n v (M n))) at 1.
  rewrite val_in; auto using sorted_nodup. simpl. apply qset_residue.
Qed.

Lemma qn_make_val_absent M S e q n : Scheme M S -> NoDup (map fst e) ->
  (forall n v, In (n, v) e -> In n S) ->
  qn_make (map (fun e => qnum_make (fst e) (snd e) (M (fst e))) e) = Ok q ->
  ~ In n (map fst e) -> qn_val_of q n = 0.
Proof.
  intros Hsch Hnd Hin E Hi.
  destruct (qn_make_wf M S e) as (a & E1 & (_ & _ & S1 & G1) & P1); auto.
  rewrite E1 in E. inversion E; subst q. rewrite val_pad. apply val_notin.
  intros H. apply Hi. apply in_map_iff in H as (x & Hx & Hin').
  apply (Permutation_in _ P1) in Hin'. apply in_map_iff in Hin' as ([n' v'] & Hy & Hin'').
  subst x. simpl in Hx. subst. now apply (in_map fst) in Hin''.
Qed.

Lemma qn_make_total M S e : Scheme M S -> NoDup (map fst e) ->
  (forall n v, In (n, v) e -> In n S) ->
  exists q, qn_make (map (fun e => qnum_make (fst e) (snd e) (M (fst e))) e) = Ok q.
Proof. intros. destruct (qn_make_wf M S e) as (a & E1 & _); eauto. Qed.

(** ** operator< *)

Lemma lex_cons_l a la : Forall (klt a) la -> qn_val a = 0 ->
  forall n, qn_val_of (a :: la) n = qn_val_of la n.
Proof.
  intros Hf Hz n. simpl. destruct (ss_eqb (qn_name a) n) eqn:E; auto.
  apply ss_eqb_eq in E. subst n. rewrite val_notin; auto.
  intros Hi. apply in_map_iff in Hi as (x & Hx & Hin). rewrite Forall_forall in Hf.
  specialize (Hf _ Hin). unfold klt in Hf. rewrite Hx in Hf. lia.
Qed.

Lemma lex_ext f f' g g' : (forall n, f n = f' n) -> (forall n, g n = g' n) -> (lex_lt f g <-> lex_lt f' g').
Proof.
  intros Hf Hg. unfold lex_lt. split; intros (n & H1 & H2); exists n.
  - rewrite <- Hf, <- Hg. split; auto. intros m Hm. rewrite <- Hf, <- Hg. auto.
  - rewrite Hf, Hg. split; auto. intros m Hm. rewrite Hf, Hg. auto.
Qed.

Lemma lex_decide f g n : f n <> g n -> (forall m, (ss_key m < ss_key n)%N -> f m = g m) ->
  (lex_lt f g <-> f n < g n).
Proof.
  intros Hne Hlow. split.
  - intros (k & Hk & Hl). destruct (ss_trichotomy k n) as [H|[H|H]].
    + rewrite (Hlow _ H) in Hk. lia.
    + now subst.
    + specialize (Hl _ H). contradiction.
  - intros H. exists n. auto.
Qed.

Lemma val_small l n : (forall v, In v l -> (ss_key n < ss_key (qn_name v))%N) -> qn_val_of l n = 0.
Proof.
  intros H. apply val_notin. intros Hi. apply in_map_iff in Hi as (x & Hx & Hin).
  specialize (H _ Hin). rewrite Hx in H. lia.
Qed.

Lemma slot_pad_app pre l : slot (pad (pre ++ l)) (length pre) = match l with [] => qnum0 | a :: _ => a end.
Proof.
  unfold slot, pad. rewrite <- app_assoc. rewrite app_nth2 by lia. rewrite Nat.sub_diag.
  destruct l as [|a l]; cbn [app nth]; auto. rewrite app_nil_r.
  destruct (4 - length pre)%nat; auto.
Qed.

Lemma sorted_app_r {A} (R : A -> A -> Prop) l1 l2 : StronglySorted R (l1 ++ l2) -> StronglySorted R l2.
Proof. induction l1; simpl; intros H; auto. inversion H; auto. Qed.

Lemma snoc_len {A} (l : list A) x : length (l ++ [x]) = S (length l).
Proof. rewrite app_length; simpl; lia. Qed.

Lemma snoc_app {A} (l : list A) x t : (l ++ [x]) ++ t = l ++ x :: t.
Proof. now rewrite <- app_assoc. Qed.

Lemma qn_ltb_loop_spec M S : NoDup S -> (length S <= 4)%nat ->
  forall fuel pa la pb lb,
  (length (pa ++ la) <= 4)%nat -> (length (pb ++ lb) <= 4)%nat ->
  StronglySorted klt (pa ++ la) -> StronglySorted klt (pb ++ lb) ->
  Forall (good M S) (pa ++ la) -> Forall (good M S) (pb ++ lb) ->
  (forall x y, In x pa -> In y lb -> klt x y) ->
  (forall x y, In x pb -> In y la -> klt x y) ->
  (length la + length lb < fuel)%nat ->
  (qn_ltb_loop fuel (length pa) (length pb) (pad (pa ++ la)) (pad (pb ++ lb)) = true
   <-> lex_lt (qn_val_of la) (qn_val_of lb)).
Proof.
  intros HnS HlS. induction fuel as [|fuel IH]; intros pa la pb lb La Lb Sa Sb Ga Gb Xa Xb Hf; [lia|].
  cbn [qn_ltb_loop]. rewrite !slot_pad_app. change QNSize with 4%nat.
  assert (Sla : StronglySorted klt la) by (eapply sorted_app_r; eauto).
  assert (Slb : StronglySorted klt lb) by (eapply sorted_app_r; eauto).
  assert (Gla : Forall (good M S) la) by (rewrite Forall_app in Ga; tauto).
  assert (Glb : Forall (good M S) lb) by (rewrite Forall_app in Gb; tauto).
  assert (Full : forall p l, (length p = 4)%nat -> StronglySorted klt p -> Forall (good M S) p -> Forall (good M S) l ->
      (forall x y, In x p -> In y l -> klt x y) -> l = []).
  { intros p l Hp Hs Hg Hgl X. destruct l as [|y l]; auto. exfalso.
    assert (Hy : In (qn_name y) S) by (inversion Hgl as [|? ? G0 ?]; subst; destruct G0; auto).
    assert (~ In (qn_name y) (names p)).
    { intros Hi. apply in_map_iff in Hi as (x & Hx & Hin). specialize (X x y Hin (or_introl eq_refl)).
      unfold klt in X. rewrite Hx in X. lia. }
    assert (length p < 4)%nat by (apply (room M S p (qn_name y)); auto). lia. }
  destruct la as [|a la]; destruct lb as [|b lb].
  - (* both exhausted *)
    rewrite !inactive0, !orb_false_r, !andb_false_r.
    split; [discriminate|]. intros (n & H & _). simpl in H. lia.
  - (* a exhausted *)
    assert (Hpa : (length pa < 4)%nat).
    { rewrite app_nil_r in *. destruct (Nat.eq_dec (length pa) 4) as [E|E]; [|lia].
      exfalso. assert (b :: lb = []) by (eapply (Full pa); eauto). discriminate. }
    assert (Hpb : (length pb < 4)%nat) by (rewrite app_length in Lb; simpl in Lb; lia).
    assert (Hact : isActive b = true) by (inversion Glb; subst; eapply good_active; eauto).
    rewrite (proj2 (Nat.ltb_lt _ _) Hpa), (proj2 (Nat.ltb_lt _ _) Hpb), inactive0, Hact.
    simpl negb. cbn [andb orb]. cbn match.
    inversion Slb as [|? ? Slb' Fb]; subst.
    destruct (0 =? qn_val b) eqn:Ez.
    + apply Z.eqb_eq in Ez.
      specialize (IH pa [] (pb ++ [b]) lb). rewrite ?snoc_len, ?snoc_app in IH. rewrite IH; auto.
      * apply lex_ext; auto. intros n. symmetry. apply (lex_cons_l b lb); auto.
      * intros x y Hx Hy. apply Xa; auto. right; auto.
      * intros x y _ [].
      * simpl in *. lia.
    + apply Z.eqb_neq in Ez. rewrite Z.ltb_lt.
      rewrite (lex_decide _ _ (qn_name b)).
      * simpl. rewrite ss_eqb_refl. reflexivity.
      * simpl. rewrite ss_eqb_refl. auto.
      * intros m Hm. symmetry. apply val_small. intros v [<-|Hv]; auto.
        rewrite Forall_forall in Fb. specialize (Fb _ Hv). unfold klt in Fb. lia.
  - (* b exhausted *)
    assert (Hpb : (length pb < 4)%nat).
    { rewrite app_nil_r in *. destruct (Nat.eq_dec (length pb) 4) as [E|E]; [|lia].
      exfalso. assert (a :: la = []) by (eapply (Full pb); eauto). discriminate. }
    assert (Hpa : (length pa < 4)%nat) by (rewrite app_length in La; simpl in La; lia).
    assert (Hact : isActive a = true) by (inversion Gla; subst; eapply good_active; eauto).
    rewrite (proj2 (Nat.ltb_lt _ _) Hpa), (proj2 (Nat.ltb_lt _ _) Hpb), inactive0, Hact.
    simpl negb. cbn [andb orb]. cbn match.
    inversion Sla as [|? ? Sla' Fa]; subst.
    destruct (qn_val a =? 0) eqn:Ez.
    + apply Z.eqb_eq in Ez.
      specialize (IH (pa ++ [a]) la pb []). rewrite ?snoc_len, ?snoc_app in IH. rewrite IH; auto.
      * apply lex_ext; auto. intros n. symmetry. apply (lex_cons_l a la); auto.
      * intros x y _ [].
      * intros x y Hx Hy. apply Xb; auto. right; auto.
      * simpl in *. lia.
    + apply Z.eqb_neq in Ez. rewrite Z.ltb_lt.
      rewrite (lex_decide _ _ (qn_name a)).
      * simpl. rewrite ss_eqb_refl. reflexivity.
      * simpl. rewrite ss_eqb_refl. auto.
      * intros m Hm. apply val_small. intros v [<-|Hv]; auto.
        rewrite Forall_forall in Fa. specialize (Fa _ Hv). unfold klt in Fa. lia.
  - (* both active *)
    assert (Hpa : (length pa < 4)%nat) by (rewrite app_length in La; simpl in La; lia).
    assert (Hpb : (length pb < 4)%nat) by (rewrite app_length in Lb; simpl in Lb; lia).
    assert (Hacta : isActive a = true) by (inversion Gla; subst; eapply good_active; eauto).
    assert (Hactb : isActive b = true) by (inversion Glb; subst; eapply good_active; eauto).
    rewrite (proj2 (Nat.ltb_lt _ _) Hpa), (proj2 (Nat.ltb_lt _ _) Hpb), Hacta, Hactb.
    simpl negb. cbn [andb orb]. cbn match.
    inversion Sla as [|? ? Sla' Fa]; subst. inversion Slb as [|? ? Slb' Fb]; subst.
    pose proof Fa as Fa0. pose proof Fb as Fb0.
    rewrite Forall_forall in Fa, Fb.
    destruct (ss_ltb (qn_name a) (qn_name b)) eqn:Eab.
    + apply ss_ltb_lt in Eab.
      destruct (qn_val a =? 0) eqn:Ez.
      * apply Z.eqb_eq in Ez.
        specialize (IH (pa ++ [a]) la pb (b :: lb)). rewrite ?snoc_len, ?snoc_app in IH. rewrite IH; auto.
        -- apply lex_ext; auto. intros n. symmetry. apply (lex_cons_l a la); auto.
        -- intros x y Hx Hy. apply in_app_or in Hx as [Hx|[<-|[]]]; auto.
           destruct Hy as [<-|Hy]; auto. specialize (Fb _ Hy). unfold klt in *. lia.
        -- intros x y Hx Hy. apply Xb; auto. right; auto.
        -- simpl in *. lia.
      * apply Z.eqb_neq in Ez. rewrite Z.ltb_lt.
        assert (Hb0 : forall m, (ss_key m <= ss_key (qn_name a))%N -> qn_val_of (b :: lb) m = 0).
        { intros m Hm. apply val_small. intros v [<-|Hv]; [lia|]. specialize (Fb _ Hv). unfold klt in Fb. lia. }
        rewrite (lex_decide _ _ (qn_name a)).
        -- rewrite (Hb0 (qn_name a)) by lia. simpl. rewrite ss_eqb_refl. reflexivity.
        -- rewrite (Hb0 (qn_name a)) by lia. simpl. rewrite ss_eqb_refl. auto.
        -- intros m Hm. rewrite Hb0 by lia. apply val_small. intros v [<-|Hv]; auto.
           specialize (Fa _ Hv). unfold klt in Fa. lia.
    + apply ss_ltb_ge in Eab.
      destruct (ss_ltb (qn_name b) (qn_name a)) eqn:Eba.
      * apply ss_ltb_lt in Eba.
        destruct (qn_val b =? 0) eqn:Ez.
        -- apply Z.eqb_eq in Ez.
          specialize (IH pa (a :: la) (pb ++ [b]) lb). rewrite ?snoc_len, ?snoc_app in IH. rewrite IH; auto.
          ++ apply lex_ext; auto. intros n. symmetry. apply (lex_cons_l b lb); auto.
          ++ intros x y Hx Hy. apply Xa; auto. right; auto.
          ++ intros x y Hx Hy. apply in_app_or in Hx as [Hx|[<-|[]]]; auto.
             destruct Hy as [<-|Hy]; auto. specialize (Fa _ Hy). unfold klt in *. lia.
          ++ simpl in *. lia.
        -- apply Z.eqb_neq in Ez. rewrite Z.ltb_lt.
          assert (Ha0 : forall m, (ss_key m <= ss_key (qn_name b))%N -> qn_val_of (a :: la) m = 0).
          { intros m Hm. apply val_small. intros v [<-|Hv]; [lia|]. specialize (Fa _ Hv). unfold klt in Fa. lia. }
          rewrite (lex_decide _ _ (qn_name b)).
          ++ rewrite (Ha0 (qn_name b)) by lia. simpl. rewrite ss_eqb_refl. reflexivity.
          ++ rewrite (Ha0 (qn_name b)) by lia. simpl. rewrite ss_eqb_refl. auto.
          ++ intros m Hm. rewrite Ha0 by lia. symmetry. apply val_small. intros v [<-|Hv]; auto.
             specialize (Fb _ Hv). unfold klt in Fb. lia.
      * apply ss_ltb_ge in Eba.
        assert (Enm : qn_name a = qn_name b) by (apply ss_key_inj; lia).
        destruct (qn_val a =? qn_val b) eqn:Ez.
        -- apply Z.eqb_eq in Ez.
           specialize (IH (pa ++ [a]) la (pb ++ [b]) lb). rewrite ?snoc_len, ?snoc_app in IH. rewrite IH; auto.
           ++ assert (Na : qn_val_of la (qn_name a) = 0) by (apply val_notin; intros Hi; apply in_map_iff in Hi as (x & Hx & Hin); specialize (Fa _ Hin); unfold klt in Fa; rewrite Hx in Fa; lia).
              assert (Nb : qn_val_of lb (qn_name b) = 0) by (apply val_notin; intros Hi; apply in_map_iff in Hi as (x & Hx & Hin); specialize (Fb _ Hin); unfold klt in Fb; rewrite Hx in Fb; lia).
              unfold lex_lt. simpl. rewrite <- Enm in *.
              split; intros (n & H1 & H2); exists n.
              ** destruct (ss_eqb (qn_name a) n) eqn:E1.
                 { apply ss_eqb_eq in E1. subst n. rewrite Na, Nb in H1. lia. }
                 split; auto. intros m Hm. destruct (ss_eqb (qn_name a) m); auto.
              ** destruct (ss_eqb (qn_name a) n) eqn:E1; [lia|].
                 split; auto. intros m Hm. specialize (H2 m Hm). destruct (ss_eqb (qn_name a) m) eqn:E2; auto.
                 apply ss_eqb_eq in E2. subst m. now rewrite Na, Nb.
           ++ intros x y Hx Hy. apply in_app_or in Hx as [Hx|[<-|[]]].
              { apply Xa; auto. right; auto. }
              specialize (Fb _ Hy). unfold klt in *. rewrite Enm. auto.
           ++ intros x y Hx Hy. apply in_app_or in Hx as [Hx|[<-|[]]].
              { apply Xb; auto. right; auto. }
              specialize (Fa _ Hy). unfold klt in *. rewrite <- Enm. auto.
           ++ simpl in *. lia.
        -- apply Z.eqb_neq in Ez. rewrite Z.ltb_lt.
           rewrite (lex_decide _ _ (qn_name a)).
           ++ simpl. rewrite <- Enm, ss_eqb_refl. reflexivity.
           ++ simpl. rewrite <- Enm, ss_eqb_refl. auto.
           ++ intros m Hm. rewrite !val_small; auto.
              ** intros v [<-|Hv]; [rewrite <- Enm; auto|]. specialize (Fb _ Hv). unfold klt in Fb. rewrite <- Enm in Fb. lia.
              ** intros v [<-|Hv]; auto. specialize (Fa _ Hv). unfold klt in Fa. lia.
Qed.

Lemma qn_ltb_iff M S q1 q2 : Scheme M S -> Charges M S q1 -> Charges M S q2 ->
  (qn_ltb q1 q2 = true <-> lex_lt (qn_val_of q1) (qn_val_of q2)).
Proof.
  intros Hsch H1 H2. pose proof Hsch as (HnS & HlS & _).
  destruct (charges_wf M S q1) as [a1 (-> & L1 & Hs1 & G1)]; auto.
  destruct (charges_wf M S q2) as [a2 (-> & L2 & Hs2 & G2)]; auto.
  unfold qn_ltb.
  rewrite (qn_ltb_loop_spec M S HnS HlS 9 [] a1 [] a2); simpl; auto; try lia; try (intros ? ? []).
  apply lex_ext; intros n; symmetry; apply val_pad.
Qed.

(** ** The lexicographic order itself *)

Lemma lex_irrefl f : ~ lex_lt f f.
Proof. intros (n & H & _). lia. Qed.

Lemma lex_trans f g h : lex_lt f g -> lex_lt g h -> lex_lt f h.
Proof.
  intros (n & H1 & H2) (m & H3 & H4).
  destruct (ss_trichotomy n m) as [H|[H|H]].
  - exists n. split; [rewrite <- (H4 _ H); auto|]. intros k Hk. rewrite H2, H4 by lia. auto.
  - subst. exists m. split; [lia|]. intros k Hk. rewrite H2, H4; auto.
  - exists m. split; [rewrite (H2 _ H); auto|]. intros k Hk. rewrite H2, H4 by lia. auto.
Qed.

Lemma list_min (l : list SmallString) (P : SmallString -> bool) :
  (exists n, In n l /\ P n = true) ->
  exists n, In n l /\ P n = true /\ forall m, In m l -> P m = true -> (ss_key n <= ss_key m)%N.
Proof.
  induction l as [|a l IH]; intros (n & Hn & HP); [destruct Hn|].
  destruct (existsb P l) eqn:E.
  - apply existsb_exists in E. destruct (IH E) as (k & Hk & HPk & Hmin).
    destruct (P a) eqn:Pa.
    + destruct (N.le_gt_cases (ss_key a) (ss_key k)).
      * exists a. repeat split; auto; [left; auto|]. intros m [<-|Hm] HPm; [lia|]. specialize (Hmin _ Hm HPm). lia.
      * exists k. repeat split; auto; [right; auto|]. intros m [<-|Hm] HPm; [lia|]. auto.
    + exists k. repeat split; auto; [right; auto|]. intros m [<-|Hm] HPm; [congruence|]. auto.
  - assert (Hno : forall m, In m l -> P m = false).
    { intros m Hm. destruct (P m) eqn:Em; auto. rewrite <- E. symmetry. apply existsb_exists. eauto. }
    destruct Hn as [<-|Hn].
    + exists a. repeat split; auto; [left; auto|]. intros m [<-|Hm] HPm; [lia|]. rewrite Hno in HPm; [discriminate|auto].
    + rewrite Hno in HP; [discriminate|auto].
Qed.

Lemma qn_total M S q1 q2 : Scheme M S -> Charges M S q1 -> Charges M S q2 ->
  qn_ltb q1 q2 = true \/ qn_eqb q1 q2 = true \/ qn_ltb q2 q1 = true.
Proof.
  intros Hsch H1 H2.
  rewrite !(qn_ltb_iff M S), (qn_eqb_iff M S) by auto.
  set (P := fun n => negb (qn_val_of q1 n =? qn_val_of q2 n)).
  assert (Out : forall n q, Charges M S q -> ~ In n S -> qn_val_of q n = 0).
  { intros n q Hq Hn. destruct (charges_wf M S q) as [a (-> & _ & _ & G)]; auto.
    rewrite val_pad. apply val_notin. intros Hi. apply Hn. eapply names_incl; eauto. }
  destruct (existsb P S) eqn:E.
  - apply existsb_exists in E. destruct (list_min S P E) as (n & Hn & HP & Hmin).
    unfold P in HP. apply negb_true_iff, Z.eqb_neq in HP.
    assert (Hlow : forall m, (ss_key m < ss_key n)%N -> qn_val_of q1 m = qn_val_of q2 m).
    { intros m Hm. destruct (in_dec ss_dec m S) as [Hi|Hi].
      - destruct (P m) eqn:Pm; [specialize (Hmin _ Hi Pm); lia|].
        unfold P in Pm. now apply negb_false_iff, Z.eqb_eq in Pm.
      - now rewrite !Out. }
    destruct (Z.lt_trichotomy (qn_val_of q1 n) (qn_val_of q2 n)) as [H|[H|H]]; [|lia|].
    + left. exists n; auto.
    + right; right. exists n; split; auto. intros m Hm. symmetry; auto.
  - right; left. intros n. destruct (in_dec ss_dec n S) as [Hi|Hi].
    + destruct (P n) eqn:Pn.
      * exfalso. assert (existsb P S = true) by (apply existsb_exists; eauto). congruence.
      * unfold P in Pn. now apply negb_false_iff, Z.eqb_eq in Pn.
    + now rewrite !Out.
Qed.

(** ** Arrows *)
Lemma qn_mul_out M S q : Scheme M S -> Charges M S q -> qn_mul q ArrOut = q.
Proof.
  intros Hsch H. destruct (charges_wf M S q) as [a (-> & _ & _ & G)]; auto.
  unfold qn_mul. rewrite map_pad by reflexivity. f_equal. clear H.
  induction G as [|v l Hv Hl IH]; simpl; auto. rewrite IH. f_equal.
  destruct Hv as (_ & _ & _ & H4). destruct v as [n v m]; unfold qnum_mul; simpl in *.
  rewrite Z.mul_1_r, qset_residue, <- H4. reflexivity.
Qed.

Lemma qn_mul_in q : length q = 4%nat -> qn_mul q ArrIn = qn_neg q.
Proof.
  intros _. unfold qn_mul, qn_neg. apply map_ext. intros [n v m]. unfold qnum_mul, qnum_neg, qnum_make; simpl.
  do 2 f_equal. lia.
Qed.
