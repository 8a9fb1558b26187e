(** Property theorems C04, C05 (tag sets) and the tag-set part of C30. *)
From Coq Require Import List ZArith Bool Lia Permutation.
From Coq Require Import Init.Byte.
From Verif Require Import Util SmallStringModel SmallStringProofs TagSetModel TagSetSpec TagSetProofs.
Import ListNotations.

Definition tg (l : list byte) : Tag := ss_make l.
Definition tA := tg [x41]. Definition tB := tg [x42]. Definition tC := tg [x43].
Definition tD := tg [x44]. Definition tE := tg [x45].
Definition t2 := tg [x32].
Definition get (o : outcome TagSet) : TagSet := match o with Ok t => t | _ => ts_new end.
Definition exAB := get (run_ops [OAddTag tB; OAddTag tA] ts_new).

Lemma api_run ops T T' : api_tagset T -> Forall api_args ops -> run_ops ops T = Ok T' -> api_tagset T'.
Proof.
  revert T. induction ops as [|o ops IH]; intros T HT HA H; simpl in H.
  - now inversion H; subst.
  - inversion HA; subst. destruct (run_op o T) eqn:E; try discriminate. simpl in H.
    eapply IH; [|eauto|eauto]. eapply api_op; eauto.
Qed.

Lemma exAB_api : api_tagset exAB.
Proof.
  apply (api_run [OAddTag tB; OAddTag tA] ts_new); [constructor| |reflexivity].
  repeat constructor.
Qed.

(** ** C04 *)

(** After any history of calls that return normally, the TagSet holds exactly the
    mathematical set obtained by the same history. *)
Theorem C04_tagset_history : forall ops T T',
  api_tagset T -> Forall api_args ops -> run_ops ops T = Ok T' ->
  exists a, a_steps ops (abs T) a /\ aeq (abs T') a.
Proof.
  intros ops T T' HT HA H.
  destruct (run_ops_spec ops T T') as [_ HS]; auto.
  - now apply api_WF.
  - eapply Forall_impl; [|exact HA]. apply api_args_WF.
Qed.

(** No tag is stored twice and at most four tags are stored. *)
Theorem C04_tagset_nodup : forall T, api_tagset T ->
  NoDup (ts_list T) /\ length (ts_list T) <= 4 /\ (forall t, In t (ts_list T) <-> tag_in T t).
Proof. intros T H. apply WF_nodup. now apply api_WF. Qed.

(** == holds exactly for the same tags and the same level. *)
Theorem C04_tagset_eq : forall T1 T2, api_tagset T1 -> api_tagset T2 ->
  (ts_eqb T1 T2 = true <-> ts_plev T1 = ts_plev T2 /\ forall t, tag_in T1 t <-> tag_in T2 t).
Proof. intros T1 T2 H1 H2. apply (ts_eqb_iff T1 T2); now apply api_WF. Qed.

(** hasTags tests inclusion (and the level, if the argument has one). *)
Theorem C04_tagset_hasTags : forall T ts, api_tagset T -> api_tagset ts ->
  (ts_hasTags T ts = true <->
   (forall t, tag_in ts t -> tag_in T t) /\ ((0 <= ts_plev ts)%Z -> ts_plev T = ts_plev ts)).
Proof. intros T ts H1 H2. apply (ts_hasTags_iff T ts); now apply api_WF. Qed.

(** Adding the same tags in any order gives an equal TagSet. *)
Theorem C04_tagset_add_order : forall l1 l2 T T1 T2,
  api_tagset T -> Permutation l1 l2 -> (forall t, In t l1 -> ss_toInt t = None) ->
  run_ops (map OAddTag l1) T = Ok T1 -> run_ops (map OAddTag l2) T = Ok T2 ->
  ts_eqb T1 T2 = true.
Proof.
  intros l1 l2 T T1 T2 HT HP Hn H1 H2.
  assert (HA : forall l, Forall api_args (map OAddTag l)).
  { intros l. rewrite Forall_map. apply Forall_forall. intros; constructor. }
  assert (HR : forall l U, run_ops (map OAddTag l) U = addTag_list U l).
  { induction l as [|t l IH]; intros U; simpl; auto. destruct (addTag U t); simpl; auto. }
  rewrite HR in H1, H2. pose proof (api_WF T HT) as WT.
  destruct (addTag_list_any l1 T WT T1 H1) as (W1 & M1 & P1).
  destruct (addTag_list_any l2 T WT T2 H2) as (W2 & M2 & P2).
  apply ts_eqb_iff; auto. split; simpl.
  - destruct P1 as [[-> _]|(x & n & Hx & Hxn & _)]; [|rewrite Hn in Hxn by auto; discriminate].
    destruct P2 as [[-> _]|(x & n & Hx & Hxn & _)]; auto.
    rewrite Hn in Hxn; [discriminate|]. eapply Permutation_in; [apply Permutation_sym; eauto|auto].
  - intros t. rewrite M1, M2. split; intros [H|(H & H')]; auto; right; split; auto;
      [|apply Permutation_sym in HP]; eapply Permutation_in; eauto.
Qed.

(** The text form: TagSet("a, b,2") holds exactly the pieces between commas with the
    spaces removed; a number becomes the level. *)
Theorem C04_tagset_text : forall s T, ts_parse s = Ok T ->
  (forall t, tag_in T t <-> In t (text_tags s) /\ ss_toInt t = None /\ t <> ss_empty) /\
  (ts_plev T = (-1)%Z /\ (forall t, In t (text_tags s) -> ss_toInt t = None) \/
   exists t n, In t (text_tags s) /\ ss_toInt t = Some n /\ ts_plev T = Z.of_N n).
Proof.
  intros s T H. apply ts_parse_text in H.
  destruct (addTag_list_any _ ts_new (api_WF _ api_new) T H) as (_ & HM & HP).
  split; auto. intros t. rewrite HM. split; [|auto].
  intros [(i & Hi & _)|Ht]; auto. simpl in Hi. lia.
Qed.

Example C04_nonvacuous :
  api_tagset exAB /\ tag_in exAB tA /\ ~ tag_in exAB tC /\
  (exists T, ts_parse [x42; x2c; x20; x41; x2c; x32] = Ok T /\ ts_plev T = 2%Z /\ ts_list T = [tA; tB]).
Proof.
  split; [exact exAB_api|]. split; [|split].
  - exists 0. split; [vm_compute; lia|reflexivity].
  - intros (i & Hi & E). destruct i as [|[|i]]; [discriminate E|discriminate E|].
    vm_compute in Hi. lia.
  - eexists. split; [vm_compute; reflexivity|]. split; reflexivity.
Qed.

Print Assumptions C04_tagset_history.
Print Assumptions C04_tagset_nodup.
Print Assumptions C04_tagset_eq.
Print Assumptions C04_tagset_hasTags.
Print Assumptions C04_tagset_add_order.
Print Assumptions C04_tagset_text.

(** ** C05 *)

(** addTag never drops anything silently: it returns with every old tag kept and the new
    one present, or stops because the set is full / a positive level is already set. *)
Theorem C05_addTag_outcome : forall T t, api_tagset T ->
  (exists T', addTag T t = Ok T' /\ (forall x, tag_in T x -> tag_in T' x) /\
     (ss_toInt t = None -> t <> ss_empty -> tag_in T' t) /\
     (forall n, ss_toInt t = Some n -> ts_plev T' = Z.of_N n)) \/
  (addTag T t = Err /\ ((ss_toInt t = None /\ length (ts_list T) = 4) \/
                        (ss_toInt t <> None /\ (0 < ts_plev T)%Z))).
Proof.
  intros T t HT. destruct (api_WF T HT) as (l & r & W).
  pose proof (addTag_spec T l r t W) as H.
  destruct (addTag T t) as [T'| |]; [left|right|contradiction].
  - destruct H as [(l' & r' & W' & Hm) Hp]. exists T'. split; auto.
    split; [|split].
    + intros x. rewrite (wf_mem T l r), (wf_mem T' l' r') by auto. rewrite Hm. auto.
    + intros Hi Hne. rewrite (wf_mem T' l' r') by auto. rewrite Hm. auto.
    + intros n Hn. rewrite Hn in Hp. auto.
  - split; auto. destruct (ss_toInt t).
    + right. split; [discriminate|auto].
    + left. split; auto. rewrite (wf_list T l r) by auto. destruct W as (_ & Hl & _). lia.
Qed.

(** removeTag is fine on every set that is not full... *)
Theorem C04_removeTag_partial : forall T t, api_tagset T -> length (ts_list T) < 4 ->
  exists T', removeTag T t = Ok T' /\ forall x, tag_in T' x <-> tag_in T x /\ x <> t.
Proof.
  intros T t HT Hl. destruct (api_WF T HT) as (l & r & W).
  pose proof (removeTag_spec T l r t W) as H. rewrite (wf_list T l r) in Hl by auto.
  destruct (removeTag T t) as [T'| |]; [|contradiction|].
  - destruct H as [(l' & r' & W' & Hm & _) Hp]. exists T'. split; auto.
    intros x. rewrite (wf_mem T l r), (wf_mem T' l' r') by auto. auto.
  - destruct H as [_ H]. destruct W as (_ & Hll & _). lia.
Qed.

(** ... but removing a tag from a full set reads past the end of the tag array. *)
Theorem C04_removeTag_full_refuted :
  exists T t, api_tagset T /\ tag_in T t /\ removeTag T t = UB.
Proof.
  set (ops := [OAddTag tA; OAddTag tB; OAddTag tC; OAddTag tD]).
  exists (get (run_ops ops ts_new)), tB. split; [|split].
  - apply (api_run ops ts_new); [constructor|repeat constructor|vm_compute; reflexivity].
  - exists 1. split; [vm_compute; lia|vm_compute; reflexivity].
  - vm_compute. reflexivity.
Qed.

(** The tags a call asks to remove. *)
Definition asks_to_remove (o : tag_op) (t : Tag) : Prop :=
  match o with
  | ORemoveTag t' => t = t'
  | ORemoveTags ts => tag_in ts t
  | OReplace r _ => tag_in r t
  | _ => False
  end.

(** That is the only way to leave defined behaviour: every other call either returns or
    reports an error. *)
Theorem C04_only_full_removal_undefined : forall o T, api_tagset T -> api_args o ->
  run_op o T = UB -> length (ts_list T) = 4 /\ exists t, tag_in T t /\ asks_to_remove o t.
Proof.
  intros o T HT HA H. apply api_args_WF in HA. destruct (api_WF T HT) as (l & r & W).
  rewrite (wf_list T l r) by auto. pose proof W as (_ & Hl & _).
  destruct o as [t|ts|t|ts|ts| |rm ad|p|n]; simpl in H, HA; try discriminate.
  - pose proof (addTag_spec T l r t W) as Hs. rewrite H in Hs. contradiction.
  - unfold addTags in H. destruct (Z.leb 0 (ts_plev ts)); [discriminate|].
    destruct HA as (l2 & r2 & W2). rewrite (wf_list ts l2 r2) in H by auto. destruct W2 as (_ & _ & _ & _ & Hf2).
    pose proof (addTag_list_spec l2 Hf2 T l r W) as Hs. rewrite H in Hs. contradiction.
  - pose proof (removeTag_spec T l r t W) as Hs. rewrite H in Hs. destruct Hs as [Hi H4].
    split; [lia|]. exists t. split; [apply (wf_mem T l r); auto|reflexivity].
  - unfold removeTags in H. destruct (Z.leb 0 (ts_plev ts)); [discriminate|].
    destruct HA as (l2 & r2 & W2). rewrite (wf_list ts l2 r2) in H by auto.
    pose proof (removeTag_list_spec l2 T l r W) as Hs. rewrite H in Hs. destruct Hs as [H4 (x & Hx & Hx2)].
    split; [lia|]. exists x. split; [apply (wf_mem T l r); auto|simpl; apply (wf_mem ts l2 r2); auto].
  - unfold replaceTags in H. destruct (_ || _)%bool; [discriminate|].
    destruct (ts_hasTags T rm); simpl negb in H; cbn match in H; [|discriminate].
    destruct HA as [(l2 & r2 & W2) (l3 & r3 & W3)].
    set (T1 := if Z.leb 0 (ts_plev rm) then mkTS (ts_tags T) (ts_plev ad) (ts_size T) else T) in *.
    assert (W1 : wf T1 l r) by (unfold T1; destruct (Z.leb 0 (ts_plev rm)); auto).
    assert (S1 : ts_size T1 = ts_size T) by (unfold T1; destruct (Z.leb 0 (ts_plev rm)); auto).
    rewrite (wf_list rm l2 r2), (wf_list ad l3 r3) in H by auto.
    pose proof (removeTag_list_spec l2 T1 l r W1) as Hs. destruct (removeTag_list T1 l2) as [T2| |]; simpl in H; try discriminate.
    + destruct Hs as [(l' & r' & W' & _) _]. destruct W3 as (_ & _ & _ & _ & Hf3).
      pose proof (addTag_list_spec l3 Hf3 T2 l' r' W') as Ha. rewrite H in Ha. contradiction.
    + destruct Hs as [H4 (x & Hx & Hx2)]. split; [lia|].
      exists x. split; [apply (wf_mem T l r); auto|simpl; apply (wf_mem rm l2 r2); auto].
Qed.

(** Adding a tag that is already there (or the empty tag) to a full set is an error. *)
Theorem C05_add_present_to_full_refuted :
  exists T t, api_tagset T /\ tag_in T t /\ addTag T t = Err.
Proof.
  set (ops := [OAddTag tA; OAddTag tB; OAddTag tC; OAddTag tD]).
  exists (get (run_ops ops ts_new)), tB. split; [|split].
  - apply (api_run ops ts_new); [constructor|repeat constructor|vm_compute; reflexivity].
  - exists 1. split; [vm_compute; lia|vm_compute; reflexivity].
  - vm_compute. reflexivity.
Qed.

(** A tag longer than seven characters in a release build writes past the name. *)
Theorem C05_long_tag_refuted : exists s, ts_parse s = UB.
Proof. exists [x61; x61; x61; x61; x61; x61; x61; x61]. reflexivity. Qed.

Example C05_nonvacuous : exists T', removeTag exAB tA = Ok T' /\ ts_list T' = [tB].
Proof. eexists. split; vm_compute; reflexivity. Qed.

Print Assumptions C05_addTag_outcome.
Print Assumptions C04_removeTag_partial.
Print Assumptions C04_only_full_removal_undefined.
Print Assumptions C04_removeTag_full_refuted.
Print Assumptions C05_add_present_to_full_refuted.
Print Assumptions C05_long_tag_refuted.

(** ** C30 (tag sets): writing a TagSet and reading it into a fresh one *)

(** Histories without noTags(), arguments built the same way. *)
Inductive api_clean : TagSet -> Prop :=
| ac_new : api_clean ts_new
| ac_op o T T' : api_clean T -> api_args o -> not_noTags o ->
    (forall ts, o = OSetTags ts -> api_clean ts) ->
    run_op o T = Ok T' -> api_clean T'.

Theorem C30_tagset_roundtrip : forall T, api_clean T ->
  exists T', ts_read_from T ts_new = Ok T' /\ ts_eqb T' T = true.
Proof.
  intros T HT. apply clean_roundtrip. revert T HT. fix IH 2. intros T HT.
  destruct HT as [|o T T' HT HA HN HC H].
  - apply clean_new.
  - eapply run_op_clean; eauto. destruct o; simpl; auto.
Qed.

(** After noTags() the old tags are still in the slots and come back on reading. *)
Theorem C30_tagset_noTags_refuted :
  exists T T', api_tagset T /\ (forall t, ~ tag_in T t) /\
    ts_read_from T ts_new = Ok T' /\ tag_in T' tA.
Proof.
  exists (get (run_ops [OAddTag tA; ONoTags] ts_new)).
  eexists. split; [|split; [|split; [vm_compute; reflexivity|]]].
  - apply (api_run [OAddTag tA; ONoTags] ts_new); [constructor|repeat constructor|vm_compute; reflexivity].
  - intros t (i & Hi & _). vm_compute in Hi. lia.
  - exists 0. split; [vm_compute; lia|vm_compute; reflexivity].
Qed.

Example C30_tagset_nonvacuous :
  api_clean exAB /\ exists T', ts_read_from exAB ts_new = Ok T' /\ ts_list T' = [tA; tB].
Proof.
  split.
  - eapply ac_op with (o := OAddTag tA); [|constructor|exact I|discriminate|].
    + eapply ac_op with (o := OAddTag tB); [apply ac_new|constructor|exact I|discriminate|reflexivity].
    + reflexivity.
  - eexists. split; vm_compute; reflexivity.
Qed.

Print Assumptions C30_tagset_roundtrip.
Print Assumptions C30_tagset_noTags_refuted.
