From Coq Require Import List Arith Bool Ascii QArith Lia.
From Verif Require Import Util InfArrayModel InfArraySpec InfArrayProofs ArgsModel ArgsSpec.
Import ListNotations.
Local Open Scope nat_scope.
Local Arguments Nat.sub : simpl never.

Lemma ceqb_eq a b : ceqb a b = true <-> a = b.
Proof. apply Ascii.eqb_eq. Qed.
Lemma ceqb_neq a b : ceqb a b = false <-> a <> b.
Proof. apply Ascii.eqb_neq. Qed.
Lemma seqb_eq a : forall b, seqb a b = true <-> a = b.
Proof.
  induction a as [|x a IH]; intros [|y b]; simpl; try (split; congruence).
  rewrite andb_true_iff, ceqb_eq, IH. split; [intros [-> ->]; auto|intros E; inversion E; auto].
Qed.
Lemma seqb_refl a : seqb a a = true.
Proof. now apply seqb_eq. Qed.
Lemma seqb_neq a b : seqb a b = false <-> a <> b.
Proof. rewrite <- seqb_eq. destruct (seqb a b); split; congruence. Qed.
Lemma seqb_sym a b : seqb a b = seqb b a.
Proof. destruct (seqb a b) eqn:E; symmetry; [apply seqb_eq in E; subst; apply seqb_refl|]. apply seqb_neq in E. apply seqb_neq. congruence. Qed.

(** chopSpaceEq *)
Lemma chop_rev_head r : forall c, hd_error (chop_rev r) = Some c -> c <> "="%char /\ c <> " "%char.
Proof.
  induction r as [|x r IH]; simpl; intros c E; [discriminate|].
  destruct (ceqb x "="%char || ceqb x " "%char) eqn:K; auto. simpl in E. inversion E; subst.
  apply orb_false_iff in K as [K1 K2]. apply ceqb_neq in K1, K2. auto.
Qed.
Lemma chop_proper n : proper_name (chopSpaceEq n).
Proof.
  unfold proper_name, chopSpaceEq. intros c E. destruct (chop_rev (rev n)) as [|x r] eqn:K.
  - simpl in E. subst. split; discriminate.
  - simpl rev in E. rewrite last_last in E. subst. apply (chop_rev_head (rev n)). now rewrite K.
Qed.
Lemma chop_id n : proper_name n -> chopSpaceEq n = n.
Proof.
  intros H. unfold chopSpaceEq. destruct (rev n) as [|x r] eqn:E.
  - apply (f_equal (@rev _)) in E. rewrite rev_involutive in E. subst. reflexivity.
  - assert (En : n = rev r ++ [x]) by (rewrite <- (rev_involutive n), E; reflexivity).
    destruct (H x) as [H1 H2]; [rewrite En; apply last_last|].
    simpl chop_rev. apply ceqb_neq in H1, H2. rewrite H1, H2. simpl. auto.
Qed.

(** ** storage: Good state showing a list of Vals with distinct names *)
Definition names (l : list Val) : list str := map vname l.
Definition Rep (s : Args) (l : list Val) : Prop :=
  Good ACap s (map Some l) /\ NoDup (names l) /\ (forall v, In v l -> vval v <> ANone).

Fixpoint l_find (name : str) (l : list Val) : option nat :=
  match l with
  | [] => None
  | x :: r => if seqb (vname x) name then Some 0 else option_map S (l_find name r)
  end.

Lemma Rep_size s l : Rep s l -> ia_size s = length l.
Proof. intros ((H & _) & _). now rewrite map_length in H. Qed.
Lemma Rep_get s l i x : Rep s l -> nth_error l i = Some x -> ia_get s i = Ok x.
Proof.
  intros (H & _) E. apply Good_shows in H. apply (proj2 H). now rewrite nth_error_map, E.
Qed.

Lemma args_find_spec s l name : Rep s l -> forall k i, i + k = length l ->
  args_find k i name s = Ok (option_map (fun j => i + j) (l_find name (skipn i l))).
Proof.
  intros HR. induction k as [|k IH]; intros i Hi; simpl.
  - rewrite skipn_all2 by lia. reflexivity.
  - destruct (nth_error l i) as [x|] eqn:Ex; [|apply nth_error_None in Ex; lia].
    rewrite (Rep_get s l i x HR Ex). cbn [obind].
    assert (Sl : skipn i l = x :: skipn (S i) l).
    { clear - Ex. revert i Ex. induction l as [|z l IH]; intros [|i] Ex; simpl in *; try discriminate; try congruence. apply IH; auto. }
    rewrite Sl. cbn [l_find]. destruct (seqb (vname x) name); [simpl; f_equal; f_equal; lia|].
    rewrite IH by lia. destruct (l_find name (skipn (S i) l)); simpl; f_equal; f_equal; lia.
Qed.

Lemma args_pos_spec s l name : Rep s l -> args_pos name s = Ok (l_find name l).
Proof.
  intros HR. unfold args_pos. rewrite (args_find_spec s l name HR) by (rewrite (Rep_size s l HR); reflexivity).
  simpl. destruct (l_find name l); reflexivity.
Qed.

Lemma l_find_Some name l i : l_find name l = Some i ->
  exists x, nth_error l i = Some x /\ vname x = name.
Proof.
  revert i. induction l as [|x l IH]; simpl; intros i E; [discriminate|].
  destruct (seqb (vname x) name) eqn:K.
  - inversion E; subst. apply seqb_eq in K. exists x; auto.
  - destruct (l_find name l) as [j|]; [|discriminate]. simpl in E. inversion E; subst. simpl. auto.
Qed.
Lemma l_find_None name l : l_find name l = None <-> ~ In name (names l).
Proof.
  induction l as [|x l IH]; simpl; [tauto|]. destruct (seqb (vname x) name) eqn:K.
  - apply seqb_eq in K. split; [discriminate|]. intros H. exfalso. apply H. auto.
  - apply seqb_neq in K. destruct (l_find name l); simpl.
    + split; [discriminate|]. intros H. exfalso. assert (~ In name (names l)) by tauto. apply IH in H0. discriminate.
    + split; auto. intros _ [H|H]; auto. now apply IH in H.
Qed.

Lemma nth_In {X} (l : list X) i x : nth_error l i = Some x -> In x l.
Proof. apply nth_error_In. Qed.

Lemma NoDup_pos (l : list Val) i j x y : NoDup (names l) -> nth_error l i = Some x -> nth_error l j = Some y ->
  vname x = vname y -> i = j.
Proof.
  intros HN Ei Ej E. apply (NoDup_nth_error (names l)); auto.
  - unfold names. rewrite map_length. apply nth_error_Some. congruence.
  - unfold names. rewrite !nth_error_map, Ei, Ej. simpl. now rewrite E.
Qed.

(** lookups as a map *)
Definition lmap (l : list Val) : amap := fun k =>
  match l_find k l with Some i => match nth_error l i with Some x => Some (vval x) | None => None end | None => None end.

Lemma lmap_In l x : NoDup (names l) -> In x l -> lmap l (vname x) = Some (vval x).
Proof.
  intros HN HI. unfold lmap. destruct (l_find (vname x) l) as [i|] eqn:E.
  - apply l_find_Some in E as (y & Ey & En). rewrite Ey. f_equal.
    apply In_nth_error in HI as (j & Ej). assert (i = j) by (eapply NoDup_pos; eauto). subst. congruence.
  - apply l_find_None in E. exfalso. apply E. unfold names. now apply in_map.
Qed.
Lemma lmap_notin l k : ~ In k (names l) -> lmap l k = None.
Proof. intros H. unfold lmap. apply l_find_None in H. now rewrite H. Qed.

Lemma lmap_cons x r q : lmap (x :: r) q = if seqb (vname x) q then Some (vval x) else lmap r q.
Proof.
  unfold lmap. cbn [l_find]. destruct (seqb (vname x) q); auto. destruct (l_find q r); auto.
Qed.

Lemma lmap_char l k v : NoDup (names l) -> (lmap l k = Some v <-> exists x, In x l /\ vname x = k /\ vval x = v).
Proof.
  intros HN. split.
  - unfold lmap. destruct (l_find k l) eqn:E; [|discriminate]. apply l_find_Some in E as (x & E & En). rewrite E.
    intros K. inversion K. exists x. split; [eapply nth_In; eauto|auto].
  - intros (x & HI & <- & <-). now apply lmap_In.
Qed.

Lemma map_ext_eq (m m' : option aval) : (forall v, m = Some v <-> m' = Some v) -> m = m'.
Proof.
  intros H. destruct m as [v|], m' as [v'|]; auto.
  - symmetry. now apply H.
  - symmetry. now apply H.
  - now apply H.
Qed.

Lemma upd_map {X Y} (f : X -> Y) i x l : map f (upd i x l) = upd i (f x) (map f l).
Proof. revert i. induction l as [|y l IH]; intros [|i]; simpl; auto. now rewrite IH. Qed.

Lemma upd_same {X} i (x : X) l : nth_error l i = Some x -> upd i x l = l.
Proof. revert i. induction l as [|y l IH]; intros [|i]; simpl; intros E; try congruence. now rewrite IH. Qed.

Lemma in_upd {X} i (x y : X) l : i < length l -> (In y (upd i x l) <-> y = x \/ exists j, j <> i /\ nth_error l j = Some y).
Proof.
  intros Hi. split.
  - intros H. apply In_nth_error in H as (j & E). destruct (Nat.eq_dec j i) as [->|Hne].
    + rewrite nth_error_upd_eq in E by auto. left. congruence.
    + rewrite nth_error_upd_neq in E by auto. right. eauto.
  - intros [->|(j & Hne & E)].
    + apply nth_error_In with i. now apply nth_error_upd_eq.
    + apply nth_error_In with j. rewrite nth_error_upd_neq by auto. auto.
Qed.

Lemma Rep_add s l v : Rep s l -> vval v <> ANone ->
  exists s' l', args_add s v = Ok s' /\ Rep s' l' /\ (forall k, lmap l' k = amap_set (vname v) (vval v) (lmap l) k).
Proof.
  intros HR Hv. pose proof HR as (HG & HN & HV). unfold args_add.
  assert (Hval : val_valid v = true) by (unfold val_valid; destruct (vval v); congruence).
  rewrite Hval. cbn [negb]. rewrite (args_pos_spec s l _ HR). cbn [obind].
  destruct (l_find (vname v) l) as [i|] eqn:E.
  - apply l_find_Some in E as (x & Ex & En).
    assert (Hi : i < length l) by (apply nth_error_Some; congruence).
    destruct (Good_set ACap s (map Some l) i v HG) as (s' & Es & HG'); [rewrite map_length; auto|].
    exists s', (upd i v l). split; [auto|]. rewrite <- upd_map in HG'.
    assert (HN' : names (upd i v l) = names l).
    { unfold names. rewrite upd_map. apply upd_same. now rewrite nth_error_map, Ex, <- En. }
    assert (HNN : NoDup (names (upd i v l))) by now rewrite HN'.
    split.
    + split; [auto|split; [auto|]]. intros w Hw. apply in_upd in Hw as [->|(j & _ & Ej)]; auto. apply HV. eapply nth_In; eauto.
    + intros k. apply map_ext_eq. intros u. rewrite (lmap_char _ _ _ HNN). unfold amap_set. split.
      * intros (y & Hy & Hk & Hu). apply in_upd in Hy as [->|(j & Hj & Ej)]; auto.
        -- rewrite Hk, seqb_refl. congruence.
        -- destruct (seqb (vname v) k) eqn:K.
           ++ apply seqb_eq in K. exfalso. apply Hj. eapply (NoDup_pos l j i y x); eauto. congruence.
           ++ apply lmap_char; auto. exists y. split; [eapply nth_In; eauto|auto].
      * destruct (seqb (vname v) k) eqn:K.
        -- apply seqb_eq in K. intros U. inversion U. exists v. rewrite in_upd by auto. auto.
        -- apply seqb_neq in K. rewrite (lmap_char l) by auto. intros (y & Hy & Hk & Hu). exists y. split; auto.
           apply in_upd; auto. right. apply In_nth_error in Hy as (j & Ej). exists j. split; auto.
           intros ->. congruence.
  - apply l_find_None in E. destruct (Good_push ACap val_null s (map Some l) v HG) as (s' & Es & HG').
    exists s', (l ++ [v]). split; [auto|].
    assert (HNN : NoDup (names (l ++ [v]))).
    { unfold names. rewrite map_app. apply NoDup_app_intro; auto. { repeat constructor; auto. }
      intros y Hy [<-|[]]. auto. }
    split.
    + split; [rewrite map_app; auto|split; [auto|]]. intros w Hw. apply in_app_iff in Hw as [Hw|[<-|[]]]; auto.
    + intros k. apply map_ext_eq. intros u. rewrite (lmap_char _ _ _ HNN). unfold amap_set. split.
      * intros (y & Hy & Hk & Hu). apply in_app_iff in Hy as [Hy|[<-|[]]].
        -- destruct (seqb (vname v) k) eqn:K.
           ++ apply seqb_eq in K. exfalso. apply E. rewrite K, <- Hk. unfold names. now apply in_map.
           ++ apply lmap_char; eauto.
        -- rewrite Hk, seqb_refl. congruence.
      * destruct (seqb (vname v) k) eqn:K.
        -- apply seqb_eq in K. intros U. inversion U. exists v. rewrite in_app_iff. simpl. auto.
        -- rewrite (lmap_char l) by auto. intros (y & Hy & Hk & Hu). exists y. rewrite in_app_iff. auto.
Qed.

Lemma remove_nth_map {X Y} (f : X -> Y) i l : map f (remove_nth i l) = remove_nth i (map f l).
Proof. unfold remove_nth. now rewrite map_app, firstn_map, skipn_map. Qed.

Lemma in_remove_nth {X} i (l : list X) y : i < length l ->
  (In y (remove_nth i l) <-> exists j, j <> i /\ nth_error l j = Some y).
Proof.
  intros Hi. split.
  - intros H. apply In_nth_error in H as (j & E). rewrite remove_nth_nth in E by auto.
    destruct (Nat.ltb_spec j i); [exists j|exists (S j)]; split; auto; lia.
  - intros (j & Hne & E). destruct (Nat.lt_ge_cases j i).
    + apply nth_error_In with j. rewrite remove_nth_nth by auto. destruct (Nat.ltb_spec j i); [auto|lia].
    + apply nth_error_In with (j - 1). rewrite remove_nth_nth by auto.
      destruct (Nat.ltb_spec (j - 1) i); [lia|]. replace (S (j - 1)) with j by lia. auto.
Qed.

Lemma NoDup_remove_nth {X} i (l : list X) : NoDup l -> NoDup (remove_nth i l).
Proof.
  unfold remove_nth. revert i. induction l as [|x l IH]; intros [|i] H; simpl; auto.
  - now inversion H.
  - inversion H; subst. constructor; [|apply (IH i); auto]. rewrite in_app_iff. intros [K|K]; apply H2.
    + clear - K. revert i K. induction l as [|y l IH]; intros [|i] K; simpl in *; try contradiction. destruct K; eauto.
    + rewrite <- (firstn_skipn (S i) l). apply in_app_iff. auto.
Qed.

Lemma Rep_remove s l n : Rep s l -> length l <> 8 ->
  exists s' l', args_remove s n = Ok s' /\ Rep s' l' /\ (forall k, lmap l' k = amap_del n (lmap l) k).
Proof.
  intros HR H8. pose proof HR as (HG & HN & HV). unfold args_remove. rewrite (args_pos_spec s l _ HR). cbn [obind].
  destruct (l_find n l) as [i|] eqn:E.
  - apply l_find_Some in E as (x & Ex & En).
    assert (Hi : i < length l) by (apply nth_error_Some; congruence).
    destruct (Good_erase ACap s (map Some l) i HG) as (s' & Es & HG'); [rewrite map_length; auto|].
    rewrite map_length in HG'. destruct (Nat.eqb_spec (length l) (S ACap)); [unfold ACap in *; lia|].
    exists s', (remove_nth i l). split; [auto|]. rewrite <- remove_nth_map in HG'.
    assert (HNN : NoDup (names (remove_nth i l))) by (unfold names; rewrite remove_nth_map; now apply NoDup_remove_nth).
    split.
    + split; [auto|split; [auto|]]. intros w Hw. apply in_remove_nth in Hw as (j & _ & Ej); auto. apply HV. eapply nth_In; eauto.
    + intros k. apply map_ext_eq. intros u. rewrite (lmap_char _ _ _ HNN). unfold amap_del. split.
      * intros (y & Hy & Hk & Hu). apply in_remove_nth in Hy as (j & Hj & Ej); auto.
        destruct (seqb n k) eqn:K.
        -- apply seqb_eq in K. exfalso. apply Hj. eapply (NoDup_pos l j i y x); eauto. congruence.
        -- apply lmap_char; auto. exists y. split; [eapply nth_In; eauto|auto].
      * destruct (seqb n k) eqn:K; [discriminate|]. apply seqb_neq in K.
        rewrite (lmap_char l) by auto. intros (y & Hy & Hk & Hu). exists y. split; auto.
        apply in_remove_nth; auto. apply In_nth_error in Hy as (j & Ej). exists j. split; auto. intros ->. congruence.
  - exists s, l. split; [auto|split; [auto|]]. intros k. unfold amap_del. destruct (seqb n k) eqn:K; auto.
    apply seqb_eq in K. subst. apply l_find_None in E. now apply lmap_notin.
Qed.

Lemma Rep_copy s l : Rep s l -> Rep (ia_copy ACap s) l.
Proof. intros (H & H'). split; auto. now apply Good_copy. Qed.

Lemma Rep_new : Rep args_new [].
Proof.
  split; [|split; [constructor|intros v []]]. unfold args_new. apply (Good_new ACap val_null junk0 0). reflexivity.
Qed.

Lemma Rep_merge t lt : Rep t lt -> forall k i s l, i + k = length lt -> Rep s l ->
  exists s' l', merge_loop k i t s = Ok s' /\ Rep s' l' /\
    (forall q, lmap l' q = amap_over (lmap l) (lmap (skipn i lt)) q).
Proof.
  intros HT. induction k as [|k IH]; intros i s l Hi HR; simpl.
  - exists s, l. split; [auto|split; [auto|]]. intros q. rewrite skipn_all2 by lia. reflexivity.
  - destruct (nth_error lt i) as [x|] eqn:Ex; [|apply nth_error_None in Ex; lia].
    rewrite (Rep_get t lt i x HT Ex). cbn [obind].
    assert (Sl : skipn i lt = x :: skipn (S i) lt).
    { clear - Ex. revert i Ex. induction lt as [|z l IH]; intros [|i] Ex; simpl in *; try discriminate; try congruence. apply IH; auto. }
    assert (Hx : vval x <> ANone) by (apply HT; eapply nth_In; eauto).
    destruct (Rep_add s l x HR Hx) as (s1 & l1 & E1 & HR1 & HM1). rewrite E1. cbn [obind].
    destruct (IH (S i) s1 l1) as (s' & l' & E' & HR' & HM'); [lia|auto|].
    exists s', l'. split; [auto|split; [auto|]]. intros q. rewrite HM'. unfold amap_over. rewrite Sl.
    assert (HND : NoDup (names (x :: skipn (S i) lt))).
    { rewrite <- Sl. destruct HT as (_ & HN & _). unfold names in *. rewrite <- skipn_map.
      rewrite <- (firstn_skipn i (map vname lt)) in HN. clear - HN.
      induction (firstn i (map vname lt)) as [|z f IHf]; simpl in *; auto. inversion HN; auto. }
    assert (Hni : ~ In (vname x) (names (skipn (S i) lt))) by (simpl in HND; now inversion HND).
    rewrite lmap_cons. destruct (seqb (vname x) q) eqn:K.
    + apply seqb_eq in K. subst q. rewrite (lmap_notin _ _ Hni). rewrite HM1. unfold amap_set. now rewrite seqb_refl.
    + destruct (lmap (skipn (S i) lt) q); auto. rewrite HM1. unfold amap_set. now rewrite K.
Qed.

Lemma built_Rep s m : built s m -> exists l, Rep s l /\ (forall k, lmap l k = m k).
Proof.
  induction 1 as [|s m n v s' HB IH Hv E|s m n s' HB IH H8 E|s m HB IH|s m t m' HB IH HB' IH'|s m t m' s' HB IH HB' IH' E].
  - exists []. split; [apply Rep_new|reflexivity].
  - destruct IH as (l & HR & HM). destruct (Rep_add s l (val_make n v) HR) as (s1 & l1 & E1 & HR1 & HM1); auto.
    rewrite E in E1. inversion E1; subst. exists l1. split; auto. intros k. rewrite HM1. unfold amap_set. now rewrite HM.
  - destruct IH as (l & HR & HM). rewrite (Rep_size s l HR) in H8.
    destruct (Rep_remove s l n HR H8) as (s1 & l1 & E1 & HR1 & HM1).
    rewrite E in E1. inversion E1; subst. exists l1. split; auto. intros k. rewrite HM1. unfold amap_del. now rewrite HM.
  - destruct IH as (l & HR & HM). exists l. split; auto. now apply Rep_copy.
  - destruct IH' as (l & HR & HM). exists l. split; auto. now apply Rep_copy.
  - destruct IH as (l & HR & HM). destruct IH' as (lt & HT & HMt).
    destruct (Rep_merge t lt HT (ia_size t) 0 s l) as (s1 & l1 & E1 & HR1 & HM1); auto.
    { rewrite (Rep_size t lt HT). reflexivity. }
    unfold args_merge in E. rewrite E in E1. inversion E1; subst. exists l1. split; auto.
    intros k. rewrite HM1. unfold amap_over. simpl skipn. now rewrite HMt, HM.
Qed.

Lemma own_spec s l n : Rep s l -> args_own s n = Ok (lmap l n).
Proof.
  intros HR. unfold args_own. rewrite (args_pos_spec s l n HR). cbn [obind]. unfold lmap.
  destruct (l_find n l) as [i|] eqn:E; auto. apply l_find_Some in E as (x & Ex & En).
  rewrite Ex, (Rep_get s l i x HR Ex). reflexivity.
Qed.

(** names stored are always chopped *)
Lemma built_proper s m : built s m -> forall k v, m k = Some v -> proper_name k.
Proof.
  induction 1 as [|s m n v s' HB IH Hv E|s m n s' HB IH H8 E|s m HB IH|s m t m' HB IH HB' IH'|s m t m' s' HB IH HB' IH' E]; intros k u K; auto.
  - discriminate.
  - unfold amap_set in K. destruct (seqb (chopSpaceEq n) k) eqn:S; [|eauto]. apply seqb_eq in S. subst. apply chop_proper.
  - unfold amap_del in K. destruct (seqb n k); [discriminate|eauto].
  - eauto.
  - eauto.
  - unfold amap_over in K. destruct (m' k) eqn:Q; eauto.
Qed.

(** ** strings *)
Lemma split_at_app c a b : ~ In c a -> split_at c (a ++ c :: b) = Some (a, b).
Proof.
  induction a as [|x a IH]; simpl; intros H.
  - destruct (ceqb c c) eqn:E; auto. apply ceqb_neq in E. congruence.
  - destruct (ceqb x c) eqn:E; [apply ceqb_eq in E; subst; exfalso; auto|]. rewrite IH; auto.
Qed.
Lemma split_at_none c a : ~ In c a -> split_at c a = None.
Proof.
  induction a as [|x a IH]; simpl; intros H; auto.
  destruct (ceqb x c) eqn:E; [apply ceqb_eq in E; subst; exfalso; auto|]. rewrite IH; auto.
Qed.
Lemma filter_id {X} (f : X -> bool) l : (forall x, In x l -> f x = true) -> filter f l = l.
Proof. induction l as [|x l IH]; simpl; intros H; auto. rewrite H by auto. f_equal. auto. Qed.

Lemma plain_proper n : plain n -> proper_name n.
Proof.
  intros (Hn & Hs & _ & He) c E. destruct (exists_last Hn) as (a & x & ->). rewrite last_last in E. subst.
  split; intros ->; [apply He|apply Hs]; apply in_app_iff; simpl; auto.
Qed.

Lemma addByString_pair strtod s n v a : plain n -> text_value strtod v = Some a ->
  addByString strtod s (n ++ ["="%char] ++ v) = args_add s (val_make n a).
Proof.
  intros (Hn & Hs & Hc & He) Hv. unfold addByString. simpl app.
  destruct (n ++ "="%char :: v) as [|c0 r0] eqn:EN; [destruct n; discriminate|]. rewrite <- EN.
  rewrite split_at_app by auto. destruct n as [|n0 n]; [congruence|].
  destruct v as [|f v]; [discriminate|]. unfold text_value in Hv.
  assert (D : ceqb f "1"%char || ceqb f "-"%char || is_digit f || ceqb f "+"%char = is_digit f || ceqb f "-"%char || ceqb f "+"%char).
  { destruct (ceqb f "1"%char) eqn:K.
    - apply ceqb_eq in K. subst. reflexivity.
    - simpl. destruct (ceqb f "-"%char), (is_digit f); reflexivity. }
  rewrite D. destruct (is_digit f || ceqb f "-"%char || ceqb f "+"%char).
  - destruct (strtod (f :: v)) as [d|]; [|discriminate]. inversion Hv. reflexivity.
  - destruct (seqb (f :: v) s_true) eqn:T.
    + apply seqb_eq in T. rewrite T. inversion Hv. reflexivity.
    + destruct (seqb (f :: v) s_false); inversion Hv; reflexivity.
Qed.

Lemma split_text n v : plain n -> ~ In ","%char v -> forall b,
  split_at ","%char (n ++ ["="%char] ++ v ++ [","%char] ++ b) = Some (n ++ ["="%char] ++ v, b).
Proof.
  intros (_ & _ & Hc & _) Hv b. replace (n ++ ["="%char] ++ v ++ [","%char] ++ b) with ((n ++ ["="%char] ++ v) ++ ","%char :: b) by (rewrite <- !app_assoc; reflexivity).
  apply split_at_app. rewrite !in_app_iff. intros [K|[[K|[]]|K]]; auto. discriminate.
Qed.

Fixpoint add_pairs (s : Args) (l : list (str * aval)) : outcome Args :=
  match l with
  | [] => Ok s
  | (n, a) :: r => obind (args_add s (val_make n a)) (fun s' => add_pairs s' r)
  end.

Lemma process_loop_pairs strtod l al : forall fuel s,
  Forall2 (fun p q => plain (fst p) /\ ~ In ","%char (snd p) /\ text_value strtod (snd p) = Some (snd q) /\ fst q = fst p) l al ->
  l <> [] -> length l <= S fuel ->
  process_loop strtod fuel s (args_text l) = add_pairs s al.
Proof.
  revert al. induction l as [|[n v] l IH]; intros al fuel s HF Hne Hf; [congruence|].
  inversion HF as [|p [n' a] l' al' (H1 & H2 & H3 & H4) HF' E1 E2]; subst; clear HF. simpl in H1, H2, H3, H4. subst n'. destruct l as [|p2 l].
  - inversion HF'; subst. simpl args_text. simpl add_pairs.
    replace (obind (args_add s (val_make n a)) (fun s' : Args => Ok s')) with (args_add s (val_make n a)) by (destruct (args_add s (val_make n a)); reflexivity).
    destruct fuel; simpl process_loop.
    + now apply (addByString_pair strtod s n v a).
    + rewrite split_at_none. { now apply (addByString_pair strtod s n v a). }
      rewrite in_app_iff. intros [K|[K|K]]; auto; [|discriminate]. destruct H1 as (_ & _ & H1 & _). now apply H1.
  - change (args_text ((n, v) :: p2 :: l)) with (n ++ ["="%char] ++ v ++ [","%char] ++ args_text (p2 :: l)).
    destruct fuel as [|fuel]; [simpl in Hf; lia|]. cbn [process_loop]. rewrite (split_text n v H1 H2).
    rewrite (addByString_pair strtod s n v a H1 H3). simpl add_pairs.
    destruct (args_add s (val_make n a)) as [s1| |]; cbn [obind]; auto.
    apply IH; auto; [discriminate|simpl in *; lia].
Qed.

Lemma args_text_nospace l : (forall p, In p l -> ~ In " "%char (fst p) /\ ~ In " "%char (snd p)) -> ~ In " "%char (args_text l).
Proof.
  induction l as [|[n v] l IH]; intros H; [simpl; tauto|].
  destruct (H (n, v)) as [H1 H2]; [now left|]. simpl in H1, H2.
  assert (H' : ~ In " "%char (args_text l)) by (apply IH; intros p Hp; apply H; now right).
  destruct l as [|p2 l].
  - cbn [args_text]. rewrite !in_app_iff. intros [K|[[K|[]]|K]]; auto; discriminate.
  - change (args_text ((n, v) :: p2 :: l)) with (n ++ ["="%char] ++ v ++ [","%char] ++ args_text (p2 :: l)).
    rewrite !in_app_iff. intros [K|[[K|[]]|[K|[[K|[]]|K]]]]; auto; discriminate.
Qed.
Lemma args_text_length l : (forall p, In p l -> plain (fst p)) -> length l <= length (args_text l).
Proof.
  induction l as [|[n v] l IH]; intros H; [simpl; lia|].
  assert (IH' : length l <= length (args_text l)) by (apply IH; intros p Hp; apply H; now right).
  destruct l as [|p2 l].
  - cbn [args_text]. rewrite !app_length. cbn [length]. lia.
  - change (args_text ((n, v) :: p2 :: l)) with (n ++ ["="%char] ++ v ++ [","%char] ++ args_text (p2 :: l)).
    rewrite !app_length. cbn [length] in *. lia.
Qed.
