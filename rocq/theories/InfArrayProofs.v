From Coq Require Import List Arith Bool Lia.
From Verif Require Import Util InfArrayModel InfArraySpec.
Import ListNotations.
Local Arguments Nat.sub : simpl never.

Section P.
Context {T : Type}.
Variable A : nat.
Variable d : T.

Definition content (b : list T) (l : list (option T)) : Prop :=
  forall i x, nth_error l i = Some (Some x) -> nth_error b i = Some x.

(** Good: data_ where setDataPtr would put it *)
Definition Good (s : IA T) (l : list (option T)) : Prop :=
  ia_size s = length l /\ length (ia_arr s) = A /\
  ((length l <= A /\ ia_ptr s = PArr /\ content (ia_arr s) l) \/
   (A < length l /\ ia_ptr s = PVec /\ length (ia_vec s) = length l /\ content (ia_vec s) l)).
(** Boundary: exactly A elements, still in the vector *)
Definition Bound (s : IA T) (l : list (option T)) : Prop :=
  ia_size s = length l /\ length (ia_arr s) = A /\
  length l = A /\ ia_ptr s = PVec /\ length (ia_vec s) = length l /\ content (ia_vec s) l.

Lemma content_get b l i x : content b l -> nth_error l i = Some (Some x) -> oget b i = Ok x.
Proof. intros H E. unfold oget. now rewrite (H i x E). Qed.

Lemma Good_shows s l : Good s l -> shows s l.
Proof.
  intros (HS & HA & [(Hl & HP & HC)|(Hl & HP & HV & HC)]); split; auto; intros i x E;
    unfold ia_get, ia_buf; rewrite HP; cbn [obind]; eapply content_get; eauto.
Qed.
Lemma Bound_shows s l : Bound s l -> shows s l.
Proof.
  intros (HS & HA & Hl & HP & HV & HC); split; auto; intros i x E;
    unfold ia_get, ia_buf; rewrite HP; cbn [obind]; eapply content_get; eauto.
Qed.

Lemma nth_error_len {X} (l : list X) i x : nth_error l i = Some x -> i < length l.
Proof. intros E. apply nth_error_Some. congruence. Qed.

Lemma content_app b l v : length b = length l -> content b l -> content (b ++ [v]) (l ++ [Some v]).
Proof.
  intros HL HC i x E. destruct (Nat.lt_ge_cases i (length l)).
  - rewrite nth_error_app1 in E by auto. rewrite nth_error_app1 by lia. auto.
  - rewrite nth_error_app2 in E by auto. rewrite nth_error_app2 by lia. rewrite HL.
    destruct (i - length l); simpl in *; [congruence|]. destruct n; discriminate.
Qed.

Lemma content_upd b l i v : length l <= length b -> content b l -> content (upd i v b) (upd i (Some v) l).
Proof.
  intros HL HC j x E. pose proof (nth_error_len _ _ _ E) as Hj. rewrite upd_length in Hj.
  destruct (Nat.eq_dec j i) as [->|Hne].
  - rewrite nth_error_upd_eq in E by lia. rewrite nth_error_upd_eq by lia. congruence.
  - rewrite nth_error_upd_neq in E by auto. rewrite nth_error_upd_neq by auto. auto.
Qed.

Lemma content_fill b n v : content (repeat v n ++ skipn n b) (repeat (Some v) n).
Proof.
  intros i x E. pose proof (nth_error_len _ _ _ E) as Hi. rewrite repeat_length in Hi.
  rewrite nth_error_app1 by (rewrite repeat_length; lia).
  assert (K : In (Some x) (repeat (Some v) n)) by (eapply nth_error_In; eauto).
  apply repeat_spec in K. inversion K; subst. now rewrite nth_error_repeat.
Qed.

Lemma nth_error_firstn {X} (l : list X) n i : i < n -> nth_error (firstn n l) i = nth_error l i.
Proof.
  revert n i. induction l as [|y l IH]; intros [|n] [|i] H; simpl; auto; try lia. apply IH. lia.
Qed.
Lemma nth_error_skipn {X} (l : list X) n i : nth_error (skipn n l) i = nth_error l (n + i).
Proof.
  revert n. induction l as [|y l IH]; intros [|n]; simpl; auto. - now destruct i.
Qed.

(** an entry of the resized list that is specified is an entry of the old one *)
Lemma resized_entry (l : list (option T)) n i x :
  nth_error (firstn n l ++ repeat None (n - length l)) i = Some (Some x) -> i < n /\ nth_error l i = Some (Some x).
Proof.
  intros E. destruct (Nat.lt_ge_cases i (length (firstn n l))) as [H|H].
  - rewrite nth_error_app1 in E by auto. rewrite firstn_length in H.
    rewrite nth_error_firstn in E by lia. split; [lia|auto].
  - rewrite nth_error_app2 in E by auto. apply nth_error_In in E. apply repeat_spec in E. discriminate.
Qed.
Lemma resized_length {X} (l : list X) n y : length (firstn n l ++ repeat y (n - length l)) = n.
Proof. rewrite app_length, firstn_length, repeat_length. lia. Qed.

Lemma copy_into_length n (src dst : list T) : n <= length src -> n <= length dst -> length (copy_into n src dst) = length dst.
Proof. intros. unfold copy_into. rewrite app_length, firstn_length, skipn_length. lia. Qed.
Lemma copy_into_nth n (src dst : list T) i : n <= length src -> i < n -> nth_error (copy_into n src dst) i = nth_error src i.
Proof.
  intros. unfold copy_into. rewrite nth_error_app1 by (rewrite firstn_length; lia). apply nth_error_firstn. auto.
Qed.

Lemma Good_resize s l n : Good s l -> Good (ia_resize A d n s) (firstn n l ++ repeat None (n - length l)).
Proof.
  intros (HS & HA & H). unfold ia_resize. unfold Good.
  rewrite resized_length.
  destruct (Nat.ltb_spec A n) as [Hn|Hn].
  - cbn [ia_size ia_arr ia_vec ia_ptr]. split; [auto|split; [auto|]]. right. split; [auto|split; [auto|]].
    assert (HL1 : length (vec_resize d n (ia_vec s)) = n) by apply resized_length.
    destruct (Nat.leb_spec (ia_size s) A) as [Hs|Hs].
    + destruct H as [(Hl & HP & HC)|(Hl & _)]; [|lia].
      split; [rewrite copy_into_length; lia|].
      intros i x E. apply resized_entry in E as [Hi E]. pose proof (nth_error_len _ _ _ E).
      rewrite copy_into_nth by lia. auto.
    + destruct H as [(Hl & _)|(Hl & HP & HV & HC)]; [lia|].
      split; [auto|]. intros i x E. apply resized_entry in E as [Hi E]. pose proof (nth_error_len _ _ _ E).
      unfold vec_resize. rewrite nth_error_app1 by (rewrite firstn_length; lia).
      rewrite nth_error_firstn by auto. auto.
  - cbn [ia_size ia_arr ia_vec ia_ptr]. split; [auto|].
    destruct (Nat.ltb_spec A (ia_size s)) as [Hs|Hs].
    + destruct H as [(Hl & _)|(Hl & HP & HV & HC)]; [lia|].
      split; [rewrite copy_into_length; lia|]. left. split; [auto|split; [auto|]].
      intros i x E. apply resized_entry in E as [Hi E]. rewrite copy_into_nth by lia. auto.
    + destruct H as [(Hl & HP & HC)|(Hl & _)]; [|lia].
      split; [auto|]. left. split; [auto|split; [auto|]].
      intros i x E. apply resized_entry in E as [Hi E]. auto.
Qed.

Lemma Good_set s l i v : Good s l -> i < length l -> exists s', ia_set s i v = Ok s' /\ Good s' (upd i (Some v) l).
Proof.
  intros (HS & HA & H) Hi. unfold ia_set, ia_buf, with_buf, oupd.
  destruct H as [(Hl & HP & HC)|(Hl & HP & HV & HC)]; rewrite HP; cbn [obind].
  - destruct (Nat.ltb_spec i (length (ia_arr s))); [|lia]. cbn [obind]. eexists; split; [reflexivity|].
    unfold Good; cbn [ia_size ia_arr ia_vec ia_ptr]. rewrite !upd_length. split; [auto|split; [auto|]]. left.
    split; [auto|split; [auto|]]. apply content_upd; auto. lia.
  - destruct (Nat.ltb_spec i (length (ia_vec s))); [|lia]. cbn [obind]. eexists; split; [reflexivity|].
    unfold Good; cbn [ia_size ia_arr ia_vec ia_ptr]. rewrite !upd_length. split; [auto|split; [auto|]]. right.
    split; [auto|split; [auto|split; [auto|]]]. apply content_upd; auto. lia.
Qed.

Lemma Good_fill s l v : Good s l -> exists s', ia_fill v s = Ok s' /\ Good s' (repeat (Some v) (length l)).
Proof.
  intros (HS & HA & H). unfold ia_fill, ia_buf, with_buf.
  destruct H as [(Hl & HP & HC)|(Hl & HP & HV & HC)]; rewrite HP; cbn [obind].
  - destruct (Nat.leb_spec (ia_size s) (length (ia_arr s))); [|lia]. eexists; split; [reflexivity|].
    unfold Good; cbn [ia_size ia_arr ia_vec ia_ptr]. rewrite repeat_length, app_length, repeat_length, skipn_length.
    split; [auto|split; [lia|]]. left. split; [auto|split; [auto|]]. rewrite HS. apply content_fill.
  - destruct (Nat.leb_spec (ia_size s) (length (ia_vec s))); [|lia]. eexists; split; [reflexivity|].
    unfold Good; cbn [ia_size ia_arr ia_vec ia_ptr]. rewrite repeat_length, app_length, repeat_length, skipn_length.
    split; [auto|split; [auto|]]. right. split; [auto|split; [auto|split; [lia|]]]. rewrite HS. apply content_fill.
Qed.

Lemma resize_any_Good s n : length (ia_arr s) = A -> n <= length (ia_arr s) \/ A < n ->
  (A < ia_size s -> length (ia_vec s) >= A) -> ia_size s <= A \/ length (ia_vec s) = ia_size s ->
  Good (ia_resize A d n s) (repeat None n).
Proof.
  intros HA Hn HV HV'. unfold ia_resize, Good. rewrite repeat_length.
  assert (HC : forall b, content b (repeat None n)).
  { intros b i x E. apply nth_error_In in E. apply repeat_spec in E. discriminate. }
  destruct (Nat.ltb_spec A n) as [H|H]; cbn [ia_size ia_arr ia_vec ia_ptr].
  - split; [auto|split; [auto|]]. right. split; [auto|split; [auto|split; [|apply HC]]].
    assert (HL1 : length (vec_resize d n (ia_vec s)) = n) by apply resized_length.
    destruct (Nat.leb_spec (ia_size s) A); auto. rewrite copy_into_length; lia.
  - split; [auto|]. destruct (Nat.ltb_spec A (ia_size s)).
    + split; [rewrite copy_into_length; lia|]. left. split; [auto|split; auto; apply HC].
    + split; [auto|]. left. split; [auto|split; auto; apply HC].
Qed.

Lemma Good_assign s l n v : Good s l \/ Bound s l -> exists s', ia_assign A d n v s = Ok s' /\ Good s' (repeat (Some v) n).
Proof.
  intros H. unfold ia_assign.
  assert (HG : Good (ia_resize A d n s) (repeat None n)).
  { destruct H as [(HS & HA & H)|(HS & HA & Hl & HP & HV & HC)]; apply resize_any_Good; auto; try lia.
    all: destruct H as [(Hl & HP & HC)|(Hl & HP & HV & HC)]; lia. }
  destruct (Good_fill _ _ v HG) as (s' & E & HG'). rewrite repeat_length in HG'. eauto.
Qed.

Lemma Good_copy s l : Good s l -> Good (ia_copy A s) l.
Proof.
  intros (HS & HA & H). unfold ia_copy, ptr_for, Good; cbn [ia_size ia_arr ia_vec ia_ptr].
  split; [auto|split; [auto|]].
  destruct H as [(Hl & HP & HC)|(Hl & HP & HV & HC)]; [left|right]; split; auto;
    destruct (Nat.leb_spec (ia_size s) A); try lia; auto.
Qed.

Lemma Good_push s l v : Good s l -> exists s', ia_push A d v s = Ok s' /\ Good s' (l ++ [Some v]).
Proof.
  intros HG. pose proof HG as (HS & HA & H). unfold ia_push.
  destruct (Nat.ltb_spec (ia_size s) A) as [H1|H1].
  - destruct H as [(Hl & HP & HC)|(Hl & _)]; [|lia]. unfold oupd.
    destruct (Nat.ltb_spec (ia_size s) (length (ia_arr s))); [|lia]. cbn [obind].
    eexists; split; [reflexivity|]. unfold Good; cbn [ia_size ia_arr ia_vec ia_ptr].
    rewrite app_length, upd_length. simpl length. split; [lia|split; [auto|]]. left. split; [lia|split; [auto|]].
    intros i x E. destruct (Nat.lt_ge_cases i (length l)).
    + rewrite nth_error_app1 in E by auto. rewrite nth_error_upd_neq by lia. auto.
    + rewrite nth_error_app2 in E by auto. destruct (i - length l) as [|k] eqn:Ek; [|destruct k; discriminate].
      simpl in E. inversion E; subst. assert (i = ia_size s) by lia. subst. rewrite nth_error_upd_eq by lia. auto.
  - destruct (Nat.eqb_spec (ia_size s) A) as [H2|H2].
    + cbv zeta. pose proof (Good_resize s l (S (ia_size s)) HG) as HG'.
      destruct (Good_set _ _ (ia_size (ia_resize A d (S (ia_size s)) s) - 1) v HG') as (s' & E & HG2).
      { destruct HG' as (HS' & _). rewrite HS'. rewrite resized_length. lia. }
      exists s'. split; [auto|].
      destruct HG' as (HS' & _). rewrite HS', resized_length in HG2.
      replace (S (ia_size s) - 1) with (length l) in HG2 by lia.
      rewrite firstn_all2 in HG2 by lia. replace (S (ia_size s) - length l) with 1 in HG2 by lia. simpl repeat in HG2.
      rewrite upd_middle in HG2. exact HG2.
    + destruct H as [(Hl & _)|(Hl & HP & HV & HC)]; [lia|]. eexists; split; [reflexivity|].
      unfold Good; cbn [ia_size ia_arr ia_vec ia_ptr]. rewrite !app_length. simpl length.
      split; [lia|split; [auto|]]. right. split; [lia|split; [auto|split; [lia|]]]. apply content_app; auto.
Qed.

Lemma Good_clear s : length (ia_arr s) = A -> Good (ia_clear s) [].
Proof.
  intros HA. unfold Good, ia_clear; simpl. split; [auto|split; [auto|]]. left. split; [lia|split; [auto|]].
  intros i x E. destruct i; discriminate.
Qed.

Lemma shift_down_length k : forall i (a : list T), length (shift_down k i a) = length a.
Proof.
  induction k as [|k IH]; intros i a; cbn [shift_down]; auto. destruct (nth_error a (S i)); auto.
  rewrite IH. apply upd_length.
Qed.
Lemma shift_down_nth k : forall i (a : list T) j, i + k < length a ->
  nth_error (shift_down k i a) j = if (i <=? j) && (j <? i + k) then nth_error a (S j) else nth_error a j.
Proof.
  induction k as [|k IH]; intros i a j Hk; cbn [shift_down].
  - destruct (Nat.leb_spec i j), (Nat.ltb_spec j (i + 0)); simpl; auto; lia.
  - destruct (nth_error a (S i)) as [y|] eqn:Ey; [|apply nth_error_None in Ey; lia].
    rewrite IH by (rewrite upd_length; lia).
    destruct (Nat.eq_dec j i) as [->|Hne].
    + destruct (Nat.leb_spec (S i) i), (Nat.leb_spec i i), (Nat.ltb_spec i (i + S k)); cbn [andb]; try lia.
      rewrite nth_error_upd_eq by lia. auto.
    + destruct (Nat.leb_spec (S i) j), (Nat.leb_spec i j), (Nat.ltb_spec j (S i + k)), (Nat.ltb_spec j (i + S k)); cbn [andb]; try lia; rewrite nth_error_upd_neq by lia; auto.
Qed.

Lemma remove_nth_length {X} i (l : list X) : i < length l -> length (remove_nth i l) = length l - 1.
Proof. intros. unfold remove_nth. rewrite app_length, firstn_length, skipn_length. lia. Qed.
Lemma remove_nth_nth {X} i (l : list X) j : i < length l ->
  nth_error (remove_nth i l) j = if j <? i then nth_error l j else nth_error l (S j).
Proof.
  intros H. unfold remove_nth. destruct (Nat.ltb_spec j i).
  - rewrite nth_error_app1 by (rewrite firstn_length; lia). apply nth_error_firstn. auto.
  - rewrite nth_error_app2 by (rewrite firstn_length; lia). rewrite firstn_length.
    rewrite nth_error_skipn. f_equal. lia.
Qed.

Lemma Good_erase s l i : Good s l -> i < length l ->
  exists s', ia_erase A i s = Ok s' /\
    (if length l =? S A then Bound s' (remove_nth i l) else Good s' (remove_nth i l)).
Proof.
  intros (HS & HA & H) Hi. unfold ia_erase.
  destruct H as [(Hl & HP & HC)|(Hl & HP & HV & HC)]; rewrite HP.
  - destruct (Nat.leb_spec (ia_size s) A); [|lia]. destruct (Nat.ltb_spec i (ia_size s)); [|lia].
    eexists; split; [reflexivity|]. destruct (Nat.eqb_spec (length l) (S A)); [lia|].
    unfold Good; cbn [ia_size ia_arr ia_vec ia_ptr]. rewrite remove_nth_length, shift_down_length by auto.
    split; [lia|split; [auto|]]. left. split; [lia|split; [auto|]].
    intros j x E. pose proof (nth_error_len _ _ _ E) as Hj. rewrite remove_nth_length in Hj by auto.
    rewrite remove_nth_nth in E by auto. rewrite shift_down_nth by lia.
    destruct (Nat.ltb_spec j i), (Nat.leb_spec i j), (Nat.ltb_spec j (i + (ia_size s - 1 - i))); cbn [andb]; try lia; auto.
  - destruct (Nat.leb_spec (ia_size s) A); [lia|]. destruct (Nat.ltb_spec i (length (ia_vec s))); [|lia].
    eexists; split; [reflexivity|].
    assert (HC' : content (remove_nth i (ia_vec s)) (remove_nth i l)).
    { intros j x E. rewrite remove_nth_nth in E by lia. rewrite remove_nth_nth by lia. destruct (j <? i); auto. }
    destruct (Nat.eqb_spec (length l) (S A)).
    + unfold Bound; cbn [ia_size ia_arr ia_vec ia_ptr]. rewrite !remove_nth_length by lia.
      repeat split; auto; lia.
    + unfold Good; cbn [ia_size ia_arr ia_vec ia_ptr]. rewrite !remove_nth_length by lia.
      split; [lia|split; [auto|]]. right. repeat split; auto; lia.
Qed.

Lemma Bound_set s l i v : Bound s l -> i < length l -> exists s', ia_set s i v = Ok s' /\ Bound s' (upd i (Some v) l).
Proof.
  intros (HS & HA & Hl & HP & HV & HC) Hi. unfold ia_set, ia_buf, with_buf, oupd. rewrite HP; cbn [obind].
  destruct (Nat.ltb_spec i (length (ia_vec s))); [|lia]. cbn [obind]. eexists; split; [reflexivity|].
  unfold Bound; cbn [ia_size ia_arr ia_vec ia_ptr]. rewrite !upd_length. repeat split; auto.
  apply content_upd; auto. lia.
Qed.
Lemma Bound_fill s l v : Bound s l -> exists s', ia_fill v s = Ok s' /\ Bound s' (repeat (Some v) (length l)).
Proof.
  intros (HS & HA & Hl & HP & HV & HC). unfold ia_fill, ia_buf, with_buf. rewrite HP; cbn [obind].
  destruct (Nat.leb_spec (ia_size s) (length (ia_vec s))); [|lia]. eexists; split; [reflexivity|].
  unfold Bound; cbn [ia_size ia_arr ia_vec ia_ptr]. rewrite repeat_length, app_length, repeat_length, skipn_length.
  repeat split; auto; try lia. rewrite HS. apply content_fill.
Qed.

Definition St (b : bool) s l := if b then Bound s l else Good s l.

Lemma run_step junk op s l l' b : St b s l -> list_step op l = Some l' ->
  (b = true -> is_write op = true \/ is_reset op = true) ->
  exists s', run_ia A d junk op s = Ok s' /\
    St (match op with OErase _ => length l =? S A | OFill _ | OSet _ _ => b | _ => false end) s' l'.
Proof.
  intros HS HL HB. destruct b; simpl in HS.
  - destruct op; simpl in HL; destruct (HB eq_refl) as [K|K]; try discriminate; simpl; try (injection HL as <-).
    + apply (Good_assign s l). auto.
    + apply Bound_fill; auto.
    + eexists; split; [reflexivity|]. apply Good_clear. apply HS.
    + destruct (Nat.ltb_spec i (length l)) as [Hi|]; [|discriminate]. injection HL as <-. apply Bound_set; auto.
  - destruct op; simpl in HL; simpl; try (injection HL as <-).
    + apply Good_push; auto.
    + destruct (Nat.ltb_spec i (length l)) as [Hi|]; [|discriminate]. injection HL as <-.
      destruct (Good_erase s l i HS) as (s' & E & K); auto. exists s'. split; [auto|]. exact K.
    + eexists; split; [reflexivity|]. now apply Good_resize.
    + apply (Good_assign s l). auto.
    + apply Good_fill; auto.
    + eexists; split; [reflexivity|]. apply Good_clear. apply HS.
    + destruct (Nat.ltb_spec i (length l)) as [Hi|]; [|discriminate]. injection HL as <-. apply Good_set; auto.
    + eexists; split; [reflexivity|]. now apply Good_copy.
    + eexists; split; [reflexivity|]. now apply Good_copy.
Qed.

Lemma run_steps junk ops : forall s l l' b, St b s l -> list_steps ops l = Some l' -> avoids A b ops l ->
  exists s' b', run_ias A d junk ops s = Ok s' /\ St b' s' l'.
Proof.
  induction ops as [|op ops IH]; intros s l l' b HS HL HA; simpl in *.
  - inversion HL; subst. eauto.
  - destruct (list_step op l) as [l1|] eqn:E1; [|discriminate]. destruct HA as [HA1 HA2].
    destruct (run_step junk op s l l1 b HS E1 HA1) as (s1 & E & HS1). rewrite E. cbn [obind].
    eapply IH; eauto.
Qed.

Lemma St_shows b s l : St b s l -> shows s l.
Proof. destruct b; [apply Bound_shows|apply Good_shows]. Qed.

Lemma Good_new junk n : length junk = A -> Good (ia_new A d junk n) (repeat None n).
Proof.
  intros HJ. unfold ia_new, Good. rewrite repeat_length.
  assert (HC : forall b, content b (repeat None n)).
  { intros b i x E. apply nth_error_In in E. apply repeat_spec in E. discriminate. }
  destruct (Nat.leb_spec n A); simpl; (split; [auto|split; [auto|]]).
  - left. split; [auto|split; auto; apply HC].
  - right. rewrite repeat_length. split; [lia|split; [auto|split; auto; apply HC]].
Qed.

Lemma Good_list junk l : length junk = A -> Good (ia_list A junk l) (map Some l).
Proof.
  intros HJ. unfold ia_list, Good. rewrite map_length. cbv zeta.
  destruct (Nat.leb_spec (length l) A); cbn [ia_size ia_arr ia_vec ia_ptr].
  - rewrite copy_into_length by lia. split; [auto|split; [auto|]]. left. split; [auto|split; [auto|]].
    intros i x E. rewrite nth_error_map in E. destruct (nth_error l i) eqn:Ei; [|discriminate].
    simpl in E. inversion E; subst. rewrite copy_into_nth; auto. eapply nth_error_len; eauto.
  - split; [auto|split; [auto|]]. right. split; [lia|split; [auto|split; [auto|]]].
    intros i x E. rewrite nth_error_map in E. destruct (nth_error l i) eqn:Ei; [|discriminate]. simpl in E. congruence.
Qed.

Lemma shows_full (s : IA T) (l : list T) : shows s (map Some l) <-> ia_size s = length l /\ forall i x, nth_error l i = Some x -> ia_get s i = Ok x.
Proof.
  unfold shows. rewrite map_length. split; intros [H1 H2]; (split; [auto|]); intros i x E.
  - apply H2. now rewrite nth_error_map, E.
  - rewrite nth_error_map in E. destruct (nth_error l i) eqn:Ei; [|discriminate]. simpl in E. inversion E; subst. auto.
Qed.

Lemma eq_loop_spec (eqb : T -> T -> bool) (Heq : forall x y, eqb x y = true <-> x = y) (s t : IA T) (l m : list T) :
  (forall i x, nth_error l i = Some x -> ia_get s i = Ok x) ->
  (forall i x, nth_error m i = Some x -> ia_get t i = Ok x) -> length l = length m ->
  forall k i, i + k = length l ->
  exists b, ia_eq_loop eqb k i s t = Ok b /\ (b = true <-> skipn i l = skipn i m).
Proof.
  intros Hs Ht HL. induction k as [|k IH]; intros i Hk; simpl.
  - exists true. split; auto. split; auto. intros _. rewrite !skipn_all2; auto; lia.
  - destruct (nth_error l i) as [x|] eqn:Ex; [|apply nth_error_None in Ex; lia].
    destruct (nth_error m i) as [y|] eqn:Ey; [|apply nth_error_None in Ey; lia].
    rewrite (Hs i x Ex), (Ht i y Ey). cbn [obind].
    assert (Sl : skipn i l = x :: skipn (S i) l).
    { clear - Ex. revert i Ex. induction l as [|z l IH]; intros [|i] Ex; simpl in *; try discriminate; try congruence. apply IH; auto. }
    assert (Sm : skipn i m = y :: skipn (S i) m).
    { clear - Ey. revert i Ey. induction m as [|z l IH]; intros [|i] Ey; simpl in *; try discriminate; try congruence. apply IH; auto. }
    rewrite Sl, Sm. destruct (eqb x y) eqn:Exy.
    + apply Heq in Exy. subst. destruct (IH (S i)) as (b & E & Hb); [lia|]. exists b. split; auto.
      rewrite Hb. split; [congruence|intros K; inversion K; auto].
    + exists false. split; auto. split; [discriminate|]. intros K. inversion K; subst.
      assert (eqb y y = true) by now apply Heq. congruence.
Qed.
End P.
