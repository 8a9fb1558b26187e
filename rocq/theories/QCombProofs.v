(** Combining and uncombining the indices of a tensor with quantum numbers: elements. *)
From Coq Require Import List ZArith Lia Bool Arith Permutation Sorted.
From Verif Require Import Util RangeModel RangeSpec RangeProofs RangeProps TensorModel TensorSpec TensorProofs SemProofs
  ContractModel DenseModel DenseProofs QnModel QdModel QdSpec QdProofs QdAdd CombinerModel CombinerProps QCombModel QCombTable.
Import ListNotations.
Open Scope outcome_scope.
Local Arguments Nat.sub : simpl never.

Lemma range_init_contiguous e : (forall d, In d e -> 0 < d) -> isContiguous (range_init e) = true.
Proof.
  intros H. unfold isContiguous. apply Nat.eqb_eq. rewrite dim_size. unfold range_init. rewrite map_ext_range_init.
  assert (G : forall e s, (forall d, In d e -> 0 < d) -> max_offset (with_strides s e) = s * (size e - 1)).
  { clear. induction e as [|d e IH]; intros s H; cbn; [lia|]. rewrite IH by (intros; apply H; now right).
    assert (0 < d) by (apply H; now left). assert (K : 0 < size e) by (apply size_pos; intros; apply H; now right). clear - H0 K. destruct d as [|d]; [lia|]. destruct (size e) as [|m]; [lia|]. cbn [Nat.mul]. nia. }
  rewrite G by auto. pose proof (size_pos e H). lia.
Qed.
Lemma fold_left_mul : forall l a, fold_left Nat.mul l a = a * size l.
Proof. induction l as [|x l IH]; intros a; cbn; [lia|]. rewrite IH. nia. Qed.
Lemma group_spec e1 e2 e3 : (forall d, In d (e1 ++ e2 ++ e3) -> 0 < d) ->
  groupIndsRange (range_init (e1 ++ e2 ++ e3)) (length e1) (length e1 + length e2) = Ok (range_init (e1 ++ [size e2] ++ e3)).
Proof.
  intros H. unfold groupIndsRange. rewrite range_init_contiguous by auto.
  replace (map ext (range_init (e1 ++ e2 ++ e3))) with (e1 ++ e2 ++ e3) by (symmetry; apply map_ext_range_init). cbv zeta.
  rewrite fold_left_mul, Nat.mul_1_l. do 2 f_equal.
  replace (length e1 + length e2 - length e1) with (length e2) by lia.
  rewrite firstn_app, firstn_all, Nat.sub_diag. cbn [firstn]. rewrite app_nil_r. f_equal.
  rewrite skipn_app, skipn_all, Nat.sub_diag. cbn [skipn app]. rewrite firstn_app, firstn_all, Nat.sub_diag. cbn [firstn]. rewrite app_nil_r. f_equal.
  rewrite skipn_app, skipn_all2 by lia. cbn [app]. replace (length e1 + length e2 - length e1) with (length e2) by lia.
  rewrite skipn_app, skipn_all, Nat.sub_diag. reflexivity.
Qed.
Lemma list_sum_cons n l : list_sum (n :: l) = n + list_sum l.
Proof. reflexivity. Qed.
Lemma blk_sum : forall l n p, n < length l -> p < nth n l 0 ->
  blk l (list_sum (firstn n l) + p) = n /\ pos l (list_sum (firstn n l) + p) = p /\ list_sum (firstn n l) + p < list_sum l.
Proof.
  induction l as [|m l IH]; intros [|n] p Hn Hp; cbn [length nth firstn blk pos] in *; try lia.
  - change (list_sum []) with 0. rewrite !Nat.add_0_l. destruct (Nat.ltb_spec p m); [|lia]. rewrite list_sum_cons. repeat split; lia.
  - rewrite !list_sum_cons. destruct (IH n p ltac:(lia) Hp) as (H1 & H2 & H3).
    destruct (Nat.ltb_spec (m + list_sum (firstn n l) + p) m); [lia|].
    replace (m + list_sum (firstn n l) + p - m) with (list_sum (firstn n l) + p) by lia. rewrite H1, H2. repeat split; lia.
Qed.

Section Writes.
Context {R : Type} (r0 : R).
(** Assigning to a view of the elements o..o+len-1. *)
Lemma write_view e rf (from : list R) rt (dst : list R) o len :
  map ext rf = e -> map ext rt = e -> (forall d, In d e -> 0 < d) -> o + len <= length dst ->
  (forall t, valid e t -> dot rf t < length from) -> (forall t, valid e t -> dot rt t < len) ->
  (forall t t', valid e t -> valid e t' -> dot rt t = dot rt t' -> t = t') ->
  exists sn sn', segment o len dst = Ok sn /\ tassign rf from rt sn = Ok sn' /\ length (put_seg o sn' dst) = length dst /\
    (forall t, valid e t -> nth (o + dot rt t) (put_seg o sn' dst) r0 = nth (dot rf t) from r0) /\
    (forall k, (forall t, valid e t -> o + dot rt t <> k) -> nth k (put_seg o sn' dst) r0 = nth k dst r0).
Proof.
  intros E1 E2 Hp Ho H1 H2 H3. rewrite segment_ok by exact Ho. eexists. 
  assert (LS : length (firstn len (skipn o dst)) = len) by (rewrite firstn_length, skipn_length; lia).
  destruct (transform_spec (fun b _ : R => b) r0 r0 e rf from rt (firstn len (skipn o dst)) E1 E2 Hp H1) as (sn' & E & L & V & U).
  { intros t Ht. rewrite LS. auto. } { exact H3. }
  exists sn'. split; [reflexivity|]. split; [exact E|]. rewrite LS in L.
  assert (LP : length (put_seg o sn' dst) = length dst).
  { unfold put_seg. rewrite !app_length, firstn_length, skipn_length. lia. }
  split; [exact LP|]. split.
  - intros t Ht. rewrite put_seg_nth by lia. specialize (H2 t Ht). destruct (Nat.leb_spec o (o + dot rt t)); [|lia].
    destruct (Nat.ltb_spec (o + dot rt t) (o + length sn')); [|lia]. cbn [andb]. replace (o + dot rt t - o) with (dot rt t) by lia. now apply V.
  - intros k Hk. rewrite put_seg_nth by lia. destruct (Nat.leb_spec o k); cbn [andb]; auto. destruct (Nat.ltb_spec k (o + length sn')); auto.
    rewrite U. { rewrite nth_firstn_lt by lia. rewrite nth_skipn. f_equal. lia. }
    intros t Ht Q. apply (Hk t Ht). lia.
Qed.
End Writes.

Section Tab.
Context {R : Type} (r0 : R).
Context {I : Type} (ieq : I -> I -> bool) (bs : I -> list nat).
Hypothesis ieq_spec : forall a b, ieq a b = true <-> a = b.
Notation nblocks := (nblocks bs).
Notation total := (total bs).
Notation proper := (proper bs).
Notation ranged := (ranged bs).
Notation blockof := (blockof bs).
Notation placeof := (placeof bs).
Notation qval := (qval r0 bs).
Notation sz := (sz bs).
Notation stored := (stored bs).
Notation bdim := (bdim bs).
Notation inpos := (inpos bs).
Notation inblk := (inblk bs).

Context (c : I) (cs : list I) (tab : list brange).
Notation e := (map nblocks cs).
Hypothesis Hcs : proper cs.
Hypothesis Hc : ~ In c cs.
Hypothesis T0 : length tab = size e.
Hypothesis T1 : forall k, k < size e -> tblk tab k < length (bs c) /\ tex tab k = sz cs (decode e k) /\ tst tab k + tex tab k <= nth (tblk tab k) (bs c) 0.
Hypothesis T2 : forall k k', k < k' -> k' < size e -> tblk tab k = tblk tab k' -> tst tab k + tex tab k <= tst tab k'.
Hypothesis T3 : forall n p, n < length (bs c) -> p < nth n (bs c) 0 -> exists k, k < size e /\ tblk tab k = n /\ tst tab k <= p < tst tab k + tex tab k.

(** Which combination of blocks, and which value of c. *)
Definition kof (s : I -> nat) : nat := enc e (blockof cs s).
Definition J (s : I -> nat) : nat := list_sum (firstn (tblk tab (kof s)) (bs c)) + (tst tab (kof s) + placeof cs s).
Notation withJ s := (override ieq s c (J s)).

Lemma kof_lt s : ranged cs s -> kof s < size e.
Proof. intros H. apply enc_lt, blockof_valid, H. Qed.
Lemma kof_block s : ranged cs s -> decode e (kof s) = blockof cs s.
Proof. intros H. apply decode_enc, blockof_valid, H. Qed.
Lemma kof_ext s s' : (forall x, In x cs -> s x = s' x) -> blockof cs s = blockof cs s' /\ kof s = kof s' /\ placeof cs s = placeof cs s' /\ J s = J s'.
Proof.
  intros H. destruct (place_eq bs cs s s') as [E1 E2]; [apply map_ext_in; auto|]. unfold J, kof. rewrite E1, E2. auto.
Qed.
Lemma J_spec s : ranged cs s -> blk (bs c) (J s) = tblk tab (kof s) /\ pos (bs c) (J s) = tst tab (kof s) + placeof cs s /\ J s < total c.
Proof.
  intros H. pose proof (kof_lt s H) as K. destruct (T1 _ K) as (A & B & C). pose proof (placeof_lt bs cs s H) as L.
  rewrite (kof_block s H) in B. unfold J. apply blk_sum; auto. lia.
Qed.
Lemma T2' k k' : k < size e -> k' < size e -> k <> k' -> tblk tab k = tblk tab k' ->
  forall p, tst tab k <= p < tst tab k + tex tab k -> ~ tst tab k' <= p < tst tab k' + tex tab k'.
Proof.
  intros Hk Hk' N E p Hp. destruct (Nat.lt_ge_cases k k') as [L|L].
  - specialize (T2 k k' L Hk' E). lia.
  - specialize (T2 k' k ltac:(lia) Hk (eq_sym E)). lia.
Qed.
Lemma J_in s : ranged cs s -> tst tab (kof s) <= pos (bs c) (J s) < tst tab (kof s) + tex tab (kof s).
Proof.
  intros H. destruct (J_spec s H) as (_ & -> & _). pose proof (placeof_lt bs cs s H) as L. destruct (T1 _ (kof_lt s H)) as (_ & B & _).
  rewrite (kof_block s H) in B. lia.
Qed.
Theorem J_inj s s' : ranged cs s -> ranged cs s' -> J s = J s' -> forall x, In x cs -> s x = s' x.
Proof.
  intros H H' E. destruct (J_spec s H) as (B & P & _). destruct (J_spec s' H') as (B' & P' & _). rewrite E in B, P.
  assert (K : kof s = kof s').
  { destruct (Nat.eq_dec (kof s) (kof s')) as [Q|Q]; auto. exfalso.
    apply (T2' (kof s) (kof s') (kof_lt s H) (kof_lt s' H') Q ltac:(congruence) (pos (bs c) (J s'))); [|now apply J_in].
    rewrite <- E. now apply J_in. }
  assert (EP : placeof cs s = placeof cs s') by (rewrite K in P; lia).
  assert (EB : blockof cs s = blockof cs s') by (rewrite <- !kof_block by auto; congruence).
  intros x Hx. apply (map_eq_in _ _ cs); auto. apply (place_inj bs cs s s'); auto.
Qed.
Lemma inblk_pos x b p : b < length (bs x) -> p < nth b (bs x) 0 -> exists v, v < total x /\ blk (bs x) v = b /\ pos (bs x) v = p.
Proof. intros Hb Hp. destruct (blk_sum (bs x) b p Hb Hp) as (A & B & C). eauto. Qed.

(** A choice of values in the given block at the given positions. *)
Lemma choose (is : list I) (beta p : I -> nat) : NoDup is -> (forall x, In x is -> beta x < length (bs x) /\ p x < nth (beta x) (bs x) 0) ->
  forall s, exists s', ranged is s' /\ (forall x, In x is -> inblk s' x = beta x /\ inpos s' x = p x) /\ forall x, ~ In x is -> s' x = s x.
Proof.
  intros ND H s. exists (fun x => if in_dec (ieq_dec ieq ieq_spec) x is then list_sum (firstn (beta x) (bs x)) + p x else s x).
  split; [|split].
  - intros x Hx. destruct (in_dec _ x is); [|contradiction]. destruct (H x Hx). destruct (blk_sum (bs x) (beta x) (p x)) as (_ & _ & L); auto.
  - intros x Hx. unfold QdAdd.inblk, QdAdd.inpos. destruct (in_dec _ x is); [|contradiction]. destruct (H x Hx). destruct (blk_sum (bs x) (beta x) (p x)) as (A & B & L); auto.
  - intros x Hx. destruct (in_dec _ x is); [contradiction|reflexivity].
Qed.
Theorem J_surj v s : v < total c -> exists s', ranged cs s' /\ J s' = v /\ forall x, ~ In x cs -> s' x = s x.
Proof.
  intros Hv. destruct (blk_lt (bs c) v Hv) as [Hb Hp]. destruct (T3 _ _ Hb Hp) as (k & Hk & Ek & Ip).
  destruct (T1 k Hk) as (_ & Ex & _). pose proof (decode_valid e k Hk) as V.
  destruct (beta_of bs ieq ieq_spec cs (decode e k) (proj1 Hcs) V) as (beta & Eb). rewrite Eb in V, Ex.
  rewrite sz_beta, <- size_fold in Ex. set (q := pos (bs c) v - tst tab k). assert (Hq : q < size (map (bdim beta) cs)) by (unfold q; lia).
  pose proof (decode_valid (map (bdim beta) cs) q Hq) as V2.
  destruct (tuple_assign ieq (bdim beta) ieq_spec cs (decode (map (bdim beta) cs) q) (proj1 Hcs)) as (p & Ep); [rewrite decode_length, map_length; reflexivity|].
  apply inrange_valid in V. rewrite <- Ep in V2. apply inrange_valid in V2.
  destruct (choose cs beta p (proj1 Hcs)) with (s := s) as (s' & Hr & HB & HO).
  { intros x Hx. split; [apply V, Hx|apply V2, Hx]. }
  exists s'. split; [exact Hr|]. split; [|exact HO].
  assert (EB : blockof cs s' = map beta cs) by (rewrite blockof_inblk; apply map_ext_in; intros; now apply HB).
  assert (EK : kof s' = k) by (unfold kof; rewrite EB, <- Eb; now apply enc_decode).
  assert (EPl : placeof cs s' = q).
  { rewrite (place_beta bs cs beta s' EB), colmajor_enc.
    replace (map (inpos s') cs) with (map p cs) by (apply map_ext_in; intros; symmetry; now apply HB). rewrite Ep. now apply enc_decode. }
  apply (blk_pos_inj (bs c)); auto; [apply J_spec; auto| |]; destruct (J_spec s' Hr) as (A & B & _).
  - rewrite A, EK. exact Ek.
  - rewrite B, EK, EPl. unfold q. lia.
Qed.

(** ** writing part of a block: the pieces of two different elements *)
Lemma override_other s x : x <> c -> withJ s x = s x.
Proof. apply override_ne; auto. Qed.
Lemma withJ_c s : withJ s c = J s.
Proof. apply override_self; auto. Qed.
Lemma map_withJ {X} (f : I -> nat -> X) l s : ~ In c l -> map (fun x => f x (withJ s x)) l = map (fun x => f x (s x)) l.
Proof. intros H. apply map_ext_in. intros x Hx. rewrite override_other; auto. congruence. Qed.
Lemma blockof_withJ l s : ~ In c l -> blockof l (withJ s) = blockof l s.
Proof. intros H. unfold QdSpec.blockof. apply (map_withJ (fun x v => blk (bs x) v)); auto. Qed.

Lemma bdim_pos is beta x : proper is -> valid (map nblocks is) (map beta is) -> In x is -> 0 < bdim beta x.
Proof.
  intros [_ Hp] V Hx. unfold QdAdd.bdim. destruct (Hp x Hx) as [_ F]. rewrite Forall_forall in F. apply F. apply nth_In.
  apply inrange_valid in V. apply V. exact Hx.
Qed.

Lemma stored_same is (d : qd R) (S' : list R) : stored is d -> length S' = length (store d) -> stored is (mkQD (offs d) S').
Proof. intros [HF HS] L. split; cbn [offs store]; auto. rewrite L. exact HF. Qed.
Lemma stored_uniq is (d : qd R) b o o' : stored is d -> In (b, o) (offs d) -> In (b, o') (offs d) -> o = o'.
Proof.
  intros [_ HS] H H'. assert (E : (b, o) = (b, o')); [|congruence]. apply (sorted_key_uniq bs is (offs d)); auto.
Qed.
(** A write that stays inside block [tgt] and misses the place of s. *)
Lemma qval_kept is (d : qd R) (S' : list R) s tgt bo (W : nat -> Prop) : stored is d -> ranged is s -> length S' = length (store d) ->
  In (tgt, bo) (offs d) -> (forall k, W k -> k < sz is tgt) ->
  (forall k, (forall w, W w -> bo + w <> k) -> nth k S' r0 = nth k (store d) r0) ->
  (blockof is s = tgt -> ~ W (placeof is s)) ->
  qval is (mkQD (offs d) S') s = qval is d s.
Proof.
  intros HS Hr L Hin HW HK HN. pose proof (stored_nodup bs is d HS) as ND.
  destruct (block_dec (blockof is s) (offs d)) as [Hb|Hb].
  - apply in_fst in Hb as (o & Ho). rewrite (qval_in r0 bs is (mkQD (offs d) S') s o), (qval_in r0 bs is d s o) by auto. cbn [store]. apply HK. intros w Hw Q.
    specialize (HW w Hw). pose proof (placeof_lt bs is s Hr) as LP. destruct (list_eq_dec Nat.eq_dec (blockof is s) tgt) as [E|E].
    + assert (o = bo) by (rewrite E in Ho; eapply stored_uniq; eauto). subst o. apply (HN E). replace (placeof is s) with w by lia. exact Hw.
    + destruct (blocks_disjoint bs is (offs d) 0 (length (store d)) tgt bo (blockof is s) o) as [K|K]; auto; [apply HS|congruence| |]; lia.
  - rewrite !qval_notin; auto.
Qed.
Lemma offset_dot : forall r (i : list nat), length i = length r -> offset 0 r i = Ok (dot r i).
Proof. induction r as [|x r IH]; intros [|i t] H; cbn in *; try discriminate; auto. rewrite IH by auto. cbn. do 2 f_equal. f_equal. lia. Qed.
Lemma offset_enc (l : list I) b : length b = length l -> offset 0 (range_init (map (fun x => length (bs x)) l)) b = Ok (enc (map nblocks l) b).
Proof.
  intros H. rewrite offset_dot by (unfold range_init; rewrite with_strides_length, map_length; exact H).
  rewrite dot_range_init by (rewrite map_length; exact H). reflexivity.
Qed.
Lemma at_get_ok k : k < size e -> at_get tab k = Ok (nth k tab (0, 0, 0)).
Proof. intros H. unfold at_get. rewrite (nth_error_nth' tab (0, 0, 0)) by lia. reflexivity. Qed.
Lemma tab_split k : nth k tab (0, 0, 0) = (tblk tab k, tst tab k, tex tab k).
Proof. unfold tblk, tst, tex. destruct (nth k tab (0, 0, 0)) as [[? ?] ?]. reflexivity. Qed.

Section Combine.
Context (dis rem : list I) (P : perm).
Hypothesis Hd : proper dis.
Hypothesis HcD : ~ In c dis.
Hypothesis Hincl : incl cs dis.
Hypothesis ER : rest dis (map (fun x => find_pos ieq x cs) dis) (length cs) = (P, rem).
Notation N := (c :: rem).

Lemma rem_in x : In x rem <-> In x dis /\ ~ In x cs.
Proof.
  destruct (rest_spec _ c dis _ _ _ ER) as (-> & _ & _). rewrite filter_In. unfold outside. rewrite <- (find_pos_none ieq ieq_spec x cs).
  destruct (find_pos ieq x cs); split; intros [? ?]; split; auto; congruence.
Qed.
Lemma rem_nodup : NoDup rem.
Proof. destruct (rest_spec _ c dis _ _ _ ER) as (-> & _ & _). apply NoDup_filter. apply Hd. Qed.
Lemma csrem_nodup : NoDup (cs ++ rem).
Proof. apply NoDup_app_intro; [apply Hcs|apply rem_nodup|]. intros x K1 K2. apply rem_in in K2. tauto. Qed.
Lemma csrem_perm : Permutation (cs ++ rem) dis.
Proof.
  apply NoDup_Permutation; [apply csrem_nodup|apply Hd|]. intros x. rewrite in_app_iff, rem_in.
  destruct (in_dec (ieq_dec ieq ieq_spec) x cs); [|tauto]. split; auto.
Qed.
Lemma dis_through : dis = through P c (cs ++ rem) /\ is_perm (length (cs ++ rem)) P.
Proof.
  destruct (rest_spec _ c dis _ _ _ ER) as (En & Ep & ET). destruct (ET (cs ++ rem)) as [HT HF].
  { intros x k Hx E. destruct (find_pos_nth ieq ieq_spec x cs k c E) as [K1 K2]. rewrite app_length, app_nth1 by auto. split; [lia|exact K2]. }
  { rewrite app_length. lia. }
  { intros k Hk. rewrite app_nth2 by lia. f_equal. lia. }
  split; [auto|]. apply (perm_of_through P c dis (cs ++ rem)); auto; [apply Permutation_length, csrem_perm|apply Hd].
Qed.
Lemma find_pos_in x k : k < length cs -> nth k cs c = x -> find_pos ieq x cs = Some k.
Proof.
  intros Hk E. assert (Hx : In x cs) by (rewrite <- E; now apply nth_In). destruct (find_pos ieq x cs) as [j|] eqn:EJ.
  - destruct (find_pos_nth ieq ieq_spec x cs j c EJ) as [K1 K2]. f_equal. apply (proj1 (NoDup_nth cs c) (proj1 Hcs)); auto. congruence.
  - apply (find_pos_none ieq ieq_spec) in EJ. contradiction.
Qed.
Lemma split_loop (beta : I -> nat) : forall ds ni p n cb nb, rest ds (map (fun x => find_pos ieq x cs) ds) ni = (p, n) ->
  length cs <= ni -> length cb = length cs ->
  exists cb', split_block p (length cs) (map beta ds) cb nb = Ok (cb', nb ++ map beta n) /\ length cb' = length cs /\
    forall k, k < length cs -> nth k cb' 0 = if in_dec (ieq_dec ieq ieq_spec) (nth k cs c) ds then beta (nth k cs c) else nth k cb 0.
Proof.
  induction ds as [|x ds IH]; intros ni p n cb nb E Hni LC; cbn [rest map] in E.
  - injection E as <- <-. cbn [split_block map]. exists cb. rewrite app_nil_r. split; [reflexivity|]. split; [exact LC|]. intros k Hk. destruct (in_dec _ _ []) as [[]|]; reflexivity.
  - destruct (find_pos ieq x cs) as [j|] eqn:EJ.
    + destruct (rest ds _ ni) as [p' n'] eqn:ER'. injection E as <- <-. destruct (find_pos_nth ieq ieq_spec x cs j c EJ) as [K1 K2].
      cbn [split_block map]. destruct (Nat.ltb_spec j (length cs)); [|lia]. rewrite oupd_ok by lia. cbn [obind].
      destruct (IH ni p' n' (upd j (beta x) cb) nb ER' Hni ltac:(rewrite upd_length; exact LC)) as (cb' & E' & L' & V'). exists cb'. split; [exact E'|]. split; [exact L'|].
      intros k Hk. rewrite V' by exact Hk. rewrite nth_upd by lia. destruct (in_dec _ _ ds) as [H1|H1]; destruct (in_dec _ _ (x :: ds)) as [H2|H2]; auto.
      * exfalso. apply H2. now right.
      * destruct H2 as [H2|H2]; [|contradiction]. replace (k =? j) with true; [now rewrite <- H2|]. symmetry. apply Nat.eqb_eq.
        apply (proj1 (NoDup_nth cs c) (proj1 Hcs)); auto. congruence.
      * replace (k =? j) with false; auto. symmetry. apply Nat.eqb_neq. intros ->. apply H2. left. congruence.
    + destruct (rest ds _ (S ni)) as [p' n'] eqn:ER'. injection E as <- <-. cbn [split_block map].
      destruct (Nat.ltb_spec ni (length cs)); [lia|].
      destruct (IH (S ni) p' n' cb (nb ++ [beta x]) ER' ltac:(lia) LC) as (cb' & E' & L' & V'). exists cb'. rewrite <- app_assoc in E'. split; [exact E'|]. split; [exact L'|].
      intros k Hk. rewrite V' by exact Hk. apply (find_pos_none ieq ieq_spec) in EJ.
      destruct (in_dec _ _ ds) as [H1|H1]; destruct (in_dec _ _ (x :: ds)) as [H2|H2]; auto.
      * exfalso. apply H2. now right.
      * destruct H2 as [H2|H2]; [|contradiction]. exfalso. apply EJ. rewrite H2. now apply nth_In.
Qed.
Lemma split_spec beta : split_block P (length cs) (map beta dis) (repeat 0 (length cs)) [] = Ok (map beta cs, map beta rem).
Proof.
  destruct (split_loop beta dis (length cs) P rem (repeat 0 (length cs)) [] ER (le_n _) (repeat_length _ _)) as (cb' & E & L & V).
  rewrite E. do 2 f_equal. apply (nth_ext _ _ 0 (beta c)); [now rewrite map_length|]. intros k Hk. rewrite L in Hk. rewrite V by exact Hk. rewrite map_nth.
  destruct (in_dec _ _ dis) as [H|H]; auto. exfalso. apply H, Hincl, nth_In, Hk.
Qed.

Context (d D : qd R).
Hypothesis Sd : stored dis d.
(** The target blocks are stored in D. *)
Hypothesis Tgt : forall beta o, In (map beta dis, o) (offs d) -> In (tblk tab (enc e (map beta cs)) :: map beta rem) (map fst (offs D)).

Lemma rem_c : ~ In c rem.
Proof. intros H. apply rem_in in H. tauto. Qed.
Lemma ranged_N s : ranged dis s -> ranged N (withJ s).
Proof.
  intros H x [<-|Hx].
  - rewrite withJ_c. apply J_spec. intros y Hy. apply H, Hincl, Hy.
  - rewrite override_other by (intros ->; now apply rem_c). apply H. apply rem_in in Hx. tauto.
Qed.
Lemma ranged_cs s : ranged dis s -> ranged cs s.
Proof. intros H x Hx. apply H, Hincl, Hx. Qed.
Lemma blockof_N s : ranged dis s -> blockof N (withJ s) = tblk tab (kof s) :: blockof rem s.
Proof.
  intros H. unfold QdSpec.blockof at 1. cbn [map]. rewrite withJ_c. destruct (J_spec s (ranged_cs s H)) as (-> & _). f_equal.
  apply (map_withJ (fun x v => blk (bs x) v)). apply rem_c.
Qed.
Lemma placeof_N s : ranged dis s ->
  placeof N (withJ s) = (tst tab (kof s) + placeof cs s) + nth (tblk tab (kof s)) (bs c) 0 * enc (dimsof bs rem s) (map (inpos s) rem).
Proof.
  intros H. unfold QdSpec.placeof at 1, QdSpec.dimsof at 1. cbn [map colmajor]. rewrite withJ_c. destruct (J_spec s (ranged_cs s H)) as (-> & -> & _).
  f_equal. f_equal. rewrite colmajor_enc. f_equal.
  - apply (map_withJ (fun x v => nth (blk (bs x) v) (bs x) 0)). apply rem_c.
  - apply (map_withJ (fun x v => pos (bs x) v)). apply rem_c.
Qed.

Lemma combine_blocks_spec : forall l dst, incl l (offs d) -> NoDup (map fst l) -> stored N (mkQD (offs D) dst) ->
  exists S', combine_blocks r0 bs dis cs N P tab d D l dst = Ok S' /\ stored N (mkQD (offs D) S') /\
    forall s, ranged dis s -> qval N (mkQD (offs D) S') (withJ s) =
      if in_dec (list_eq_dec Nat.eq_dec) (blockof dis s) (map fst l) then qval dis d s else qval N (mkQD (offs D) dst) (withJ s).
Proof.
  destruct dis_through as [HT HPm]. pose proof csrem_perm as CP.
  induction l as [|[b o] l IH]; intros dst HI HN SD; cbn [combine_blocks].
  { exists dst. split; [reflexivity|]. split; [exact SD|]. intros s Hs. reflexivity. }
  assert (Hin : In (b, o) (offs d)) by (apply HI; left; auto).
  destruct (stored_bound _ _ _ _ _ Sd Hin) as [V L].
  destruct (beta_of bs ieq ieq_spec dis b (proj1 Hd) V) as (beta & ->).
  cbn [map fst] in HN. apply NoDup_cons_iff in HN as [Hnin HN'].
  rewrite bdims_beta by auto. cbn [obind].
  assert (PA : prod (map (bdim beta) dis) = sz dis (map beta dis)) by (rewrite sz_beta; reflexivity).
  rewrite PA, segment_ok by exact L. cbn [obind].
  assert (Hpb : forall x, In x dis -> 0 < bdim beta x) by (intros x Hx; apply (bdim_pos dis); auto).
  assert (Hpb' : forall x, In x (cs ++ rem) -> 0 < bdim beta x) by (intros x Hx; apply Hpb; eapply Permutation_in; eauto).
  destruct (permuteRange_relabel (bdim beta) P dis (cs ++ rem) c HPm HT) as (v & EV & EE & _). rewrite EV. cbn [obind]. rewrite EE.
  set (rp := range_init (map (bdim beta) (cs ++ rem))) in *.
  assert (DR : dim rp = size (map (bdim beta) (cs ++ rem))) by (unfold rp; rewrite dim_size; unfold range_init; now rewrite map_ext_range_init).
  destruct (transform_relabel ieq (bdim beta) ieq_spec (fun b _ : R => b) r0 r0 P dis (cs ++ rem) c (seg_of bs dis d (map beta dis) o) (repeat r0 (dim rp)) v) as (pd & Epd & LPD & HE); auto.
  { apply csrem_nodup. } { apply seg_full; auto. } { unfold full. rewrite repeat_length, DR, size_fold. reflexivity. }
  unfold seg_of in Epd. fold rp in Epd. unfold tassign at 1. rewrite Epd. cbn [obind].
  rewrite repeat_length, DR in LPD.
  assert (EG : groupIndsRange rp 0 (length cs) = Ok (range_init ([size (map (bdim beta) cs)] ++ map (bdim beta) rem))).
  { unfold rp. rewrite map_app. pose proof (group_spec [] (map (bdim beta) cs) (map (bdim beta) rem)) as G. cbn [app length plus] in G. rewrite map_length in G.
    apply G. intros y Hy. rewrite <- map_app in Hy. apply in_map_iff in Hy as (x & <- & Hx). auto. }
  rewrite EG. cbn [obind]. rewrite split_spec. cbn [obind].
  rewrite offset_enc by apply map_length. cbn [obind]. set (k := enc e (map beta cs)) in *.
  assert (Vcs : valid e (map beta cs)).
  { apply inrange_valid. apply inrange_valid in V. intros x Hx. apply V, Hincl, Hx. }
  assert (Vrem : valid (map nblocks rem) (map beta rem)).
  { apply inrange_valid. apply inrange_valid in V. intros x Hx. apply V. apply rem_in in Hx. tauto. }
  assert (Hk : k < size e) by (apply enc_lt; exact Vcs).
  rewrite at_get_ok by exact Hk. cbn [obind]. rewrite tab_split.
  destruct (T1 k Hk) as (B1 & B2 & B3). set (n := tblk tab k) in *. set (st := tst tab k) in *. set (ex := tex tab k) in *.
  replace (decode e k) with (map beta cs) in B2 by (symmetry; apply decode_enc; exact Vcs).
  cbn [bdims]. rewrite (oget_ok 0) by exact B1. cbn [obind]. rewrite bdims_beta by exact Vrem. cbn [obind].
  set (Dc := nth n (bs c) 0) in *. set (rd := map (bdim beta) rem) in *.
  pose proof (Tgt beta o Hin) as HT2. fold k n in HT2. apply in_fst in HT2 as (bo & Hbo).
  assert (GB : getBlock D (n :: map beta rem) = Ok (Some bo)).
  { change (getBlock (mkQD (offs D) dst) (n :: map beta rem) = Ok (Some bo)). apply (getBlock_in bs N); auto. discriminate. }
  rewrite GB. cbn [obind].
  change (range_init (Dc :: rd)) with (IS Dc 1 :: with_strides (1 * Dc) rd). unfold subIndexRange, subIndexStart. cbn [oget nth_error obind str upd].
  rewrite !Nat.mul_1_l. replace (st + ex - st) with ex by lia.
  assert (Hprd : forall x, In x rd -> 0 < x) by (intros y Hy; apply in_map_iff in Hy as (x & <- & Hx); apply Hpb; apply rem_in in Hx; tauto).
  assert (Eex : ex = size (map (bdim beta) cs)). { etransitivity; [exact B2|]. rewrite (sz_beta bs cs beta). symmetry. apply size_fold. }
  assert (Hex : 0 < ex).
  { rewrite Eex. apply size_pos. intros y Hy. apply in_map_iff in Hy as (x & <- & Hx). apply Hpb, Hincl, Hx. }
  assert (ESZ : sz N (n :: map beta rem) = Dc * size rd).
  { cbn [QdSpec.sz]. fold Dc. f_equal. rewrite (sz_beta bs rem beta). symmetry. apply size_fold. }
  destruct (stored_bound bs N _ _ _ SD Hbo) as [_ LB]. rewrite ESZ in LB. cbn [store] in LB.
  set (rt := IS ex 1 :: with_strides Dc rd) in *.
  assert (Hdot : forall t, valid (ex :: rd) t -> exists t0 t', t = t0 :: t' /\ t0 < ex /\ valid rd t' /\ dot rt t = t0 + Dc * enc rd t').
  { intros t Ht. inversion Ht as [|? t0 ? t' H1 H2]; subst. exists t0, t'. repeat split; auto. unfold rt. cbn [dot str].
    rewrite dot_with_strides by (apply valid_length in H2; exact H2). lia. }
  assert (PSR : prod (Dc :: rd) = Dc * size rd) by (unfold prod; cbn [fold_right]; rewrite <- size_fold; reflexivity).
  rewrite PSR.
  destruct (write_view r0 (ex :: rd) (range_init ([size (map (bdim beta) cs)] ++ rd)) pd rt dst (bo + st) (Dc * size rd - st)) as (sn & sn' & E1 & E2 & LW & W1 & W2).
  { unfold range_init. rewrite map_ext_range_init, <- Eex. reflexivity. }
  { unfold rt. cbn [map ext]. rewrite map_ext_range_init. reflexivity. }
  { intros y [<-|Hy]; auto. }
  { assert (0 < size rd) by (apply size_pos; auto). nia. }
  { intros t Ht. rewrite dot_range_init by (apply valid_length in Ht; exact Ht). cbn [app]. rewrite <- Eex, LPD, map_app, size_app, <- Eex. fold rd. change (ex * size rd) with (size (ex :: rd)). now apply enc_lt. }
  { intros t Ht. destruct (Hdot t Ht) as (t0 & t' & -> & H1 & H2 & ->). pose proof (enc_lt rd t' H2). nia. }
  { intros t t' Ht Ht'. destruct (Hdot t Ht) as (a & u & -> & H1 & H2 & ->). destruct (Hdot t' Ht') as (a' & u' & -> & H1' & H2' & ->). intros Q.
    apply (enc_inj (Dc :: rd)); [constructor; [lia|auto]|constructor; [lia|auto]|]. cbn [enc]. lia. }
  rewrite E1. cbn [obind].
rewrite E2. cbn [obind].
  set (dst' := put_seg (bo + st) sn' dst) in *.
  assert (SD' : stored N (mkQD (offs D) dst')) by (apply (stored_same N (mkQD (offs D) dst) dst' SD); exact LW).
  destruct (IH dst' ltac:(intros y Hy; apply HI; now right) HN' SD') as (S' & ES & SS & HV).
  exists S'. split; [exact ES|]. split; [exact SS|]. intros s Hs. rewrite HV by exact Hs. cbn [map fst].
  assert (Keep : blockof dis s <> map beta dis -> qval N (mkQD (offs D) dst') (withJ s) = qval N (mkQD (offs D) dst) (withJ s)).
  { intros Ne. apply (qval_kept N (mkQD (offs D) dst) dst' (withJ s) (n :: map beta rem) bo (fun w => exists t, valid (ex :: rd) t /\ w = st + dot rt t)); auto.
    - now apply ranged_N.
    - intros w (t & Ht & ->). destruct (Hdot t Ht) as (t0 & t' & -> & H1 & H2 & ->). rewrite ESZ. pose proof (enc_lt rd t' H2). nia.
    - intros q Hq. apply W2. intros t Ht Q. apply (Hq (st + dot rt t)); [eauto|lia].
    - rewrite (blockof_N s Hs). intros EB. injection EB as En Er. rewrite (placeof_N s Hs). intros (t & Ht & Q).
      destruct (Hdot t Ht) as (t0 & t' & -> & H1 & H2 & HQ). rewrite HQ in Q. clear HQ.
      assert (Nk : kof s <> k).
      { intros Ek. apply Ne. rewrite blockof_inblk. apply map_ext_in. intros x Hx.
        assert (EBc : blockof cs s = map beta cs).
        { apply (enc_inj e); [apply blockof_valid, ranged_cs, Hs|exact Vcs|exact Ek]. }
        destruct (in_dec (ieq_dec ieq ieq_spec) x cs) as [K|K].
        - apply (map_eq_in _ _ cs EBc x K).
        - apply (map_eq_in _ _ rem Er x). apply rem_in. auto. }
      pose proof (J_in s (ranged_cs s Hs)) as JI. destruct (J_spec s (ranged_cs s Hs)) as (_ & JP & _). rewrite JP in JI.
      destruct (T1 _ (kof_lt s (ranged_cs s Hs))) as (_ & _ & C3). rewrite En in Q, C3. fold Dc in Q, C3.
      assert (QQ : tst tab (kof s) + placeof cs s = st + t0).
      { clear - Q C3 JI B3 H1 Hex. set (a := enc (dimsof bs rem s) (map (inpos s) rem)) in *. set (a' := enc rd t') in *.
        assert (a = a') by nia. subst a'. nia. }
      apply (T2' (kof s) k (kof_lt s (ranged_cs s Hs)) Hk Nk En (st + t0)); [rewrite <- QQ; exact JI|]. unfold st, ex in *. lia. }
  destruct (list_eq_dec Nat.eq_dec (blockof dis s) (map beta dis)) as [EB|EB].
  - (* the block just written *)
    destruct (in_dec (list_eq_dec Nat.eq_dec) (blockof dis s) (map fst l)) as [K|K]; [rewrite EB in K; contradiction|].
    match goal with |- _ = (if ?b then _ else _) => destruct b as [K2|K2] end; [|exfalso; apply K2; now left].
    pose proof (map_eq_in _ _ dis EB) as EBx.
    assert (EBc : blockof cs s = map beta cs) by (apply map_ext_in; intros x Hx; apply EBx, Hincl, Hx).
    assert (EBr : blockof rem s = map beta rem) by (apply map_ext_in; intros x Hx; apply EBx; apply rem_in in Hx; tauto).
    assert (Ek : kof s = k) by (unfold kof; rewrite EBc; reflexivity).
    assert (BN : blockof N (withJ s) = n :: map beta rem) by (rewrite (blockof_N s Hs), Ek, EBr; reflexivity).
    rewrite (qval_in r0 bs N (mkQD (offs D) dst') (withJ s) bo); [|apply (stored_nodup bs N); exact SD'|rewrite BN; exact Hbo].
    rewrite (placeof_N s Hs), Ek. fold n st Dc. cbn [store].
    assert (Erd : dimsof bs rem s = rd).
    { rewrite dimsof_inblk. apply map_ext_in. intros x Hx. unfold QdAdd.bdim. f_equal. apply (map_eq_in _ _ rem EBr x Hx). }
    rewrite Erd.
    assert (IPc : inrange (bdim beta) cs (inpos s)) by (apply inpos_range; [apply ranged_cs, Hs|exact EBc]).
    assert (IPr : inrange (bdim beta) rem (inpos s)) by (apply inpos_range; [intros x Hx; apply Hs; apply rem_in in Hx; tauto|exact EBr]).
    set (tt := placeof cs s :: map (inpos s) rem).
    assert (Pcs : placeof cs s = enc (map (bdim beta) cs) (map (inpos s) cs)) by (rewrite (place_beta bs cs beta s EBc); apply colmajor_enc).
    assert (Vt : valid (ex :: rd) tt).
    { constructor; [|apply (inrange_valid (bdim beta)); exact IPr]. rewrite Pcs, Eex. apply enc_lt. apply inrange_valid. exact IPc. }
    replace (bo + (st + placeof cs s + Dc * enc rd (map (inpos s) rem))) with (bo + st + dot rt tt).
    2:{ unfold rt, tt. cbn [dot str]. rewrite dot_with_strides by (unfold rd; rewrite !map_length; reflexivity). lia. }
    rewrite W1 by exact Vt. rewrite dot_range_init by (apply valid_length in Vt; exact Vt). cbn [app]. unfold tt. cbn [enc]. rewrite Pcs.
    rewrite (qval_seg r0 bs dis d beta o s Sd Hin Hs EB).
    rewrite <- (HE (inpos s)).
    + unfold elt. f_equal.
rewrite !map_app. rewrite enc_app by (rewrite !map_length; reflexivity). reflexivity.
    + intros x Hx. apply in_app_or in Hx as [Hx|Hx]; auto.
  - rewrite Keep by exact EB. destruct (in_dec (list_eq_dec Nat.eq_dec) (blockof dis s) (map fst l)) as [K|K]; match goal with |- _ = (if ?b then _ else _) => destruct b as [K2|K2] end; auto.
    + exfalso. apply K2. now right.
    + destruct K2 as [K2|K2]; [congruence|contradiction].
Qed.
End Combine.

Lemma digits_decode : forall l k, l <> [] -> (forall x, In x l -> bs x <> []) -> k < size (map nblocks l) -> digits bs l k = decode (map nblocks l) k.
Proof.
  induction l as [|x l IH]; intros k Hn Hp Hk; [congruence|]. destruct l as [|y l].
  - cbn [digits map decode]. cbn [map size] in Hk. f_equal. symmetry. apply Nat.mod_small. lia.
  - remember (y :: l) as l' eqn:El. cbn [map]. cbn [decode]. change (digits bs (x :: l') k) with (match l' with [] => [k] | _ => (k mod length (bs x)) :: digits bs l' ((k - k mod length (bs x)) / length (bs x)) end).
    subst l'. remember (y :: l) as l' eqn:El. unfold QdSpec.nblocks at 1 3. cbn [map size] in Hk. unfold QdSpec.nblocks at 1 in Hk.
    assert (K : length (bs x) <> 0) by (specialize (Hp x (or_introl eq_refl)); destruct (bs x); [congruence|discriminate]).
    assert (Q : (k - k mod length (bs x)) / length (bs x) = k / length (bs x)).
    { pose proof (Nat.div_mod k (length (bs x)) K) as DM. replace (k - k mod length (bs x)) with (k / length (bs x) * length (bs x)) by lia. now apply Nat.div_mul. }
    rewrite Q, IH; auto; [congruence|intros; apply Hp; now right|]. apply Nat.div_lt_upper_bound; auto.
Qed.
Lemma with_strides_app : forall a b k, with_strides k (a ++ b) = with_strides k a ++ with_strides (k * size a) b.
Proof. induction a as [|x a IH]; intros b k; cbn [app with_strides size]; [f_equal; lia|]. rewrite IH. do 3 f_equal. lia. Qed.
Lemma dot_app : forall r1 t1 r2 t2, length t1 = length r1 -> dot (r1 ++ r2) (t1 ++ t2) = dot r1 t1 + dot r2 t2.
Proof. induction r1 as [|x r1 IH]; intros [|i t1] r2 t2 H; cbn in *; try discriminate; auto. rewrite IH by lia. lia. Qed.
Lemma upd_app {A} (x y : A) l1 l2 : upd (length l1) x (l1 ++ y :: l2) = l1 ++ x :: l2.
Proof. induction l1; cbn; congruence. Qed.
Lemma upd_app' {A} (x y : A) l1 l2 k : k = length l1 -> upd k x (l1 ++ y :: l2) = l1 ++ x :: l2.
Proof. intros ->. apply upd_app. Qed.
Lemma oget_app {A} (y : A) l1 l2 k : k = length l1 -> oget (l1 ++ y :: l2) k = Ok y.
Proof. intros ->. unfold oget. rewrite nth_error_app2, Nat.sub_diag by auto. reflexivity. Qed.
Lemma valid_split : forall e1 e2 t, valid (e1 ++ e2) t -> exists t1 t2, t = t1 ++ t2 /\ valid e1 t1 /\ valid e2 t2.
Proof.
  induction e1 as [|x e1 IH]; intros e2 t V; cbn [app] in V.
  - exists [], t. repeat split; auto. constructor.
  - inversion V as [|? i ? t' Hi V']; subst. destruct (IH _ _ V') as (t1 & t2 & -> & V1 & V2). exists (i :: t1), t2. repeat split; auto. constructor; auto.
Qed.
Lemma valid_join : forall e1 e2 t1 t2, valid e1 t1 -> valid e2 t2 -> valid (e1 ++ e2) (t1 ++ t2).
Proof. intros e1 e2 t1 t2 V1 V2. induction V1; cbn; auto. constructor; auto. Qed.

Lemma app_eq_inv {A} : forall (l1 l2 m1 m2 : list A), length l1 = length l2 -> l1 ++ m1 = l2 ++ m2 -> l1 = l2 /\ m1 = m2.
Proof. induction l1 as [|x l1 IH]; intros [|y l2] m1 m2 L E; cbn in *; try discriminate; auto. injection E as -> E. destruct (IH l2 m1 m2 ltac:(lia) E) as [-> ->]. auto. Qed.
Section Uncombine.
Context (a z : list I).
Notation dis := (a ++ c :: z).
Notation N := (a ++ cs ++ z).
Hypothesis Hd : proper dis.
Hypothesis HN : proper N.
Hypothesis Hne : cs <> [].
Context (d D : qd R).
Hypothesis Sd : stored dis d.
Hypothesis Tgt : forall beta o k, In (map beta dis, o) (offs d) -> k < size e -> tblk tab k = beta c ->
  In (map beta a ++ decode e k ++ map beta z) (map fst (offs D)).

Lemma c_notin_az : ~ In c (a ++ z).
Proof. apply NoDup_remove_2. apply Hd. Qed.
Lemma un_ranged_cs s : ranged N s -> ranged cs s.
Proof. intros H x Hx. apply H. rewrite !in_app_iff. auto. Qed.
Lemma un_ranged s : ranged N s -> ranged dis (withJ s).
Proof.
  intros H x Hx. destruct (ieq_dec ieq ieq_spec x c) as [->|Ne].
  - rewrite withJ_c. apply J_spec. now apply un_ranged_cs.
  - rewrite override_other by exact Ne. apply H. rewrite in_app_iff in Hx. cbn in Hx. rewrite !in_app_iff. intuition congruence.
Qed.
Lemma un_blockof s : ranged N s -> blockof dis (withJ s) = blockof a s ++ tblk tab (kof s) :: blockof z s.
Proof.
  intros H. unfold QdSpec.blockof at 1. rewrite map_app. cbn [map]. rewrite withJ_c. destruct (J_spec s (un_ranged_cs s H)) as (-> & _).
  f_equal; [|f_equal]; apply (map_withJ (fun x v => blk (bs x) v)); intros K; apply c_notin_az; rewrite in_app_iff; auto.
Qed.
Lemma un_placeof s : ranged N s ->
  placeof dis (withJ s) = enc (dimsof bs a s) (map (inpos s) a) + size (dimsof bs a s) *
    ((tst tab (kof s) + placeof cs s) + nth (tblk tab (kof s)) (bs c) 0 * enc (dimsof bs z s) (map (inpos s) z)).
Proof.
  intros H. unfold QdSpec.placeof at 1, QdSpec.dimsof at 1. rewrite colmajor_enc, !map_app. cbn [map]. rewrite withJ_c. destruct (J_spec s (un_ranged_cs s H)) as (-> & -> & _).
  assert (Na : ~ In c a) by (intros K; apply c_notin_az; rewrite in_app_iff; auto).
  assert (Nz : ~ In c z) by (intros K; apply c_notin_az; rewrite in_app_iff; auto).
  rewrite (map_withJ (fun x v => nth (blk (bs x) v) (bs x) 0) a s Na), (map_withJ (fun x v => nth (blk (bs x) v) (bs x) 0) z s Nz).
  rewrite (map_withJ (fun x v => pos (bs x) v) a s Na), (map_withJ (fun x v => pos (bs x) v) z s Nz).
  rewrite enc_app by (rewrite !map_length; reflexivity). cbn [enc]. reflexivity.
Qed.
Lemma un_place_N s : placeof N s = enc (dimsof bs a s) (map (inpos s) a) + size (dimsof bs a s) *
  (placeof cs s + size (dimsof bs cs s) * enc (dimsof bs z s) (map (inpos s) z)).
Proof.
  unfold QdSpec.placeof at 1, QdSpec.dimsof at 1. rewrite colmajor_enc, !map_app.
  rewrite enc_app by (rewrite !map_length; reflexivity). rewrite enc_app by (rewrite !map_length; reflexivity).
  reflexivity.
Qed.

Lemma uncombine_table_spec beta o : In (map beta dis, o) (offs d) -> forall r k dst, k + r = size e -> stored N (mkQD (offs D) dst) ->
  exists S', uncombine_table bs dis cs N (length a) d D (map beta dis) o (beta c) (skipn k tab) k dst = Ok S' /\ stored N (mkQD (offs D) S') /\
    forall s, ranged N s ->
      (blockof dis (withJ s) = map beta dis /\ k <= kof s -> qval N (mkQD (offs D) S') s = qval dis d (withJ s)) /\
      (~ (blockof dis (withJ s) = map beta dis /\ k <= kof s) -> qval N (mkQD (offs D) S') s = qval N (mkQD (offs D) dst) s).
Proof.
  intros Hin. destruct (stored_bound _ _ _ _ _ Sd Hin) as [V L].
  assert (Hpb : forall x, In x dis -> 0 < bdim beta x) by (intros x Hx; apply (bdim_pos dis); auto).
  induction r as [|r IH]; intros k dst Hk SD.
  { rewrite skipn_all2 by lia. cbn [uncombine_table]. exists dst. split; [reflexivity|]. split; [exact SD|]. intros s Hs.
    pose proof (kof_lt s (un_ranged_cs s Hs)). split; auto. lia. }
  assert (Hke : k < size e) by lia.
  assert (ESk : skipn k tab = (tblk tab k, tst tab k, tex tab k) :: skipn (S k) tab).
  { rewrite <- tab_split. clear - Hke T0. assert (Q : k < length tab) by lia. clear Hke T0. revert tab Q.
    induction k as [|k IH]; intros [|x t] Q; cbn [length] in Q; try lia; cbn [skipn nth]; auto. apply IH. lia. }
  rewrite ESk. cbn [uncombine_table].
  destruct (Nat.eqb_spec (tblk tab k) (beta c)) as [En|En]; cbn [negb].
  2:{ destruct (IH (S k) dst ltac:(lia) SD) as (S' & ES & SS & HV). exists S'. split; [exact ES|]. split; [exact SS|].
      intros s Hs. destruct (HV s Hs) as [V1 V2]. split.
      - intros [B1 B2]. apply V1. split; auto. assert (kof s <> k); [|lia]. intros Q. apply En. rewrite (un_blockof s Hs), Q, map_app in B1. cbn [map] in B1.
        apply app_eq_inv in B1; [|unfold QdSpec.blockof; now rewrite !map_length]. destruct B1 as [_ B1]. now injection B1.
      - intros Hn. apply V2. intros [B1 B2]. apply Hn. split; auto. lia. }
  (* the combination k is part of block beta c *)
  rewrite (digits_decode cs k Hne) by (auto; intros x Hx; apply Hcs; exact Hx).
  set (nbk := map beta a ++ decode e k ++ map beta z).
  assert (EF : firstn (length a) (map beta dis) ++ decode e k ++ skipn (S (length a)) (map beta dis) = nbk).
  { rewrite map_app. cbn [map]. rewrite firstn_app, map_length, firstn_all2 by (rewrite map_length; lia). rewrite Nat.sub_diag. cbn [firstn]. rewrite app_nil_r.
    rewrite skipn_app, skipn_all2 by (rewrite map_length; lia). rewrite map_length. replace (S (length a) - length a) with 1 by lia. reflexivity. }
  rewrite EF.
  assert (Vd : valid e (decode e k)).
  { apply decode_valid; exact Hke. }
  assert (Vnb : valid (map nblocks N) nbk).
  { unfold nbk. rewrite !map_app. rewrite map_app in V. cbn [map] in V. rewrite map_app in V. cbn [map] in V.
    apply valid_split in V as (t1 & t2 & ET & V1 & V2). apply valid_length in V1 as LV. rewrite map_length in LV.
    apply app_eq_inv in ET; [|rewrite map_length; lia]. destruct ET as [<- <-].
    inversion V2 as [|? ? ? ? H1 H2]; subst. apply valid_join; auto. apply valid_join; auto. }
  destruct (beta_of bs ieq ieq_spec N nbk (proj1 HN) Vnb) as (beta' & EB'). symmetry in EB'.
  assert (EBs : map beta' a = map beta a /\ map beta' cs = decode e k /\ map beta' z = map beta z).
  { unfold nbk in EB'. rewrite !map_app in EB'. apply app_eq_inv in EB' as [E1 E2]; [|now rewrite !map_length].
    apply app_eq_inv in E2 as [E2 E3]; [auto|]. rewrite map_length. apply valid_length in Vd. rewrite map_length in Vd. lia. }
  destruct EBs as (EBa & EBc & EBz).
  set (ad := map (bdim beta) a). set (zd := map (bdim beta) z). set (cd := map (bdim beta') cs).
  assert (Ead : map (bdim beta') a = ad).
  { apply map_ext_in. intros x Hx. unfold QdAdd.bdim. f_equal. apply (map_eq_in _ _ a EBa x Hx). }
  assert (Ezd : map (bdim beta') z = zd).
  { apply map_ext_in. intros x Hx. unfold QdAdd.bdim. f_equal. apply (map_eq_in _ _ z EBz x Hx). }
  rewrite bdims_beta by exact V. cbn [obind].
  destruct (T1 k Hke) as (B1 & B2 & B3). rewrite En in B3. set (st := tst tab k) in *. set (ex := tex tab k) in *. set (n := beta c) in *.
  set (Dc := nth n (bs c) 0) in *.
  assert (Edd : map (bdim beta) dis = ad ++ Dc :: zd) by (rewrite map_app; reflexivity).
  rewrite Edd.
  assert (Pad : forall y, In y ad -> 0 < y) by (intros y Hy; apply in_map_iff in Hy as (x & <- & Hx); apply Hpb; rewrite in_app_iff; auto).
  assert (Pzd : forall y, In y zd -> 0 < y) by (intros y Hy; apply in_map_iff in Hy as (x & <- & Hx); apply Hpb; rewrite in_app_iff; cbn; auto).
  assert (Pcd : forall y, In y cd -> 0 < y).
  { intros y Hy. apply in_map_iff in Hy as (x & <- & Hx). apply (bdim_pos N); auto; [rewrite EB'; exact Vnb|rewrite !in_app_iff; auto]. }
  assert (Eex : ex = size cd).
  { etransitivity; [exact B2|]. rewrite <- EBc, (sz_beta bs cs beta'). symmetry. apply size_fold. }
  assert (La : length a = length (with_strides 1 ad)) by (rewrite with_strides_length; unfold ad; now rewrite map_length).
  assert (ERI : range_init (ad ++ Dc :: zd) = with_strides 1 ad ++ IS Dc (size ad) :: with_strides (size ad * Dc) zd).
  { unfold range_init. rewrite with_strides_app. cbn [with_strides]. do 2 f_equal; [f_equal; lia|f_equal; lia]. }
  rewrite ERI. unfold subIndexRange, subIndexStart. rewrite oget_app by exact La. cbn [obind str]. rewrite upd_app' by exact La.
  replace (st + ex - st) with ex by lia.
  set (sub := with_strides 1 ad ++ IS ex (size ad) :: with_strides (size ad * Dc) zd).
  assert (PD : prod (ad ++ Dc :: zd) = size ad * (Dc * size zd)).
  { change (prod (ad ++ Dc :: zd)) with (fold_right Nat.mul 1 (ad ++ Dc :: zd)). rewrite <- size_fold, size_app. reflexivity. }
  assert (ESd : sz dis (map beta dis) = size ad * (Dc * size zd)) by (rewrite sz_beta, Edd; exact PD).
  rewrite ESd in L. rewrite PD.
  assert (Sa : 0 < size ad) by (apply size_pos; auto). assert (Sz : 0 < size zd) by (apply size_pos; auto). assert (Sc : 0 < size cd) by (apply size_pos; auto).
  assert (Hst : size ad * st <= size ad * (Dc * size zd)) by (apply Nat.mul_le_mono_l; clear - B3 Sz; nia).
  rewrite segment_ok by lia. cbn [obind].
  rewrite <- EB', bdims_beta by (rewrite EB'; exact Vnb). cbn [obind].
  pose proof (Tgt beta o k Hin Hke En) as HT. fold nbk in HT. apply in_fst in HT as (bo & Hbo).
  assert (GB : getBlock D (map beta' N) = Ok (Some bo)).
  { change (getBlock (mkQD (offs D) dst) (map beta' N) = Ok (Some bo)). apply (getBlock_in bs N); [exact SD|rewrite EB'; exact Hbo|].
    intros Q. apply app_eq_nil in Q as [_ Q]. apply app_eq_nil in Q as [Q _]. contradiction. }
  rewrite GB. cbn [obind].
  assert (End' : map (bdim beta') N = ad ++ cd ++ zd) by (rewrite !map_app, Ead, Ezd; reflexivity).
  rewrite End'.
  assert (EG : groupIndsRange (range_init (ad ++ cd ++ zd)) (length a) (length a + length cs) = Ok (range_init (ad ++ [size cd] ++ zd))).
  { assert (LA : length ad = length a) by apply map_length. assert (LC : length cd = length cs) by apply map_length. rewrite <- LA, <- LC. apply group_spec. intros y Hy. rewrite !in_app_iff in Hy. intuition. }
  rewrite EG. cbn [obind].
  assert (PN : prod (ad ++ cd ++ zd) = size ad * (size cd * size zd)).
  { change (prod (ad ++ cd ++ zd)) with (fold_right Nat.mul 1 (ad ++ cd ++ zd)). rewrite <- size_fold, !size_app. reflexivity. }
  assert (ESN : sz N nbk = size ad * (size cd * size zd)).
  { rewrite <- EB', sz_beta, End'. exact PN. }
  destruct (stored_bound bs N _ _ _ SD Hbo) as [_ LB]. rewrite ESN in LB. cbn [store] in LB. rewrite PN.
  set (rt := range_init (ad ++ [size cd] ++ zd)).
  set (sd := firstn (size ad * (Dc * size zd) - size ad * st) (skipn (o + size ad * st) (store d))).
  assert (LSd : length sd = size ad * (Dc * size zd) - size ad * st).
  { unfold sd. rewrite firstn_length, skipn_length. lia. }
  assert (Hdot : forall t, valid (ad ++ ex :: zd) t -> exists ta t0 tz, t = ta ++ t0 :: tz /\ valid ad ta /\ t0 < ex /\ valid zd tz /\
    dot sub t = enc ad ta + size ad * (t0 + Dc * enc zd tz) /\ dot rt t = enc ad ta + size ad * (t0 + ex * enc zd tz)).
  { intros t Ht. apply valid_split in Ht as (ta & t2 & -> & Va & V2). inversion V2 as [|? t0 ? tz H1 H2]; subst.
    exists ta, t0, tz. pose proof (valid_length _ _ Va) as La'. pose proof (valid_length _ _ H2) as Lz'. repeat split; auto.
    - unfold sub. rewrite dot_app by (rewrite with_strides_length; lia). cbn [dot str]. rewrite !dot_with_strides by lia. nia.
    - unfold rt. rewrite dot_range_init by (rewrite !app_length; cbn [length]; lia). cbn [app]. rewrite enc_app by lia. cbn [enc]. rewrite Eex. reflexivity. }
  destruct (write_view r0 (ad ++ ex :: zd) sub sd rt dst bo (size ad * (size cd * size zd))) as (sn & sn' & E1 & E2 & LW & W1 & W2).
  { unfold sub. rewrite map_app. cbn [map ext]. rewrite !map_ext_range_init. reflexivity. }
  { unfold rt, range_init. rewrite map_ext_range_init, <- Eex. reflexivity. }
  { intros y Hy. rewrite in_app_iff in Hy. destruct Hy as [Hy|[<-|Hy]]; auto. lia. }
  { exact LB. }
  { intros t Ht. destruct (Hdot t Ht) as (ta & t0 & tz & -> & Va & H1 & Vz & -> & _). rewrite LSd. pose proof (enc_lt _ _ Va) as Q1. pose proof (enc_lt _ _ Vz) as Q2.
    assert (st + t0 + Dc * enc zd tz < Dc * size zd) by nia. nia. }
  { intros t Ht. destruct (Hdot t Ht) as (ta & t0 & tz & -> & Va & H1 & Vz & _ & ->). pose proof (enc_lt _ _ Va) as Q1. pose proof (enc_lt _ _ Vz) as Q2. rewrite <- Eex.
    assert (t0 + ex * enc zd tz < ex * size zd) by nia. nia. }
  { intros t t' Ht Ht' Q. apply (enc_inj (ad ++ ex :: zd)); auto. unfold rt in Q. rewrite <- Eex in Q. cbn [app] in Q.
    rewrite !dot_range_init in Q; auto using valid_length. }
  rewrite E1. cbn [obind]. rewrite E2. cbn [obind].
  set (dst' := put_seg bo sn' dst) in *.
  assert (SD' : stored N (mkQD (offs D) dst')) by (apply (stored_same N (mkQD (offs D) dst) dst' SD); exact LW).
  destruct (IH (S k) dst' ltac:(lia) SD') as (S' & ES & SS & HV).
  exists S'. split; [exact ES|]. split; [exact SS|]. intros s Hs. destruct (HV s Hs) as [V1 V2].
  assert (Scs : ranged cs s) by (now apply un_ranged_cs).
  assert (BN : blockof N s = blockof a s ++ blockof cs s ++ blockof z s) by (unfold QdSpec.blockof; now rewrite !map_app).
  assert (Keep : blockof N s <> nbk -> qval N (mkQD (offs D) dst') s = qval N (mkQD (offs D) dst) s).
  { intros Ne. apply (qval_kept N (mkQD (offs D) dst) dst' s nbk bo (fun w => w < sz N nbk)); auto.
    intros q Hq. apply W2. intros t Ht Q. apply (Hq (dot rt t)); [|exact Q]. rewrite ESN.
    destruct (Hdot t Ht) as (ta & t0 & tz & -> & Va & H1 & Vz & _ & ->). pose proof (enc_lt _ _ Va) as Q1. pose proof (enc_lt _ _ Vz) as Q2. rewrite <- Eex.
    assert (t0 + ex * enc zd tz < ex * size zd) by nia. nia. }
  assert (Hcond : blockof dis (withJ s) = map beta dis -> blockof a s = map beta a /\ tblk tab (kof s) = n /\ blockof z s = map beta z).
  { intros Q. rewrite (un_blockof s Hs), map_app in Q. cbn [map] in Q. apply app_eq_inv in Q as [Q1 Q2]; [|unfold QdSpec.blockof; now rewrite !map_length].
    injection Q2 as Q2 Q3. auto. }
  split.
  - intros [C1 C2]. destruct (Nat.eq_dec (kof s) k) as [Ek|Ek].
    2:{ apply V1. split; [exact C1|lia]. }
    rewrite V2 by lia. destruct (Hcond C1) as (Qa & Qn & Qz).
    assert (Qc : blockof cs s = decode e k) by (rewrite <- Ek; symmetry; now apply kof_block).
    assert (BNk : blockof N s = nbk) by (rewrite BN, Qa, Qc, Qz; reflexivity).
    rewrite (qval_in r0 bs N (mkQD (offs D) dst') s bo); [|apply (stored_nodup bs N); exact SD'|rewrite BNk; exact Hbo].
    rewrite (qval_in r0 bs dis d (withJ s) o); [|apply (stored_nodup bs dis); exact Sd|rewrite C1; exact Hin].
    rewrite (un_placeof s Hs), (un_place_N s), Ek, En. fold st Dc n. cbn [store].
    assert (Da : dimsof bs a s = ad).
    { rewrite dimsof_inblk. apply map_ext_in. intros x Hx. unfold QdAdd.bdim. f_equal. apply (map_eq_in _ _ a Qa x Hx). }
    assert (Dz : dimsof bs z s = zd).
    { rewrite dimsof_inblk. apply map_ext_in. intros x Hx. unfold QdAdd.bdim. f_equal. apply (map_eq_in _ _ z Qz x Hx). }
    assert (Qc' : blockof cs s = map beta' cs) by congruence.
    assert (Dcs : dimsof bs cs s = cd).
    { rewrite dimsof_inblk. apply map_ext_in. intros x Hx. unfold QdAdd.bdim. f_equal. apply (map_eq_in _ _ cs Qc' x Hx). }
    rewrite Da, Dz, Dcs, <- Eex.
    set (tt := map (inpos s) a ++ placeof cs s :: map (inpos s) z).
    assert (Vt : valid (ad ++ ex :: zd) tt).
    { apply valid_join; [|constructor].
      - apply (inrange_valid (bdim beta)). apply inpos_range; [intros x Hx; apply Hs; rewrite in_app_iff; auto|exact Qa].
      - rewrite B2, <- Qc. now apply placeof_lt.
      - apply (inrange_valid (bdim beta)). apply inpos_range; [intros x Hx; apply Hs; rewrite !in_app_iff; auto|exact Qz]. }
    destruct (Hdot tt Vt) as (ta & t0 & tz & ET & Va & H1 & Vz & DS & DT).
    unfold tt in ET. apply app_eq_inv in ET as [<- ET]; [|apply valid_length in Va; rewrite Va; unfold ad; now rewrite !map_length]. injection ET as <- <-.
    rewrite <- DT, W1 by exact Vt. unfold sd. rewrite nth_firstn_lt by (rewrite <- LSd; rewrite DS; rewrite LSd; pose proof (enc_lt _ _ Va) as Q1; pose proof (enc_lt _ _ Vz) as Q2;
      assert (st + placeof cs s + Dc * enc zd (map (inpos s) z) < Dc * size zd) by nia; nia).
    rewrite nth_skipn, DS. f_equal. lia.
  - intros Hn. rewrite V2 by (intros [Q1 Q2]; apply Hn; split; [auto|lia]). apply Keep. intros Q. rewrite BN in Q. unfold nbk in Q.
    apply app_eq_inv in Q as [Qa Q]; [|unfold QdSpec.blockof; now rewrite !map_length].
    apply app_eq_inv in Q as [Qc Qz]; [|unfold QdSpec.blockof; rewrite map_length; apply valid_length in Vd; rewrite map_length in Vd; lia].
    assert (Ek : kof s = k) by (unfold kof; rewrite Qc; now apply enc_decode). apply Hn. split; [|lia].
    rewrite (un_blockof s Hs), Ek, En, Qa, Qz, map_app. reflexivity.
Qed.

Lemma uncombine_blocks_spec : forall l dst, incl l (offs d) -> stored N (mkQD (offs D) dst) ->
  exists S', uncombine_blocks bs dis cs N (length a) tab d D l dst = Ok S' /\ stored N (mkQD (offs D) S') /\
    forall s, ranged N s ->
      (In (blockof dis (withJ s)) (map fst l) -> qval N (mkQD (offs D) S') s = qval dis d (withJ s)) /\
      (~ In (blockof dis (withJ s)) (map fst l) -> qval N (mkQD (offs D) S') s = qval N (mkQD (offs D) dst) s).
Proof.
  induction l as [|[b o] l IH]; intros dst HI SD; cbn [uncombine_blocks].
  { exists dst. split; [reflexivity|]. split; [exact SD|]. intros s Hs. split; [intros []|auto]. }
  assert (Hin : In (b, o) (offs d)) by (apply HI; left; auto).
  destruct (stored_bound _ _ _ _ _ Sd Hin) as [V L].
  destruct (beta_of bs ieq ieq_spec dis b (proj1 Hd) V) as (beta & ->). clear V L.
  assert (EO : oget (map beta dis) (length a) = Ok (beta c)).
  { rewrite map_app. cbn [map]. apply oget_app. now rewrite map_length. }
  rewrite EO. cbn [obind].
  destruct (uncombine_table_spec beta o Hin (size e) 0 dst eq_refl SD) as (S1 & ES1 & SS1 & HV1). cbn [skipn] in ES1. rewrite ES1. cbn [obind].
  destruct (IH S1 ltac:(intros y Hy; apply HI; now right) SS1) as (S' & ES & SS & HV).
  exists S'. split; [exact ES|]. split; [exact SS|]. intros s Hs. destruct (HV s Hs) as [V1 V2]. destruct (HV1 s Hs) as [U1 U2]. cbn [map fst In].
  split.
  - intros [Q|Q]; [|auto]. destruct (in_dec (list_eq_dec Nat.eq_dec) (blockof dis (withJ s)) (map fst l)) as [K|K]; auto.
    rewrite V2 by exact K. apply U1. split; [auto|lia].
  - intros Hn. rewrite V2, U2; auto. intros [Q _]. apply Hn. left. auto.
Qed.
End Uncombine.
End Tab.
