(** Lemmas about block-sparse storage: search, element access, layout. *)
From Coq Require Import List ZArith Lia Bool Arith Permutation Sorted.
From Verif Require Import Util RangeModel RangeSpec RangeProofs TensorModel TensorSpec TensorProofs SemProofs
  ContractModel DenseModel QnModel QdModel QdSpec.
Import ListNotations.
Open Scope outcome_scope.
Local Arguments Nat.sub : simpl never.
Local Arguments Nat.div : simpl never.

(** * Order of blocks *)
Lemma lexlt_irr : forall a, lexlt a a = false.
Proof. induction a as [|x a IH]; cbn [lexlt]; auto. rewrite Nat.ltb_irrefl. exact IH. Qed.
Lemma lexlt_snoc : forall a b x y, length a = length b ->
  lexlt (a ++ [x]) (b ++ [y]) = if lexlt a b then true else if lexlt b a then false else x <? y.
Proof.
  induction a as [|i a IH]; intros [|j b] x y H; cbn [length] in H; try lia; cbn [app lexlt].
  - destruct (x <? y); auto. destruct (y <? x); auto.
  - destruct (i <? j) eqn:E1; auto. destruct (j <? i) eqn:E2; auto.
Qed.
Lemma lexlt_total : forall a b, length a = length b -> lexlt a b = false -> lexlt b a = false -> a = b.
Proof.
  induction a as [|i a IH]; intros [|j b] H; cbn [length] in H; try lia; cbn [lexlt]; auto.
  destruct (Nat.ltb_spec i j), (Nat.ltb_spec j i); try discriminate; intros; try lia.
  assert (i = j) by lia. subst. f_equal. apply IH; auto.
Qed.

Lemma block_lt_key : forall e a b, valid e a -> valid e b -> block_lt a b = (colmajor e a <? colmajor e b).
Proof.
  intros e a b Ha. revert b. induction Ha as [|d i e a Hi Ha IH]; intros b Hb; inversion Hb as [|? j ? b' Hj Hb']; subst.
  - reflexivity.
  - unfold block_lt. cbn [rev colmajor]. rewrite lexlt_snoc.
    2:{ rewrite !rev_length. rewrite (valid_length _ _ Ha), (valid_length _ _ Hb'). reflexivity. }
    fold (block_lt a b'). fold (block_lt b' a). rewrite (IH b' Hb').
    assert (IH' : block_lt b' a = (colmajor e b' <? colmajor e a)).
    { destruct (Nat.ltb_spec (colmajor e b') (colmajor e a)) as [K|K].
      - destruct (block_lt b' a) eqn:E; auto. unfold block_lt in E. specialize (IH b' Hb'). unfold block_lt in IH.
        assert (rev a = rev b').
        { apply lexlt_total; auto. { rewrite !rev_length, (valid_length _ _ Ha), (valid_length _ _ Hb'). reflexivity. }
          rewrite IH. apply Nat.ltb_ge. lia. }
        assert (a = b') by (rewrite <- (rev_involutive a), <- (rev_involutive b'); congruence). subst. lia.
      - destruct (block_lt b' a) eqn:E; auto. exfalso.
        destruct (Nat.eq_dec (colmajor e a) (colmajor e b')) as [Q|Q].
        + rewrite !colmajor_enc in Q. apply enc_inj in Q; auto. subst. unfold block_lt in E. rewrite lexlt_irr in E. discriminate.
        + specialize (IH b' Hb'). destruct (Nat.ltb_spec (colmajor e a) (colmajor e b')); [|lia].
          unfold block_lt in *. clear - E IH. revert E IH. generalize (rev a) (rev b').
          induction l as [|x l IHl]; intros [|y l'] E1 E2; cbn [lexlt] in *; try discriminate.
          destruct (Nat.ltb_spec x y), (Nat.ltb_spec y x); try discriminate; try lia. apply (IHl l'); auto. }
    rewrite IH'. destruct (Nat.ltb_spec (colmajor e a) (colmajor e b')), (Nat.ltb_spec (colmajor e b') (colmajor e a));
      symmetry; try (apply Nat.ltb_lt; nia); try (apply Nat.ltb_ge; nia); try lia.
    assert (Q : colmajor e a = colmajor e b') by lia. rewrite Q.
    destruct (Nat.ltb_spec i j); [apply Nat.ltb_lt; lia|apply Nat.ltb_ge; lia].
Qed.

Lemma key_inj e a b : valid e a -> valid e b -> colmajor e a = colmajor e b -> a = b.
Proof. intros Ha Hb. rewrite !colmajor_enc. apply enc_inj; auto. Qed.

Lemma block_eqb_spec : forall a b, block_eqb a b = true <-> a = b.
Proof.
  induction a as [|x a IH]; intros [|y b]; cbn [block_eqb]; split; try congruence; try discriminate.
  - rewrite andb_true_iff, Nat.eqb_eq, IH. intros [-> ->]. reflexivity.
  - intros E. injection E as -> ->. rewrite Nat.eqb_refl. cbn. apply IH. reflexivity.
Qed.

Lemma block_gt_key e a b : valid e a -> valid e b -> block_gt a b = (colmajor e b <? colmajor e a).
Proof.
  intros Ha Hb. unfold block_gt. rewrite (block_lt_key e) by auto.
  destruct (block_eqb a b) eqn:E.
  - apply block_eqb_spec in E. subst. rewrite Nat.ltb_irrefl. reflexivity.
  - assert (colmajor e a <> colmajor e b).
    { intros Q. apply (key_inj e) in Q; auto. apply block_eqb_spec in Q. congruence. }
    destruct (Nat.ltb_spec (colmajor e a) (colmajor e b)), (Nat.ltb_spec (colmajor e b) (colmajor e a)); auto; lia.
Qed.

(** * Binary search *)
Lemma sorted_nth {A} (P : A -> A -> Prop) d : forall l, StronglySorted P l ->
  forall i j, i < j -> j < length l -> P (nth i l d) (nth j l d).
Proof.
  intros l HS. induction HS as [|x l' HS' IH HF]; intros i j Hij Hj; cbn [length] in Hj; [lia|].
  destruct j as [|j]; [lia|]. destruct i as [|i]; cbn [nth].
  - rewrite Forall_forall in HF. apply HF. apply nth_In. lia.
  - apply IH; lia.
Qed.
Section Search.
Variable e : list nat.
Notation key := (colmajor e).
Variable l : list blof.
Hypothesis HV : Forall (fun x => valid e (fst x)) l.
Hypothesis HS : StronglySorted (fun a b : blof => key (fst a) < key (fst b)) l.

Definition kat (i : nat) : nat := key (fst (nth i l ([], 0))).
Lemma kat_mono i j : i < j -> j < length l -> kat i < kat j.
Proof.
  unfold kat. apply (sorted_nth (fun a b : blof => key (fst a) < key (fst b)) ([], 0) l HS).
Qed.
Lemma kat_mono_le i j : i <= j -> j < length l -> kat i <= kat j.
Proof. intros H Hj. destruct (Nat.eq_dec i j) as [->|N]; auto. assert (i < j) by lia. pose proof (kat_mono i j H0 Hj). lia. Qed.
Lemma nth_valid i : i < length l -> valid e (fst (nth i l ([], 0))).
Proof. intros H. rewrite Forall_forall in HV. apply HV. apply nth_In. exact H. Qed.

Variable b : block.
Hypothesis Hb : valid e b.
Lemma lb_spec : forall fuel first len, len <= fuel -> first + len <= length l ->
  (forall i, i < first -> kat i < key b) -> (forall i, first + len <= i -> i < length l -> key b <= kat i) ->
  exists p, lb fuel l b first len = Ok p /\ p <= length l /\
    (forall i, i < p -> kat i < key b) /\ (forall i, p <= i -> i < length l -> key b <= kat i).
Proof.
  induction fuel as [|f IH]; intros first len Hf Hl H1 H2.
  - assert (len = 0) by lia. subst. cbn. exists first. repeat split; auto; try lia. intros; apply H2; lia.
  - destruct len as [|len]; [cbn; exists first; repeat split; auto; try lia; intros; apply H2; lia|].
    cbn [lb]. pose proof (Nat.div_lt (S len) 2 ltac:(lia) ltac:(lia)) as Hh. set (half := S len / 2) in *.
    rewrite (oget_ok (([], 0) : blof)) by lia. cbn [obind]. rewrite (block_lt_key e) by (auto; apply nth_valid; lia).
    fold (kat (first + half)). destruct (Nat.ltb_spec (kat (first + half)) (key b)) as [K|K].
    + apply IH; try lia.
      * intros i Hi. pose proof (kat_mono_le i (first + half) ltac:(lia) ltac:(lia)). lia.
      * intros i Hi Hi'. apply H2; lia.
    + apply IH; try lia; auto.
      intros i Hi Hi'. pose proof (kat_mono_le (first + half) i ltac:(lia) ltac:(lia)). lia.
Qed.
Lemma ub_spec : forall fuel first len, len <= fuel -> first + len <= length l ->
  (forall i, i < first -> kat i <= key b) -> (forall i, first + len <= i -> i < length l -> key b < kat i) ->
  exists p, ub fuel l b first len = Ok p /\ p <= length l /\
    (forall i, i < p -> kat i <= key b) /\ (forall i, p <= i -> i < length l -> key b < kat i).
Proof.
  induction fuel as [|f IH]; intros first len Hf Hl H1 H2.
  - assert (len = 0) by lia. subst. cbn. exists first. repeat split; auto; try lia. intros; apply H2; lia.
  - destruct len as [|len]; [cbn; exists first; repeat split; auto; try lia; intros; apply H2; lia|].
    cbn [ub]. pose proof (Nat.div_lt (S len) 2 ltac:(lia) ltac:(lia)) as Hh. set (half := S len / 2) in *.
    rewrite (oget_ok (([], 0) : blof)) by lia. cbn [obind]. rewrite (block_lt_key e) by (auto; apply nth_valid; lia).
    fold (kat (first + half)). destruct (Nat.ltb_spec (key b) (kat (first + half))) as [K|K].
    + apply IH; try lia; auto.
      intros i Hi Hi'. pose proof (kat_mono_le (first + half) i ltac:(lia) ltac:(lia)). lia.
    + apply IH; try lia.
      * intros i Hi. pose proof (kat_mono_le i (first + half) ltac:(lia) ltac:(lia)). lia.
      * intros i Hi Hi'. apply H2; lia.
Qed.

Lemma offsetOf_in o : In (b, o) l -> offsetOf l b = Ok (Some o) /\
  exists p, offsetOfLoc l b = Ok p /\ nth_error l p = Some (b, o).
Proof.
  intros Hin. destruct (In_nth l _ ([], 0) Hin) as (k & Hk & E).
  assert (Kk : kat k = key b) by (unfold kat; rewrite E; reflexivity).
  destruct (lb_spec (length l) 0 (length l)) as (p & Ep & Lp & P1 & P2); try lia.
  destruct (ub_spec (length l) 0 (length l)) as (q & Eq & Lq & Q1 & Q2); try lia.
  assert (p = k).
  { destruct (Nat.lt_trichotomy p k) as [H|[H|H]]; auto.
    - pose proof (kat_mono p k H Hk). pose proof (P2 p ltac:(lia) ltac:(lia)). lia.
    - specialize (P1 k H). lia. }
  assert (q = S k).
  { destruct (Nat.lt_trichotomy q (S k)) as [H0|[H0|H0]]; auto.
    - specialize (Q2 k ltac:(lia) ltac:(lia)). lia.
    - specialize (Q1 (S k) ltac:(lia)). pose proof (kat_mono k (S k) ltac:(lia) ltac:(lia)). lia. }
  subst p q. split.
  - unfold offsetOf, offsetOfLoc. rewrite Ep. cbn [obind]. rewrite Eq. cbn [obind].
    destruct (Nat.eqb_spec k (S k)); [lia|]. rewrite (oget_ok (([], 0) : blof)) by auto. rewrite E. reflexivity.
  - exists k. split; [exact Ep|]. rewrite <- E. apply nth_error_nth'. auto.
Qed.
Lemma offsetOf_notin : ~ In b (map fst l) -> offsetOf l b = Ok None.
Proof.
  intros Hn.
  destruct (lb_spec (length l) 0 (length l)) as (p & Ep & Lp & P1 & P2); try lia.
  destruct (ub_spec (length l) 0 (length l)) as (q & Eq & Lq & Q1 & Q2); try lia.
  assert (NE : forall i, i < length l -> kat i <> key b).
  { intros i Hi Q. apply Hn. apply (key_inj e) in Q; auto; [|now apply nth_valid]. rewrite <- Q. apply in_map, nth_In, Hi. }
  assert (p = q).
  { destruct (Nat.lt_trichotomy p q) as [H|[H|H]]; auto; exfalso.
    - specialize (P2 p ltac:(lia) ltac:(lia)). specialize (Q1 p H). apply (NE p); lia.
    - specialize (P1 q H). specialize (Q2 q ltac:(lia) ltac:(lia)). lia. }
  subst. unfold offsetOf, offsetOfLoc. rewrite Ep. cbn [obind]. rewrite Eq. cbn [obind]. rewrite Nat.eqb_refl. reflexivity.
Qed.
End Search.

(** * Values, blocks and places *)
Lemma blk_lt : forall l v, v < list_sum l -> blk l v < length l /\ pos l v < nth (blk l v) l 0.
Proof.
  induction l as [|n l IH]; intros v H; [cbn in H; lia|]. cbn [blk pos length].
  change (list_sum (n :: l)) with (n + list_sum l) in H.
  destruct (Nat.ltb_spec v n) as [K|K]; cbn [nth]; [lia|]. destruct (IH (v - n) ltac:(lia)). lia.
Qed.
Lemma locate_spec : forall l v, v < list_sum l -> locate l v = Ok (blk l v, pos l v, nth (blk l v) l 0).
Proof.
  induction l as [|n l IH]; intros v H; [cbn in H; lia|]. cbn [blk pos locate].
  change (list_sum (n :: l)) with (n + list_sum l) in H.
  destruct (Nat.ltb_spec v n) as [K|K]; destruct (Nat.leb_spec n v); try lia; cbn [nth]; auto.
  rewrite (IH (v - n)) by lia. reflexivity.
Qed.
Lemma locate_past : forall l v, list_sum l <= v -> locate l v = UB.
Proof.
  induction l as [|n l IH]; intros v H; auto. cbn [locate]. change (list_sum (n :: l)) with (n + list_sum l) in H.
  destruct (Nat.leb_spec n v); [|lia]. rewrite IH by lia. reflexivity.
Qed.

Section Layout.
Context {R : Type} (r0 : R) {I : Type} (bs : I -> list nat).
Notation nblocks := (nblocks bs).
Notation sz := (sz bs).
Notation filled := (filled bs).
Notation stored := (stored bs).
Notation qval := (qval r0 bs).
Notation proper := (proper bs).
Notation ranged := (ranged bs).
Notation blockof := (blockof bs).
Notation dimsof := (dimsof bs).
Notation placeof := (placeof bs).

Lemma blockof_valid is s : ranged is s -> valid (map nblocks is) (blockof is s).
Proof.
  intros H. unfold blockof. induction is as [|x is IH]; cbn [map]; constructor.
  - apply blk_lt. apply H. left. reflexivity.
  - apply IH. intros y Hy. apply H. right. exact Hy.
Qed.
Lemma dimsof_sz is s : prod (dimsof is s) = sz is (blockof is s).
Proof. unfold prod, QdSpec.dimsof, QdSpec.blockof. induction is as [|x is IH]; auto. cbn [map fold_right QdSpec.sz]. rewrite IH. reflexivity. Qed.
Lemma placeof_lt is s : ranged is s -> placeof is s < sz is (blockof is s).
Proof.
  intros H. rewrite <- dimsof_sz. unfold placeof, dimsof. induction is as [|x is IH]; cbn [map colmajor prod fold_right]; [lia|].
  assert (K : pos (bs x) (s x) < nth (blk (bs x) (s x)) (bs x) 0) by (apply blk_lt, H; left; reflexivity).
  specialize (IH ltac:(intros y Hy; apply H; right; exact Hy)). unfold prod in IH. nia.
Qed.
Lemma elt_loc_spec : forall is s k, ranged is s -> elt_loc bs is (map s is) k = Ok (blockof is s, k * placeof is s).
Proof.
  induction is as [|x is IH]; intros s k H; cbn [elt_loc map]; [cbn; rewrite Nat.mul_0_r; reflexivity|].
  rewrite locate_spec by (apply H; left; reflexivity). cbn [obind]. rewrite IH by (intros y Hy; apply H; right; exact Hy).
  cbn [obind]. f_equal. f_equal. unfold placeof, dimsof. cbn [map colmajor]. nia.
Qed.

Lemma bdims_spec : forall is b, valid (map nblocks is) b ->
  bdims bs is b = Ok (map (fun p => nth (snd p) (bs (fst p)) 0) (combine is b)).
Proof.
  induction is as [|x is IH]; intros b H; inversion H as [|? i ? b' Hi Hb]; subst; cbn [bdims combine map]; auto.
  rewrite (oget_ok 0) by exact Hi. cbn [obind]. rewrite IH by auto. reflexivity.
Qed.
Lemma prod_sz : forall is b, length b = length is -> prod (map (fun p => nth (snd p) (bs (fst p)) 0) (combine is b)) = sz is b.
Proof.
  induction is as [|x is IH]; intros [|i b] H; cbn [length] in H; try lia; auto. cbn. unfold prod in IH. rewrite IH by lia. reflexivity.
Qed.
Lemma bsize_spec is b : valid (map nblocks is) b -> bsize bs is b = Ok (sz is b).
Proof.
  intros H. unfold bsize. rewrite bdims_spec by auto. cbn. rewrite prod_sz; auto.
  rewrite (valid_length _ _ H), map_length. reflexivity.
Qed.

Lemma sz_pos : forall is b, (forall x, In x is -> Forall (fun n => 0 < n) (bs x)) -> valid (map nblocks is) b -> 0 < sz is b.
Proof.
  induction is as [|x is IH]; intros b H Hb; [cbn; lia|]. inversion Hb as [|? i ? b' Hi Hb']; subst. cbn [QdSpec.sz].
  assert (0 < nth i (bs x) 0).
  { specialize (H x (or_introl eq_refl)). rewrite Forall_forall in H. apply H. apply nth_In. exact Hi. }
  specialize (IH b' ltac:(intros; apply H; right; assumption) Hb'). nia.
Qed.

(** * Layout *)
Fixpoint tot (is : list I) (l : list blof) : nat :=
  match l with [] => 0 | x :: l' => sz is (fst x) + tot is l' end.
Lemma tot_app is l l' : tot is (l ++ l') = tot is l + tot is l'.
Proof. induction l as [|x l IH]; cbn [tot app]; [reflexivity|]. rewrite IH. lia. Qed.

Lemma filled_app : forall is l l' o n, filled is o (l ++ l') n <->
  filled is o l (o + tot is l) /\ filled is (o + tot is l) l' n.
Proof.
  intros is. induction l as [|[b p] l IH]; intros l' o n; cbn [app QdSpec.filled tot fst].
  - rewrite Nat.add_0_r. tauto.
  - rewrite IH. rewrite Nat.add_assoc. tauto.
Qed.
Lemma filled_tot is : forall l o n, filled is o l n -> n = o + tot is l.
Proof. induction l as [|[b p] l IH]; intros o n H; cbn [QdSpec.filled tot fst] in *; [lia|]. destruct H as (_ & _ & H). apply IH in H. lia. Qed.
Lemma filled_valid is : forall l o n, filled is o l n -> Forall (fun x => valid (map nblocks is) (fst x)) l.
Proof. induction l as [|[b p] l IH]; intros o n H; cbn [QdSpec.filled] in *; constructor; [tauto|]. destruct H as (_ & _ & H). apply (IH _ _ H). Qed.
Lemma filled_at is l1 b p l2 o n : filled is o (l1 ++ (b, p) :: l2) n ->
  p = o + tot is l1 /\ valid (map nblocks is) b /\ p + sz is b + tot is l2 = n.
Proof.
  intros H. apply filled_app in H as [H1 H2]. cbn [QdSpec.filled] in H2. destruct H2 as (-> & V & H2). apply filled_tot in H2. auto.
Qed.

Definition keyed (is : list I) (a b : blof) : Prop := colmajor (map nblocks is) (fst a) < colmajor (map nblocks is) (fst b).
Lemma sorted_nodup is l : StronglySorted (keyed is) l -> NoDup (map fst l).
Proof.
  intros HS. induction HS as [|x l HS IH HF]; cbn [map]; constructor; auto.
  intros Hin. apply in_map_iff in Hin as (y & E & Hy). rewrite Forall_forall in HF. specialize (HF y Hy). unfold keyed in HF. rewrite E in HF. lia.
Qed.

Definition beq (c : block) (e : blof) : bool := if list_eq_dec Nat.eq_dec (fst e) c then true else false.
Lemma find_in (c : block) o : forall l, NoDup (map fst l) -> In (c, o) l -> find (beq c) l = Some (c, o).
Proof.
  induction l as [|x l IH]; intros HN H; [contradiction|]. cbn [find]. unfold beq at 1. cbn [map] in HN. inversion HN; subst.
  destruct (list_eq_dec Nat.eq_dec (fst x) c) as [E|E].
  - destruct H as [->|H]; auto. exfalso. apply H2. rewrite E. apply (in_map fst) in H. exact H.
  - destruct H as [->|H]; [cbn in E; congruence|]. auto.
Qed.
Lemma find_notin (c : block) : forall l, ~ In c (map fst l) -> find (beq c) l = None.
Proof.
  induction l as [|x l IH]; intros H; auto. cbn [find map] in *. unfold beq at 1.
  destruct (list_eq_dec Nat.eq_dec (fst x) c) as [E|E]; [exfalso; apply H; left; auto|]. apply IH. intros Q. apply H. right. exact Q.
Qed.
Lemma qval_in is d s o : NoDup (map fst (offs d)) -> In (blockof is s, o) (offs d) ->
  qval is d s = nth (o + placeof is s) (store d) r0.
Proof. intros HN H. unfold qval. change (fun e => if list_eq_dec Nat.eq_dec (fst e) (blockof is s) then true else false) with (beq (blockof is s)). rewrite (find_in _ o) by auto. reflexivity. Qed.
Lemma qval_notin is d s : ~ In (blockof is s) (map fst (offs d)) -> qval is d s = r0.
Proof. intros H. unfold qval. change (fun e => if list_eq_dec Nat.eq_dec (fst e) (blockof is s) then true else false) with (beq (blockof is s)). rewrite find_notin by auto. reflexivity. Qed.

Lemma in_fst {A B} (a : A) (l : list (A * B)) : In a (map fst l) -> exists b, In (a, b) l.
Proof. intros H. apply in_map_iff in H as ([a' b] & <- & H). eauto. Qed.
Definition block_dec (b : block) (l : list blof) : {In b (map fst l)} + {~ In b (map fst l)} :=
  in_dec (list_eq_dec Nat.eq_dec) b (map fst l).

Lemma stored_bound is (d : qd R) b o : stored is d -> In (b, o) (offs d) -> valid (map nblocks is) b /\ o + sz is b <= length (store d).
Proof.
  intros [HF _] H. apply in_split in H as (l1 & l2 & E). rewrite E in HF. apply filled_at in HF as (_ & V & L). split; auto. lia.
Qed.
Lemma stored_nodup is (d : qd R) : stored is d -> NoDup (map fst (offs d)).
Proof. intros [_ H]. apply (sorted_nodup is). exact H. Qed.
Lemma stored_valid is (d : qd R) : stored is d -> Forall (fun x => valid (map nblocks is) (fst x)) (offs d).
Proof. intros [H _]. eapply filled_valid. exact H. Qed.

Lemma lookup_in is (d : qd R) b o : stored is d -> In (b, o) (offs d) -> offsetOf (offs d) b = Ok (Some o).
Proof.
  intros H Hin. destruct (stored_bound _ _ _ _ H Hin) as [V _].
  apply (offsetOf_in (map nblocks is)); auto; [apply (stored_valid _ _ H)|apply H].
Qed.
Lemma lookup_notin is (d : qd R) b : stored is d -> valid (map nblocks is) b -> ~ In b (map fst (offs d)) -> offsetOf (offs d) b = Ok None.
Proof. intros H V Hn. apply (offsetOf_notin (map nblocks is)); auto; [apply (stored_valid _ _ H)|apply H]. Qed.

(** A tensor without indices has one block or none. *)
Lemma stored_nil (d : qd R) : stored [] d -> (offs d = [] /\ store d = []) \/ (exists v, offs d = [([], 0)] /\ store d = [v]).
Proof.
  intros [HF HS]. destruct (offs d) as [|[b o] l] eqn:E.
  - left. split; auto. cbn in HF. destruct (store d); auto. discriminate.
  - right. cbn [QdSpec.filled map] in HF. destruct HF as (-> & V & HF). inversion V; subst.
    destruct l as [|[b' o'] l].
    + cbn in HF. destruct (store d) as [|v [|]]; try discriminate. exists v. split; reflexivity.
    + cbn [QdSpec.filled map] in HF. destruct HF as (_ & V' & _). inversion V'; subst.
      inversion HS as [|? ? _ HF']; subst. inversion HF'; subst. cbn in H1. lia.
Qed.

Theorem qget_spec is (d : qd R) s : stored is d -> ranged is s -> qget r0 bs is d (map s is) = Ok (qval is d s).
Proof.
  intros H Hr. unfold qget, getEltBlockOffset. destruct is as [|x is].
  - cbn [map obind]. destruct (stored_nil _ H) as [[E1 E2]|(v & E1 & E2)].
    + rewrite E2. unfold qval. rewrite E1. reflexivity.
    + rewrite E2. unfold qval. rewrite E1. cbn. rewrite E2. reflexivity.
  - remember (x :: is) as is' eqn:Eis. assert (map s is' <> []) by (rewrite Eis; discriminate).
    destruct (map s is') as [|v0 vs] eqn:Em; [congruence|]. rewrite <- Em. clear Em H0 Eis.
    rewrite elt_loc_spec by auto. cbn [obind]. rewrite Nat.mul_1_l.
    destruct (block_dec (blockof is' s) (offs d)) as [K|K].
    + apply in_fst in K as (o & K). rewrite (lookup_in is' d _ o H K). cbn [obind option_map].
      rewrite (qval_in _ _ _ o) by (auto; apply (stored_nodup _ _ H)).
      destruct (stored_bound _ _ _ _ H K) as [_ L]. pose proof (placeof_lt is' s Hr). apply oget_ok. lia.
    + rewrite (lookup_notin is' d _ H) by (auto; apply blockof_valid; auto). cbn [obind option_map].
      rewrite qval_notin; auto.
Qed.

(** * Two different elements are in different places *)
Lemma blk_pos_inj : forall l v w, v < list_sum l -> w < list_sum l -> blk l v = blk l w -> pos l v = pos l w -> v = w.
Proof.
  induction l as [|n l IH]; intros v w Hv Hw; [cbn in Hv; lia|]. cbn [blk pos].
  change (list_sum (n :: l)) with (n + list_sum l) in *.
  destruct (Nat.ltb_spec v n), (Nat.ltb_spec w n); intros E1 E2; try lia; try discriminate.
  injection E1 as E1. specialize (IH (v - n) (w - n) ltac:(lia) ltac:(lia) E1 E2). lia.
Qed.
Lemma place_inj is s s' : ranged is s -> ranged is s' -> blockof is s = blockof is s' -> placeof is s = placeof is s' ->
  map s is = map s' is.
Proof.
  intros H H' EB EP. unfold QdSpec.placeof in EP.
  assert (ED : dimsof is s = dimsof is s').
  { clear - EB. unfold QdSpec.dimsof, QdSpec.blockof in *. induction is as [|x is IH]; auto. cbn [map] in *. injection EB as E1 E2. rewrite E1, (IH E2). reflexivity. }
  rewrite <- ED in EP. apply (key_inj (dimsof is s)) in EP.
  - clear ED. unfold QdSpec.blockof in EB. induction is as [|x is IH]; auto. cbn [map] in *. injection EB as E1 E2. injection EP as E3 E4.
    f_equal; [apply (blk_pos_inj (bs x)); auto; [apply H|apply H']; left; reflexivity|].
    apply IH; auto; intros y Hy; [apply H|apply H']; right; exact Hy.
  - clear - H. unfold QdSpec.dimsof. induction is as [|x is IH]; cbn [map]; constructor; [apply blk_lt, H; left; reflexivity|]. apply IH. intros y Hy. apply H. right. exact Hy.
  - rewrite ED. clear - H'. unfold QdSpec.dimsof. induction is as [|x is IH]; cbn [map]; constructor; [apply blk_lt, H'; left; reflexivity|]. apply IH. intros y Hy. apply H'. right. exact Hy.
Qed.
Lemma map_eq_in {A B} (f g : A -> B) l : map f l = map g l -> forall x, In x l -> f x = g x.
Proof. induction l as [|y l IH]; intros E x H; [contradiction|]. cbn [map] in E. injection E as E1 E2. destruct H as [->|H]; auto. Qed.
Lemma place_eq is s s' : map s is = map s' is -> blockof is s = blockof is s' /\ placeof is s = placeof is s'.
Proof.
  intros E. pose proof (map_eq_in _ _ _ E) as K. unfold QdSpec.placeof, QdSpec.dimsof, QdSpec.blockof. split; [|f_equal]; apply map_ext_in; intros x Hx; rewrite (K x Hx); reflexivity.
Qed.
Lemma qval_eq is (d : qd R) s s' : map s is = map s' is -> qval is d s = qval is d s'.
Proof. intros E. destruct (place_eq _ _ _ E) as [E1 E2]. unfold QdSpec.qval. rewrite E1, E2. reflexivity. Qed.

Lemma sorted_key_uniq is l a b : StronglySorted (keyed is) l -> In a l -> In b l -> fst a = fst b -> a = b.
Proof.
  intros HS Ha Hb E. pose proof (sorted_nodup is l HS) as HN. clear HS. revert HN Ha Hb. induction l as [|x l IH]; intros HN Ha Hb; [contradiction|].
  cbn [map] in HN. inversion HN; subst. destruct Ha as [->|Ha], Hb as [->|Hb]; auto; exfalso; apply H1.
  - rewrite E. apply in_map. exact Hb.
  - rewrite <- E. apply in_map. exact Ha.
Qed.
Lemma blocks_disjoint is : forall l o n b p b' p', filled is o l n -> In (b, p) l -> In (b', p') l -> (b, p) <> (b', p') ->
  p + sz is b <= p' \/ p' + sz is b' <= p.
Proof.
  induction l as [|[c q] l IH]; intros o n b p b' p' HF H1 H2 HN; [contradiction|]. cbn [QdSpec.filled] in HF. destruct HF as (-> & V & HF).
  assert (G : forall c' q', In (c', q') l -> o + sz is c <= q').
  { intros c' q' Hin. apply in_split in Hin as (l1 & l2 & ->). apply filled_at in HF as (-> & _ & _). lia. }
  destruct H1 as [E1|H1], H2 as [E2|H2].
  - congruence.
  - injection E1 as -> ->. left. apply (G b' p'). exact H2.
  - injection E2 as -> ->. right. apply (G b p). exact H1.
  - apply (IH _ _ _ _ _ _ HF H1 H2 HN).
Qed.

Lemma qval_upd is (d : qd R) s o v : stored is d -> ranged is s -> In (blockof is s, o) (offs d) ->
  let d' := mkQD (offs d) (upd (o + placeof is s) v (store d)) in
  stored is d' /\ forall s', ranged is s' -> qval is d' s' = if list_eq_dec Nat.eq_dec (map s is) (map s' is) then v else qval is d s'.
Proof.
  intros H Hr Hin d'. destruct (stored_bound _ _ _ _ H Hin) as [_ LB]. pose proof (placeof_lt is s Hr) as LP. split.
  { destruct H as [HF HS]. split; cbn [offs store d']; auto. rewrite upd_length. exact HF. }
  intros s' Hr'. pose proof (placeof_lt is s' Hr') as LP'.
  destruct (block_dec (blockof is s') (offs d)) as [K|K].
  - apply in_fst in K as (o' & K). rewrite (qval_in is d' s' o') by (cbn; auto; apply (stored_nodup _ _ H)).
    rewrite (qval_in is d s' o') by (auto; apply (stored_nodup _ _ H)). cbn [store d'].
    destruct (list_eq_dec Nat.eq_dec (map s is) (map s' is)) as [E|E].
    + destruct (place_eq _ _ _ E) as [E1 E2]. rewrite <- E1 in K.
      assert (Q : (blockof is s, o') = (blockof is s, o)) by (apply (sorted_key_uniq is (offs d)); auto; apply H).
      injection Q as ->. rewrite <- E2. apply nth_upd_eq. lia.
    + apply nth_upd_neq. destruct (list_eq_dec Nat.eq_dec (blockof is s) (blockof is s')) as [E1|E1].
      * rewrite <- E1 in K. assert (Q : (blockof is s, o') = (blockof is s, o)) by (apply (sorted_key_uniq is (offs d)); auto; apply H).
        injection Q as ->. intros Q. apply E. apply place_inj; auto. lia.
      * destruct H as [HF _]. destruct (blocks_disjoint is _ _ _ _ _ _ _ HF Hin K); [congruence|lia|lia].
  - rewrite !qval_notin by auto. destruct (list_eq_dec Nat.eq_dec (map s is) (map s' is)) as [E|E]; auto.
    destruct (place_eq _ _ _ E) as [E1 _]. exfalso. apply K. rewrite <- E1. apply (in_map fst) in Hin. exact Hin.
Qed.

(** * Inserting a block *)
Lemma filled_shift is n : forall l o m, filled is o l m -> filled is (o + n) (map (fun x => (fst x, snd x + n)) l) (m + n).
Proof.
  induction l as [|[b p] l IH]; intros o m H; cbn [QdSpec.filled map fst snd] in *; [lia|]. destruct H as (-> & V & H).
  split; auto. split; auto. replace (o + n + sz is b) with (o + sz is b + n) by lia. apply IH. exact H.
Qed.
Lemma insert_loc_spec is (b : block) : forall l : list blof, valid (map nblocks is) b -> Forall (fun x => valid (map nblocks is) (fst x)) l ->
  StronglySorted (keyed is) l -> ~ In b (map fst l) ->
  insert_loc b l <= length l /\
  (forall x, In x (firstn (insert_loc b l) l) -> keyed is x (b, 0)) /\ (forall x, In x (skipn (insert_loc b l) l) -> keyed is (b, 0) x).
Proof.
  intros l Vb HV HS. induction HS as [|y l HS IH HF]; intros HN; cbn [insert_loc firstn skipn length].
  - repeat split; auto; intros x [].
  - inversion HV; subst. rewrite (block_gt_key (map nblocks is)) by auto.
    assert (NE : colmajor (map nblocks is) (fst y) <> colmajor (map nblocks is) b).
    { intros Q. apply HN. left. apply (key_inj (map nblocks is)); auto. }
    destruct (Nat.ltb_spec (colmajor (map nblocks is) (fst y)) (colmajor (map nblocks is) b)) as [K|K].
    + destruct IH as (I1 & I2 & I3); auto. { intros Q. apply HN. right. exact Q. }
      cbn [firstn skipn]. split; [lia|]. split; auto. intros x [->|Hx]; auto.
    + cbn [firstn skipn]. split; [lia|]. split; [intros x []|]. unfold keyed in *. cbn [fst]. intros x [->|Hx]; [lia|].
      rewrite Forall_forall in HF. specialize (HF x Hx). lia.
Qed.
Lemma sorted_insert {A} (P : A -> A -> Prop) l1 l2 x : StronglySorted P (l1 ++ l2) ->
  (forall y, In y l1 -> P y x) -> (forall y, In y l2 -> P x y) -> StronglySorted P (l1 ++ x :: l2).
Proof.
  induction l1 as [|y l1 IH]; cbn [app]; intros HS H1 H2.
  - constructor; auto. apply Forall_forall. exact H2.
  - inversion HS; subst. constructor.
    + apply IH; auto. intros z Hz. apply H1. right. exact Hz.
    + rewrite Forall_app in *. destruct H4. split; auto. constructor; auto. apply H1. left. reflexivity.
Qed.
Lemma sorted_map_fst is (f : blof -> blof) l : (forall x, fst (f x) = fst x) ->
  StronglySorted (keyed is) l -> StronglySorted (keyed is) (map f l).
Proof.
  intros Hf HS. induction HS as [|x l HS IH HF]; cbn [map]; constructor; auto.
  rewrite Forall_forall in *. intros y Hy. apply in_map_iff in Hy as (z & <- & Hz). unfold keyed. rewrite !Hf. apply HF. exact Hz.
Qed.
Lemma nth_firstn_lt {A} (l : list A) k n d : k < n -> nth k (firstn n l) d = nth k l d.
Proof. revert k n. induction l as [|x l IH]; intros [|k] [|n] H; cbn; auto; try lia. apply IH. lia. Qed.
Lemma nth_skipn {A} (l : list A) k n d : nth k (skipn n l) d = nth (n + k) l d.
Proof. revert l. induction n as [|n IH]; intros [|x l]; cbn; auto. destruct k; auto. Qed.

Lemma insertBlock_spec is (d : qd R) b : stored is d -> valid (map nblocks is) b -> ~ In b (map fst (offs d)) ->
  exists d' o, insertBlock r0 bs is d b = Ok (d', o) /\ stored is d' /\ In (b, o) (offs d') /\
    (forall c, In c (map fst (offs d')) <-> c = b \/ In c (map fst (offs d))) /\
    forall s, ranged is s -> qval is d' s = qval is d s.
Proof.
  intros H Vb HN. pose proof H as [HF HS]. unfold insertBlock. rewrite bsize_spec by auto. cbn [obind].
  destruct (insert_loc_spec is b (offs d) Vb (stored_valid _ _ H) HS HN) as (L & H1 & H2).
  set (loc := insert_loc b (offs d)) in *.
  set (l1 := firstn loc (offs d)) in *. set (l2 := skipn loc (offs d)) in *.
  assert (EL : offs d = l1 ++ l2) by (symmetry; apply firstn_skipn).
  assert (LL1 : length l1 = loc) by (etransitivity; [apply firstn_length|]; apply Nat.min_l; exact L).
  assert (EO : (if length (offs d) <=? loc then Ok (length (store d)) else omap snd (oget (offs d) loc)) = Ok (tot is l1)).
  { destruct (Nat.leb_spec (length (offs d)) loc) as [K|K].
    - f_equal. apply filled_tot in HF. rewrite EL in K. rewrite app_length in K. assert (l2 = []) by (destruct l2; auto; cbn in K; lia).
      rewrite EL, H0, app_nil_r in HF. lia.
    - destruct l2 as [|[c p] l2'] eqn:E2. { rewrite EL, app_nil_r in K. lia. }
      rewrite EL in HF. apply filled_at in HF as (Hp & _ & _). unfold oget. rewrite EL, nth_error_app2 by lia. rewrite LL1, Nat.sub_diag. cbn. f_equal. lia. }
  rewrite EO. cbn [obind]. pose proof HF as HF0. rewrite EL in HF0. apply filled_app in HF0 as [HFa HFb].
  pose proof (filled_tot _ _ _ _ HFb) as ET. destruct (Nat.ltb_spec (length (store d)) (tot is l1)) as [K|K]; [lia|].
  set (n := sz is b) in *. set (o := tot is l1) in *. rewrite Nat.add_0_l in *.
  set (d' := {| offs := l1 ++ (b, o) :: map (fun x => (fst x, snd x + n)) l2; store := firstn o (store d) ++ repeat r0 n ++ skipn o (store d) |} : qd R).
  exists d', o. split; [reflexivity|].
  assert (KB : forall c, In c (map fst (offs d')) <-> c = b \/ In c (map fst (offs d))).
  { intros c. cbn [offs d']. rewrite EL, !map_app. cbn [map]. rewrite map_map. cbn [fst]. rewrite !in_app_iff. cbn [In]. intuition congruence. }
  assert (ST : stored is d').
  { split; cbn [offs store d'].
    - apply filled_app. rewrite Nat.add_0_l. fold o. split; auto. cbn [QdSpec.filled]. split; auto. split; auto. fold n.
      replace (length _) with (length (store d) + n); [apply filled_shift; exact HFb|].
      rewrite !app_length, firstn_length, repeat_length, skipn_length. lia.
    - fold (keyed is). apply sorted_insert.
      + assert (G : forall l, StronglySorted (keyed is) (l1 ++ l) -> StronglySorted (keyed is) (l1 ++ map (fun x => (fst x, snd x + n)) l)).
        { clear. induction l1 as [|y l1 IH]; intros l HS; cbn [app] in *; [apply sorted_map_fst; auto|]. inversion HS; subst. constructor; auto.
          rewrite Forall_app in *. destruct H2. split; auto. rewrite Forall_forall in *. intros z Hz. apply in_map_iff in Hz as (w & <- & Hw). apply (H0 w Hw). }
        apply G. rewrite <- EL. exact HS.
      + intros y Hy. apply (H1 y Hy).
      + intros y Hy. apply in_map_iff in Hy as (w & <- & Hw). apply (H2 w Hw). }
  split; [exact ST|]. split; [cbn; apply in_or_app; right; left; reflexivity|]. split; [exact KB|].
  intros s Hr. pose proof (placeof_lt is s Hr) as LP.
  assert (LF : length (firstn o (store d)) = o) by (rewrite firstn_length; lia).
  destruct (list_eq_dec Nat.eq_dec (blockof is s) b) as [E|E].
  - rewrite (qval_in is d' s o); [|apply (stored_nodup _ _ ST)|rewrite E; cbn; apply in_or_app; right; left; reflexivity].
    rewrite qval_notin by (rewrite E; exact HN). cbn [store d']. rewrite app_nth2 by lia. rewrite LF.
    rewrite E in LP. rewrite app_nth1 by (rewrite repeat_length; unfold n; lia). apply nth_repeat.
  - destruct (block_dec (blockof is s) (offs d)) as [Q|Q].
    + apply in_fst in Q as (p & Q). rewrite (qval_in is d s p) by (auto; apply (stored_nodup _ _ H)).
      assert (Q' := Q). rewrite EL in Q'. apply in_app_iff in Q' as [Q'|Q'].
      * rewrite (qval_in is d' s p); [|apply (stored_nodup _ _ ST)|cbn; apply in_or_app; left; exact Q'].
        apply in_split in Q' as (la & lb & Ela). rewrite Ela in HFa. apply filled_at in HFa as (_ & _ & B).
        cbn [store d']. rewrite app_nth1 by lia. apply nth_firstn_lt. lia.
      * rewrite (qval_in is d' s (p + n)); [|apply (stored_nodup _ _ ST)|].
        2:{ cbn. apply in_or_app. right. right. apply (in_map (fun x : blof => (fst x, snd x + n))) in Q'. exact Q'. }
        apply in_split in Q' as (la & lb & Ela). rewrite Ela in HFb. apply filled_at in HFb as (B & _ & _). rewrite <- ?Ela in B.
        cbn [store d']. rewrite app_nth2 by lia. rewrite LF, app_nth2 by (rewrite repeat_length; lia). rewrite repeat_length, nth_skipn. f_equal. lia.
    + rewrite !qval_notin; auto. rewrite KB. tauto.
Qed.

Theorem qset_spec is (d : qd R) s v : stored is d -> ranged is s ->
  exists d', qset_elt r0 bs is d (map s is) v = Ok d' /\ stored is d' /\
    (forall c, In c (map fst (offs d')) <-> c = blockof is s \/ In c (map fst (offs d))) /\
    forall s', ranged is s' -> qval is d' s' = if list_eq_dec Nat.eq_dec (map s is) (map s' is) then v else qval is d s'.
Proof.
  intros H Hr. unfold qset_elt.
  assert (G : getEltBlockOffset bs is d (map s is) =
    Ok (if block_dec (blockof is s) (offs d) then match offsetOf (offs d) (blockof is s) with Ok (Some o) => Some (o + placeof is s) | _ => None end else None, blockof is s, placeof is s)).
  { unfold getEltBlockOffset. destruct is as [|x is].
    - cbn [map]. destruct (stored_nil _ H) as [[E1 E2]|(w & E1 & E2)]; rewrite E1, E2; destruct (block_dec (blockof [] s) _) as [K|K]; cbn in *; try tauto.
    - remember (x :: is) as is' eqn:Eis. assert (map s is' <> []) by (rewrite Eis; discriminate).
      destruct (map s is') as [|v0 vs] eqn:Em; [congruence|]. rewrite <- Em. clear Em H0 Eis.
      rewrite elt_loc_spec by auto. cbn [obind]. rewrite Nat.mul_1_l.
      destruct (block_dec (blockof is' s) (offs d)) as [K|K].
      + apply in_fst in K as (o & K). rewrite (lookup_in is' d _ o H K). reflexivity.
      + rewrite (lookup_notin is' d _ H) by (auto; apply blockof_valid; auto). reflexivity. }
  rewrite G. cbn [obind]. destruct (block_dec (blockof is s) (offs d)) as [K|K].
  - assert (K' := K). apply in_fst in K as (o & K). rewrite (lookup_in is d _ o H K). destruct (stored_bound _ _ _ _ H K) as [_ LB].
    pose proof (placeof_lt is s Hr). rewrite oupd_ok by lia. cbn [obind]. eexists. split; [reflexivity|].
    destruct (qval_upd is d s o v H Hr K) as [S1 S2]. split; [exact S1|]. split; [|exact S2].
    intros c. cbn [offs]. split; auto. intros [->|Q]; auto.
  - destruct (insertBlock_spec is d (blockof is s) H (blockof_valid _ _ Hr) K) as (d1 & o & E & ST & Hin & KB & QV).
    rewrite E. cbn [obind]. destruct (stored_bound _ _ _ _ ST Hin) as [_ LB]. pose proof (placeof_lt is s Hr). rewrite oupd_ok by lia. cbn [obind].
    eexists. split; [reflexivity|]. destruct (qval_upd is d1 s o v ST Hr Hin) as [S1 S2]. split; [exact S1|]. split; [exact KB|].
    intros s' Hr'. rewrite (S2 s' Hr'). destruct (list_eq_dec _ _ _); auto.
Qed.
End Layout.
