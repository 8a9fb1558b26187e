(** Lemmas about the truncation model. *)
From Coq Require Import List ZArith QArith Qabs Lia Lqa Bool Sorting.Sorted Permutation.
From Verif Require Import Util TruncateModel TruncateSpec.
Import ListNotations.
Open Scope Q_scope.

Local Arguments Nat.sub : simpl never.

Lemma Qltb_spec a b : reflect (a < b) (Qltb a b).
Proof.
  unfold Qltb. destruct (Qle_bool b a) eqn:E; simpl; constructor.
  - apply Qle_bool_iff in E. lra.
  - apply Qnot_le_lt. intros K. apply Qle_bool_iff in K. congruence.
Qed.

Lemma Qle_bool_spec a b : reflect (a <= b) (Qle_bool a b).
Proof.
  destruct (Qle_bool a b) eqn:E; constructor.
  - now apply Qle_bool_iff.
  - intros K. apply Qle_bool_iff in K. congruence.
Qed.

Lemma Qeq_bool_spec a b : reflect (a == b) (Qeq_bool a b).
Proof.
  destruct (Qeq_bool a b) eqn:E; constructor.
  - now apply Qeq_bool_iff.
  - intros K. apply Qeq_bool_iff in K. congruence.
Qed.

Lemma weight_nonneg p : 0 <= weight p.
Proof. unfold weight. destruct (Qle_bool_spec 0 p); lra. Qed.

Lemma weight_id p : 0 <= p -> weight p = p.
Proof. intros H. unfold weight. destruct (Qle_bool_spec 0 p); auto. contradiction. Qed.

Lemma weight_neg p : p < 0 -> weight p = 0.
Proof. intros H. unfold weight. destruct (Qle_bool_spec 0 p); auto. lra. Qed.

Lemma weight_mono a b : a <= b -> weight a <= weight b.
Proof. intros H. unfold weight. destruct (Qle_bool_spec 0 a), (Qle_bool_spec 0 b); lra. Qed.

Lemma div_le a b c : 0 < c -> a <= b -> a / c <= b / c.
Proof. intros H K. apply Qmult_le_compat_r; auto. apply Qlt_le_weak, Qinv_lt_0_compat; auto. Qed.

Lemma div_nonneg a c : 0 < c -> 0 <= a -> 0 <= a / c.
Proof. intros H K. apply Qle_shift_div_l; auto. lra. Qed.

Lemma div_neg a c : 0 < c -> a < 0 -> a / c < 0.
Proof. intros H K. apply Qlt_shift_div_r; auto. lra. Qed.

Lemma weight_div p c : 0 < c -> weight (p / c) == weight p / c.
Proof.
  intros H. unfold weight.
  destruct (Qle_bool_spec 0 p) as [A|A], (Qle_bool_spec 0 (p / c)) as [B|B]; try lra.
  - exfalso. apply B. now apply div_nonneg.
  - exfalso. apply Qnot_le_lt in A. pose proof (div_neg _ _ H A). lra.
  - field. lra.
Qed.

(** ** descending lists *)
Lemma desc_inv_snoc l p : descending (l ++ [p]) -> descending l /\ Forall (fun x => p <= x) l.
Proof.
  unfold descending. induction l as [|a l IH]; simpl; intros H.
  - split; constructor.
  - inversion H as [|? ? HS HF]; subst. destruct (IH HS) as [A B].
    apply Forall_app in HF as [F1 F2]. inversion F2; subst. split; constructor; auto.
Qed.

Lemma desc_nth P i j : descending P -> (i <= j)%nat -> (j < length P)%nat -> nth j P 0 <= nth i P 0.
Proof.
  intros H; revert i j; induction H as [|a l HS IH HF]; intros i j Hij Hj; simpl in *; [lia|].
  destruct i as [|i], j as [|j]; try lia.
  - apply Qle_refl.
  - rewrite Forall_forall in HF. apply HF. apply nth_In. lia.
  - apply IH; lia.
Qed.

Lemma desc_map f P : (forall a b, a <= b -> f a <= f b) -> descending P -> descending (map f P).
Proof.
  intros Hf H; induction H as [|a l HS IH HF]; simpl; constructor; auto.
  apply Forall_forall; intros x Hx. apply in_map_iff in Hx as (y & <- & Hy).
  rewrite Forall_forall in HF. apply Hf; auto.
Qed.

Lemma zero_trailing_desc P : descending P -> zero_trailing P = map weight P.
Proof.
  induction P as [|p P IH] using rev_ind; intros H; [reflexivity|].
  destruct (desc_inv_snoc _ _ H) as [HD HF]. unfold zero_trailing in *.
  rewrite rev_app_distr, map_app. simpl.
  destruct (Qle_bool_spec 0 p) as [A|A].
  - simpl. rewrite rev_involutive, (weight_id p) by auto. f_equal.
    clear - HF A. induction HF; simpl; auto. rewrite weight_id by lra. congruence.
  - simpl. rewrite IH by auto. rewrite weight_neg by lra. reflexivity.
Qed.

(** The normalised spectrum. *)
Definition normed (P0 : Q) (P : list Q) : list Q := map (fun p => weight (p / P0)) P.

Lemma zero_trailing_normed P0 P : 0 < P0 -> descending P ->
  zero_trailing (map (fun p => p / P0) P) = normed P0 P.
Proof.
  intros H0 HD. rewrite zero_trailing_desc.
  - now rewrite map_map.
  - apply desc_map; auto. intros a b; now apply div_le.
Qed.

Lemma sumels_skipn_normed P0 P m : 0 < P0 ->
  sumels (skipn m (normed P0 P)) == total (skipn m P) / P0.
Proof.
  intros H0. unfold normed. rewrite skipn_map. generalize (skipn m P) as l. clear - H0.
  induction l as [|p l IH]; simpl.
  - field; lra.
  - rewrite IH, weight_div by auto. field; lra.
Qed.

Lemma sumels_normed P0 P : 0 < P0 -> sumels (normed P0 P) == total P / P0.
Proof. apply (sumels_skipn_normed P0 P 0). Qed.

Lemma total_nonneg P : 0 <= total P.
Proof. induction P as [|p P IH]; simpl; [lra|]. pose proof (weight_nonneg p). lra. Qed.

Lemma skipn_cons_nth {A} (d : A) l n : (n < length l)%nat -> skipn n l = nth n l d :: skipn (S n) l.
Proof.
  revert n; induction l as [|a l IH]; intros [|n] H; cbn [length] in *; try lia; [reflexivity|].
  cbn [skipn nth]. rewrite IH by lia. reflexivity.
Qed.

Lemma sumels_skipn_S P n : (n < length P)%nat -> sumels (skipn n P) == nth n P 0 + sumels (skipn (S n) P).
Proof. intros H. rewrite (skipn_cons_nth 0) by auto. cbn [sumels]. lra. Qed.

Lemma total_skipn_S P n : (n < length P)%nat -> total (skipn n P) == weight (nth n P 0) + total (skipn (S n) P).
Proof. intros H. rewrite (skipn_cons_nth 0) by auto. cbn [total]. lra. Qed.

Lemma oget_nth P n : (n < length P)%nat -> oget P n = Ok (nth n P 0).
Proof. intros H. unfold oget. now rewrite (nth_error_nth' P 0 H). Qed.

(** ** the three loops *)
Lemma cut_maxdim_ok P maxdim : (1 <= maxdim)%Z -> forall m err,
  (m <= length P)%nat -> err == sumels (skipn m P) ->
  exists err', cut_maxdim P maxdim m err = Ok (Nat.min m (Z.to_nat maxdim), err') /\
    err' == sumels (skipn (Nat.min m (Z.to_nat maxdim)) P).
Proof.
  intros HM; induction m as [|n IH]; intros err Hm He; simpl cut_maxdim.
  - destruct (Z.leb_spec maxdim (-1)); [lia|]. eauto.
  - destruct (Z.leb_spec maxdim (Z.of_nat n)).
    + rewrite oget_nth by lia. cbn [obind]. destruct (IH (err + nth n P 0)) as (e & E1 & E2); [lia| |].
      * rewrite sumels_skipn_S by lia. rewrite He. lra.
      * replace (Nat.min (S n) (Z.to_nat maxdim)) with (Nat.min n (Z.to_nat maxdim)) by lia. eauto.
    + replace (Nat.min (S n) (Z.to_nat maxdim)) with (S n) by lia. eauto.
Qed.

Lemma cut_sum_ok P mindim bound : (1 <= mindim)%Z -> forall m err,
  (1 <= m <= length P)%nat -> err == sumels (skipn m P) ->
  exists m' err', cut_sum P mindim bound m err = Ok (m', err') /\
    err' == sumels (skipn m' P) /\ (1 <= m' <= m)%nat /\
    (Z.min mindim (Z.of_nat m) <= Z.of_nat m')%Z /\
    ((m' < m)%nat -> err' <= bound) /\
    ((mindim < Z.of_nat m')%Z -> bound < sumels (skipn (m' - 1) P)).
Proof.
  intros HM; induction m as [|n IH]; intros err Hm He; [lia|]. cbn [cut_sum].
  rewrite oget_nth by lia. cbn [obind].
  assert (HS : err + nth n P 0 == sumels (skipn n P)).
  { rewrite sumels_skipn_S by lia. rewrite He. lra. }
  destruct (Qle_bool_spec (err + nth n P 0) bound) as [A|A], (Z.leb_spec mindim (Z.of_nat n)) as [B|B];
    cbn [andb].
  - destruct (IH (err + nth n P 0)) as (m' & e & E1 & E2 & E3 & E4 & E5 & E6); [lia|auto|].
    exists m', e. repeat split; auto; try lia. intros _.
    destruct (Nat.eq_dec m' n) as [->|]; [|apply E5; lia]. rewrite E2, <- HS. auto.
  - exists (S n), err. repeat split; auto; try lia.
  - exists (S n), err. repeat split; auto; try lia.
    intros _. replace (S n - 1)%nat with n by lia. rewrite <- HS. lra.
  - exists (S n), err. repeat split; auto; try lia.
Qed.

Lemma cut_absolute_ok P mindim cutoff : (1 <= mindim)%Z -> forall m err,
  (1 <= m <= length P)%nat -> err == sumels (skipn m P) ->
  exists m' err', cut_absolute P mindim cutoff m err = Ok (m', err') /\
    err' == sumels (skipn m' P) /\ (1 <= m' <= m)%nat /\
    (Z.min mindim (Z.of_nat m) <= Z.of_nat m')%Z /\
    (forall i, (m' <= i < m)%nat -> nth i P 0 <= cutoff) /\
    ((mindim < Z.of_nat m')%Z -> cutoff < nth (m' - 1) P 0).
Proof.
  intros HM; induction m as [|n IH]; intros err Hm He; [lia|]. cbn [cut_absolute].
  rewrite oget_nth by lia. cbn [obind].
  assert (HS : err + nth n P 0 == sumels (skipn n P)).
  { rewrite sumels_skipn_S by lia. rewrite He. lra. }
  destruct (Qle_bool_spec (nth n P 0) cutoff) as [A|A], (Z.leb_spec mindim (Z.of_nat n)) as [B|B];
    cbn [andb].
  - destruct (IH (err + nth n P 0)) as (m' & e & E1 & E2 & E3 & E4 & E5 & E6); [lia|auto|].
    exists m', e. repeat split; auto; try lia. intros i Hi.
    destruct (Nat.eq_dec i n) as [->|]; auto. apply E5; lia.
  - exists (S n), err. repeat split; auto; try lia.
  - exists (S n), err. repeat split; auto; try lia.
    intros _. replace (S n - 1)%nat with n by lia. lra.
  - exists (S n), err. repeat split; auto; try lia.
Qed.

(** ** degeneracy windows *)
Lemma degen_before_spec P v dc n : (n <= length P)%nat ->
  let k := degen_before P v dc n in
  (k <= n)%nat /\ (forall i, (n - k <= i < n)%nat -> Qabs (nth i P 0 - v) < dc) /\
  ((k < n)%nat -> ~ Qabs (nth (n - k - 1) P 0 - v) < dc).
Proof.
  induction n as [|n IH]; intros Hn; cbn [degen_before]; cbv zeta.
  - repeat split; intros; lia.
  - rewrite (nth_error_nth' P 0) by lia.
    destruct (Qltb_spec (Qabs (nth n P 0 - v)) dc) as [A|A].
    + destruct IH as (B1 & B2 & B3); [lia|]. repeat split; try lia.
      * intros i Hi. destruct (Nat.eq_dec i n) as [->|]; auto. apply B2; lia.
      * intros Hk. replace (S n - S (degen_before P v dc n) - 1)%nat with (n - degen_before P v dc n - 1)%nat by lia.
        apply B3; lia.
    + repeat split; try (intros; lia). intros _. replace (S n - 0 - 1)%nat with n by lia. auto.
Qed.

Lemma degen_after_spec P v dc : forall m, 
  let k := degen_after (skipn m P) v dc in
  (m + k <= Nat.max m (length P))%nat /\ (forall i, (m <= i < m + k)%nat -> Qabs (nth i P 0 - v) < dc) /\
  ((m + k < length P)%nat -> ~ Qabs (nth (m + k) P 0 - v) < dc).
Proof.
  intros m. remember (length P - m)%nat as d eqn:E. revert m E.
  induction d as [|d IH]; intros m E.
  - rewrite skipn_all2 by lia. simpl. repeat split; intros; lia.
  - cbv zeta. rewrite (skipn_cons_nth 0) by lia. cbn [degen_after].
    destruct (Qltb_spec (Qabs (nth m P 0 - v)) dc) as [A|A].
    + destruct (IH (S m)) as (B1 & B2 & B3); [lia|]. cbv zeta in *.
      set (k := degen_after (skipn (S m) P) v dc) in *. repeat split; try lia.
      * intros i Hi. destruct (Nat.eq_dec i m) as [->|]; auto. apply B2; lia.
      * intros Hk. replace (m + S k)%nat with (S m + k)%nat by lia. apply B3; lia.
    + repeat split; try (intros; lia). intros _. now rewrite Nat.add_0_r.
Qed.

(** ** sorting *)
Lemma insert_desc_perm x l : Permutation (x :: l) (insert_desc x l).
Proof.
  induction l as [|y l IH]; simpl; auto. destruct (Qle_bool y x); auto.
  eapply perm_trans; [apply perm_swap|]. now constructor.
Qed.

Lemma sort_desc_perm l : Permutation l (sort_desc l).
Proof.
  induction l as [|x l IH]; simpl; auto. eapply perm_trans; [|apply insert_desc_perm]. now constructor.
Qed.

Lemma insert_desc_sorted x l : descending l -> descending (insert_desc x l).
Proof.
  intros H; induction H as [|y l HS IH HF]; simpl.
  - repeat constructor.
  - destruct (Qle_bool_spec y x) as [A|A].
    + constructor; [constructor; auto|]. constructor; auto.
      eapply Forall_impl; [|exact HF]. intros a Ha; simpl in *; lra.
    + constructor; auto. apply Forall_forall. intros z Hz.
      apply (Permutation_in z (Permutation_sym (insert_desc_perm x l))) in Hz as [<-|Hz].
      * lra.
      * rewrite Forall_forall in HF; auto.
Qed.

Lemma sort_desc_sorted l : descending (sort_desc l).
Proof. induction l; simpl; [constructor|now apply insert_desc_sorted]. Qed.

(** ** the block loop *)
Definition count (f : Q -> bool) (l : list Q) : nat := length (filter f l).

Lemma count_app f l l' : count f (l ++ l') = (count f l + count f l')%nat.
Proof. unfold count. rewrite filter_app, app_length. reflexivity. Qed.

Lemma count_perm f l l' : Permutation l l' -> count f l = count f l'.
Proof.
  unfold count. intros H; induction H; simpl; auto; try congruence.
  - destruct (f x); simpl; congruence.
  - destruct (f x), (f y); reflexivity.
Qed.

Lemma count_ext f g l : (forall x, In x l -> f x = g x) -> count f l = count g l.
Proof.
  unfold count. induction l as [|a l IH]; simpl; intros H; auto.
  rewrite (H a) by auto. destruct (g a); simpl; rewrite IH; auto.
Qed.

Lemma count_all f l : (forall x, In x l -> f x = true) -> count f l = length l.
Proof.
  unfold count. induction l as [|a l IH]; simpl; intros H; auto.
  rewrite (H a) by auto. simpl. rewrite IH; auto.
Qed.

Lemma count_none f l : (forall x, In x l -> f x = false) -> count f l = 0%nat.
Proof.
  unfold count. induction l as [|a l IH]; simpl; intros H; auto.
  rewrite (H a) by auto. rewrite IH; auto.
Qed.

Lemma keep_upper_total d upper m : forall total,
  let (k, tot) := keep_upper d upper m total in
  tot = (total + k)%nat /\ (total <= m -> tot <= m)%nat /\ (k <= length d)%nat /\
  (forall x, In x (firstn k d) -> upper < x).
Proof.
  induction d as [|x d IH]; intros tt; cbn [keep_upper].
  - repeat split; simpl; try lia; tauto.
  - destruct (Nat.ltb_spec tt m) as [A|A], (Qltb_spec upper x) as [B|B]; cbn [andb];
      try (repeat split; simpl; try lia; tauto).
    specialize (IH (S tt)). destruct (keep_upper d upper m (S tt)) as [k tot].
    destruct IH as (I1 & I2 & I3 & I4). repeat split; simpl; try lia.
    intros y [<-|Hy]; auto.
Qed.

Lemma keep_degen_total d lower m : forall total nd,
  let '(k, tot, nd') := keep_degen d lower m total nd in
  tot = (total + k)%nat /\ (total <= m -> tot <= m)%nat /\ (k <= length d)%nat /\ (nd = nd' + k)%nat /\
  (forall x, In x (firstn k d) -> lower < x).
Proof.
  induction d as [|x d IH]; intros tt nd; cbn [keep_degen].
  - repeat split; simpl; try lia; tauto.
  - destruct nd as [|nd]; [repeat split; simpl; try lia; tauto|].
    destruct (Nat.ltb_spec tt m) as [A|A], (Qltb_spec lower x) as [B|B]; cbn [andb];
      try (repeat split; simpl; try lia; tauto).
    specialize (IH (S tt) nd). destruct (keep_degen d lower m (S tt) nd) as [[k tot] nd'].
    destruct IH as (I1 & I2 & I3 & I4 & I5). repeat split; simpl; try lia.
    intros y [<-|Hy]; auto.
Qed.

(** Sum of the per-block numbers. *)
Definition kept_total (ks : list nat) : nat := fold_right Nat.add 0%nat ks.

Lemma select_blocks_bound lower upper m : forall blocks tot nd, (tot <= m)%nat ->
  (tot + kept_total (select_blocks blocks lower upper m tot nd) <= m)%nat.
Proof.
  induction blocks as [|d bs IH]; intros tot nd H; cbn [select_blocks kept_total fold_right]; [lia|].
  pose proof (keep_upper_total d upper m tot) as K1. destruct (keep_upper d upper m tot) as [k1 t1].
  pose proof (keep_degen_total (skipn k1 d) lower m t1 nd) as K2.
  destruct (keep_degen (skipn k1 d) lower m t1 nd) as [[k2 t2] nd2].
  destruct K1 as (A1 & A2 & _), K2 as (B1 & B2 & _). cbn [kept_total fold_right].
  assert (t2 <= m)%nat by lia. pose proof (IH t2 nd2 H0). unfold kept_total in *. lia.
Qed.

Lemma select_blocks_length lower upper m : forall blocks tot nd,
  length (select_blocks blocks lower upper m tot nd) = length blocks.
Proof.
  induction blocks as [|d bs IH]; intros; cbn [select_blocks]; auto.
  destruct (keep_upper d upper m tot) as [k1 t1]. destruct (keep_degen (skipn k1 d) lower m t1 nd) as [[k2 t2] nd2].
  simpl. now rewrite IH.
Qed.

Lemma firstn_plus_in {A} (l : list A) a b x : In x (firstn (a + b) l) ->
  In x (firstn a l) \/ In x (firstn b (skipn a l)).
Proof.
  revert a; induction l as [|y l IH]; intros [|a]; simpl; auto.
  intros [->|H]; auto. destruct (IH _ H); auto.
Qed.

Lemma firstn_plus_incl {A} (l : list A) a b x : In x (firstn a l) -> In x (firstn (a + b) l).
Proof.
  revert a; induction l as [|y l IH]; intros [|a]; simpl; try tauto. intros [->|H]; auto.
Qed.

Lemma select_blocks_above lower upper m : lower <= upper -> forall blocks tot nd i x,
  In x (firstn (nth i (select_blocks blocks lower upper m tot nd) 0%nat) (nth i blocks [])) -> lower < x.
Proof.
  intros HL. induction blocks as [|d bs IH]; intros tot nd i x H; cbn [select_blocks] in H.
  - destruct i; simpl in H; tauto.
  - pose proof (keep_upper_total d upper m tot) as K1. destruct (keep_upper d upper m tot) as [k1 t1].
    pose proof (keep_degen_total (skipn k1 d) lower m t1 nd) as K2.
    destruct (keep_degen (skipn k1 d) lower m t1 nd) as [[k2 t2] nd2].
    destruct K1 as (_ & _ & _ & A), K2 as (_ & _ & _ & _ & B).
    destruct i as [|i]; cbn [nth] in H; [|now apply IH in H].
    apply firstn_plus_in in H as [H|H]; [apply A in H; lra|now apply B].
Qed.

(** keep_upper on a descending block keeps exactly the values above [upper],
    when there is room. *)
Lemma keep_upper_exact d upper m : descending d -> forall tot,
  (tot + count (Qltb upper) d <= m)%nat ->
  keep_upper d upper m tot = (count (Qltb upper) d, (tot + count (Qltb upper) d)%nat).
Proof.
  intros HD; induction HD as [|x d HS IH HF]; intros tot Ht; cbn [keep_upper]; unfold count in *; simpl in *.
  - f_equal; lia.
  - destruct (Qltb_spec upper x) as [A|A]; simpl in *.
    + destruct (Nat.ltb_spec tot m); [|lia]. cbn [andb]. rewrite IH by lia. f_equal; lia.
    + rewrite andb_false_r. change (length (filter (Qltb upper) d)) with (count (Qltb upper) d).
      rewrite count_none; [f_equal; lia|]. intros y Hy. rewrite Forall_forall in HF.
      specialize (HF y Hy). destruct (Qltb_spec upper y); auto. lra.
Qed.

Lemma keep_degen_exact d lower m : descending d -> forall tot nd,
  (tot + nd <= m)%nat ->
  let k := Nat.min nd (count (Qltb lower) d) in
  keep_degen d lower m tot nd = (k, (tot + k)%nat, (nd - k)%nat).
Proof.
  intros HD; induction HD as [|x d HS IH HF]; intros tot nd Ht; cbn [keep_degen]; unfold count in *; cbv zeta in *; simpl filter in *.
  - simpl. rewrite Nat.min_0_r, Nat.add_0_r, Nat.sub_0_r. reflexivity.
  - destruct nd as [|nd]; [simpl; rewrite Nat.add_0_r; reflexivity|].
    destruct (Qltb_spec lower x) as [A|A].
    + destruct (Nat.ltb_spec tot m); [|lia]. cbn [andb length]. rewrite IH by lia.
      rewrite <- Nat.succ_min_distr. rewrite Nat.add_succ_r, Nat.sub_succ. reflexivity.
    + rewrite andb_false_r. change (length (filter (Qltb lower) d)) with (count (Qltb lower) d).
      rewrite count_none; [rewrite Nat.min_0_r, Nat.add_0_r, Nat.sub_0_r; reflexivity|]. intros y Hy. rewrite Forall_forall in HF.
      specialize (HF y Hy). destruct (Qltb_spec lower y); auto. lra.
Qed.

Lemma desc_skipn k d : descending d -> descending (skipn k d).
Proof.
  intros H; revert k; induction H as [|x d HS IH HF]; intros [|k]; simpl; auto; constructor; auto.
Qed.

Lemma desc_firstn_count d upper : descending d ->
  forall x, In x (firstn (count (Qltb upper) d) d) -> upper < x.
Proof.
  intros HD; induction HD as [|y d HS IH HF]; unfold count in *; simpl; intros x; [tauto|].
  destruct (Qltb_spec upper y) as [A|A]; simpl.
  - intros [<-|H]; auto.
  - change (length (filter (Qltb upper) d)) with (count (Qltb upper) d). rewrite count_none; simpl; [tauto|].
    intros z Hz. rewrite Forall_forall in HF. specialize (HF z Hz). destruct (Qltb_spec upper z); auto. lra.
Qed.

Lemma desc_skipn_count d upper : descending d ->
  forall x, In x (skipn (count (Qltb upper) d) d) -> x <= upper.
Proof.
  intros HD; induction HD as [|y d HS IH HF]; unfold count in *; simpl; intros x; [tauto|].
  destruct (Qltb_spec upper y) as [A|A]; simpl.
  - apply IH.
  - change (length (filter (Qltb upper) d)) with (count (Qltb upper) d). rewrite count_none; simpl.
    + intros [<-|H]; [lra|]. rewrite Forall_forall in HF. specialize (HF x H). lra.
    + intros z Hz. rewrite Forall_forall in HF. specialize (HF z Hz). destruct (Qltb_spec upper z); auto. lra.
Qed.

Lemma firstn_skipn_count f (d : list Q) k : count f d = (count f (firstn k d) + count f (skipn k d))%nat.
Proof. rewrite <- count_app. now rewrite firstn_skipn. Qed.

(** Values in the degeneracy window (lower, upper]. *)
Definition in_window (lower upper : Q) (x : Q) : bool := (Qltb lower x && negb (Qltb upper x))%bool.

Lemma count_skip_window lower upper d : descending d -> lower <= upper ->
  count (Qltb lower) (skipn (count (Qltb upper) d) d) = count (in_window lower upper) d.
Proof.
  intros HD HL. set (k := count (Qltb upper) d).
  rewrite (firstn_skipn_count (in_window lower upper) d k).
  rewrite (count_none (in_window lower upper) (firstn k d)).
  - simpl. apply count_ext. intros x Hx. apply (desc_skipn_count d upper HD) in Hx.
    unfold in_window. destruct (Qltb_spec upper x); [lra|]. now rewrite andb_true_r.
  - intros x Hx. apply (desc_firstn_count d upper HD) in Hx.
    unfold in_window. destruct (Qltb_spec upper x); [|lra]. apply andb_false_r.
Qed.

Lemma select_blocks_exact lower upper m : lower <= upper -> forall blocks tot nd,
  Forall descending blocks ->
  (tot + count (Qltb upper) (concat blocks) + nd <= m)%nat ->
  (nd <= count (in_window lower upper) (concat blocks))%nat ->
  kept_total (select_blocks blocks lower upper m tot nd) =
    (count (Qltb upper) (concat blocks) + nd)%nat /\
  (forall i x, (i < length blocks)%nat -> In x (nth i blocks []) -> upper < x ->
     In x (firstn (nth i (select_blocks blocks lower upper m tot nd) 0%nat) (nth i blocks []))).
Proof.
  intros HL. induction blocks as [|d bs IH]; intros tot nd HD Hm Hn.
  - simpl in *. unfold count in *; simpl in *. split; [lia|]. intros; lia.
  - inversion HD as [|? ? HD1 HD2]; subst. cbn [concat] in *. rewrite !count_app in *.
    cbn [select_blocks]. rewrite keep_upper_exact by (auto; lia).
    pose proof (keep_degen_exact (skipn (count (Qltb upper) d) d) lower m (desc_skipn _ _ HD1)
                  (tot + count (Qltb upper) d) nd ltac:(lia)) as KD.
    cbv zeta in KD. rewrite count_skip_window in KD by auto. rewrite KD.
    set (k2 := Nat.min nd (count (in_window lower upper) d)) in *.
    destruct (IH (tot + count (Qltb upper) d + k2)%nat (nd - k2)%nat) as [A B]; auto; try lia.
    split.
    + cbn [kept_total fold_right]. unfold kept_total in A. rewrite A. lia.
    + intros i x Hi Hx Hu. destruct i as [|i]; cbn [nth] in *.
      * assert (G : In x (firstn (count (Qltb upper) d) d)).
        { rewrite <- (firstn_skipn (count (Qltb upper) d) d) in Hx. apply in_app_or in Hx as [Hx|Hx]; auto.
          apply (desc_skipn_count d upper HD1) in Hx. lra. }
        now apply firstn_plus_incl.
      * apply B; auto. simpl in Hi. lia.
Qed.

(** ** the whole function, in the general case *)
Definition window (v : Q) : Q := if Qeq_bool v 0 then REAL_EPSILON else (1 # 1000) * v.

(** What truncate returns once the plain dimension [m] is known. *)
Definition tail_of (P0 : Q) (P2 : list Q) (maxdim : Z) (resp : bool) (m : nat) (err : Q) : tr_result :=
  let Pn := nth (m - 1) P2 0 in
  let dc := window Pn in
  let below := S (degen_before P2 Pn dc (m - 1)) in
  let above := degen_after (skipn m P2) Pn dc in
  let mb := if (resp && (1 <? below + above)%nat)%bool
            then if (maxdim <? Z.of_nat (m + above))%Z
                 then ((m - below)%nat, O)
                 else ((m + above)%nat, (below + above)%nat)
            else (m, below) in
  mkTR (map (fun p => p * P0) (firstn (fst mb) P2)) (err * P0)
       ((Pn - dc) * P0) ((Pn + dc) * P0) (snd mb).

Definition rel_scale (md : cutoff_mode) (P : list Q) : Q :=
  match md with SumRelative => total P | _ => 1 end.

Lemma normed_length P0 P : length (normed P0 P) = length P.
Proof. apply map_length. Qed.

Lemma normed_nth P0 P i : (i < length P)%nat -> nth i (normed P0 P) 0 = weight (nth i P 0 / P0).
Proof.
  intros H. unfold normed. rewrite (nth_indep _ 0 (weight (0 / P0))) by now rewrite map_length.
  apply (map_nth (fun p => weight (p / P0))).
Qed.

Lemma total_pos P : P <> [] -> 0 < nth 0 P 0 -> 0 < total P.
Proof.
  destruct P as [|p P]; [congruence|]. intros _ H. simpl in *. rewrite weight_id by lra.
  pose proof (total_nonneg P). lra.
Qed.

Lemma Qdiv_le_iff a b c : 0 < c -> (a / c <= b / c <-> a <= b).
Proof.
  intros H. split; intros K; [|now apply div_le].
  apply (Qmult_le_compat_r _ _ c) in K; [|lra]. unfold Qdiv in K.
  setoid_replace (a * / c * c) with a in K by (field; lra).
  setoid_replace (b * / c * c) with b in K by (field; lra). auto.
Qed.

Lemma truncate_general P maxdim mindim cutoff absc relc :
  descending P -> (2 <= length P)%nat -> 0 < nth 0 P 0 -> (1 <= maxdim)%Z -> (1 <= mindim)%Z ->
  let P0 := nth 0 P 0 in
  let md := mode_of absc relc in
  let m0 := Nat.min (length P) (Z.to_nat maxdim) in
  exists m err,
    (1 <= m <= m0)%nat /\ (Z.min mindim (Z.of_nat m0) <= Z.of_nat m)%Z /\
    ((m < m0)%nat -> allowed md cutoff P m0 m) /\
    ((mindim < Z.of_nat m)%Z -> ~ allowed md cutoff P m0 (m - 1)) /\
    err * rel_scale md P == (if match md with SumRelative => true | _ => false end
                             then total (skipn m P) else total (skipn m P) / P0) /\
    forall resp, truncate P maxdim mindim cutoff absc relc resp =
      Ok (tail_of P0 (normed P0 P) maxdim resp m err).
Proof.
  intros HD HL H0 HM Hm P0 md m0. assert (HP0 : 0 < P0) by exact H0.
  assert (HP : P <> []) by (destruct P; [simpl in HL; lia|congruence]).
  pose proof (total_pos P HP H0) as HT.
  set (P2 := normed P0 P).
  destruct (cut_maxdim_ok P2 maxdim HM (length P) 0) as (err1 & E1 & E1').
  { unfold P2. rewrite normed_length. lia. }
  { unfold P2. rewrite skipn_all2 by (rewrite normed_length; lia). reflexivity. }
  fold m0 in E1, E1'.
  assert (Hm0 : (1 <= m0 <= length P2)%nat) by (unfold P2; rewrite normed_length; unfold m0; lia).
  assert (Hl2 : length P2 = length P) by apply normed_length.
  set (c1 := if (absc || negb relc)%bool then cutoff / P0 else cutoff).
  assert (HC : exists m err, cut_cutoff P2 mindim c1 absc relc m0 err1 = Ok (m, err) /\
    (1 <= m <= m0)%nat /\ (Z.min mindim (Z.of_nat m0) <= Z.of_nat m)%Z /\
    ((m < m0)%nat -> allowed md cutoff P m0 m) /\
    ((mindim < Z.of_nat m)%Z -> ~ allowed md cutoff P m0 (m - 1)) /\
    err * rel_scale md P == (if match md with SumRelative => true | _ => false end
                             then total (skipn m P) else total (skipn m P) / P0)).
  { unfold cut_cutoff. destruct absc.
    - destruct (cut_absolute_ok P2 mindim c1 Hm m0 err1 Hm0 E1') as (m & err & E & A1 & A2 & A3 & A4 & A5).
      exists m, err. split; [auto|]. unfold md; simpl.
      assert (HN : forall i, (i < m0)%nat -> nth i P2 0 <= c1 <-> weight (nth i P 0) <= cutoff).
      { intros i Hi. unfold P2. rewrite normed_nth by lia. rewrite weight_div by auto.
        unfold c1; simpl. apply Qdiv_le_iff; auto. }
      repeat split; auto; try lia.
      + intros _ i Hi. apply HN; [lia|]. apply A4; lia.
      + intros Hk K. specialize (K (m - 1)%nat ltac:(lia)). apply HN in K; [|lia].
        specialize (A5 Hk). lra.
      + rewrite A1. unfold P2. rewrite sumels_skipn_normed by auto. lra.
    - set (scale := if relc then (let s := sumels P2 in if Qeq_bool s 0 then 1 else s) else 1).
      assert (HS : scale == if relc then total P / P0 else 1).
      { unfold scale. destruct relc; [|reflexivity]. cbv zeta.
        assert (HX : sumels P2 == total P / P0) by (apply sumels_normed; auto).
        destruct (Qeq_bool_spec (sumels P2) 0) as [K|_]; auto.
        exfalso. rewrite HX in K. pose proof (div_le (total P) (total P) P0 H0 (Qle_refl _)).
        assert (0 < total P / P0) by (apply Qlt_shift_div_l; auto; lra). lra. }
      assert (Hnz : 0 < scale).
      { rewrite HS. destruct relc; [|lra]. apply Qlt_shift_div_l; auto; lra. }
      destruct (cut_sum_ok P2 mindim (c1 * scale) Hm m0 err1 Hm0 E1') as (m & err & E & A1 & A2 & A3 & A4 & A5).
      fold scale. rewrite E. cbn [obind]. exists m, (if Qeq_bool scale 0 then 0 else err / scale).
      destruct (Qeq_bool_spec scale 0) as [K|_]; [lra|].
      split; [auto|]. unfold md; simpl.
      assert (HN : forall k, sumels (skipn k P2) <= c1 * scale <->
                 total (skipn k P) <= cutoff * (if relc then total P else 1)).
      { intros k. unfold P2. rewrite sumels_skipn_normed by auto. rewrite HS. unfold c1; simpl.
        destruct relc; simpl.
        - setoid_replace (cutoff * (total P / P0)) with ((cutoff * total P) / P0) by (field; lra).
          apply Qdiv_le_iff; auto.
        - setoid_replace (cutoff / P0 * 1) with (cutoff / P0) by (field; lra).
          rewrite Qdiv_le_iff by auto. split; intros; lra. }
      repeat split; auto; try lia.
      + intros Hk. assert (X : sumels (skipn m P2) <= c1 * scale) by (rewrite <- A1; auto).
        apply HN in X. destruct relc; simpl in *; auto. lra.
      + intros Hk K. specialize (A5 Hk).
        assert (X : total (skipn (m - 1) P) <= cutoff * (if relc then total P else 1)).
        { destruct relc; simpl in *; auto. lra. }
        apply HN in X. lra.
      + rewrite A1, HS. unfold P2. rewrite sumels_skipn_normed by auto. destruct relc; simpl; field; lra. }
  destruct HC as (m & err & EC & B1 & B2 & B3 & B4 & B5).
  exists m, err. repeat split; auto; try lia.
  intros resp. unfold truncate.
  rewrite oget_nth by lia. cbn [obind]. fold P0.
  destruct (Qeq_bool_spec P0 0) as [K|_]; [unfold P0 in *; lra|].
  destruct (Nat.eqb_spec (length P) 1) as [K|_]; [lia|].
  fold c1. rewrite zero_trailing_normed by auto. fold P2.
  rewrite E1. cbn [obind]. rewrite EC. cbn [obind].
  destruct (Nat.eqb_spec m 0) as [K|_]; [lia|].
  rewrite oget_nth by lia. cbn [obind]. unfold tail_of.
  fold (window (nth (m - 1) P2 0)). cbv zeta.
  set (below := S (degen_before P2 (nth (m - 1) P2 0) (window (nth (m - 1) P2 0)) (m - 1))).
  set (above := degen_after (skipn m P2) (nth (m - 1) P2 0) (window (nth (m - 1) P2 0))).
  destruct (resp && (1 <? below + above)%nat)%bool; [destruct (maxdim <? Z.of_nat (m + above))%Z|]; reflexivity.
Qed.
