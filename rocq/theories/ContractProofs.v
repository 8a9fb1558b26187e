(** What CProps::compute establishes, whatever route it takes. *)
From Coq Require Import List ZArith Lia Bool Arith Permutation.
From Verif Require Import Util RangeModel RangeSpec RangeProofs TensorModel TensorSpec TensorProofs SemProofs ContractModel.
Import ListNotations.

Local Arguments Nat.sub : simpl never.

Lemma Zeqb_spec : forall a b : Z, (a =? b)%Z = true <-> a = b.
Proof. intros; apply Z.eqb_eq. Qed.

Lemma nth_firstn' {T} n : forall (l : list T) i d, i < n -> nth i (firstn n l) d = nth i l d.
Proof. induction n as [|n IH]; intros [|x l] [|i] d H; simpl; auto; try lia. apply IH; lia. Qed.
Lemma nth_skipn' {T} n : forall (l : list T) i d, nth i (skipn n l) d = nth (n + i) l d.
Proof. induction n as [|n IH]; intros [|x l] i d; simpl; auto. destruct i; auto. Qed.

Lemma filter_length_le {T} (f : T -> bool) l : length (filter f l) <= length l.
Proof. induction l; simpl; auto. destruct (f a); simpl; lia. Qed.

(** ** filters and blocks *)
Section Blocks.
Context {T : Type} (f : T -> bool).

Fixpoint fidx (l : list T) : nat := match l with [] => 0 | x :: l' => if f x then 0 else S (fidx l') end.
Definition nf (x : T) : bool := negb (f x).

Lemma fidx_le l : fidx l <= length l.
Proof. induction l; simpl; [lia|]. destruct (f a); lia. Qed.

Lemma fidx_before l d i : i < fidx l -> f (nth i l d) = false.
Proof.
  revert i; induction l as [|x l IH]; intros i H; simpl in *; [lia|].
  destruct (f x) eqn:E; [lia|]. destruct i; auto. apply IH; lia.
Qed.

Lemma fidx_at l d : fidx l < length l -> f (nth (fidx l) l d) = true.
Proof.
  induction l as [|x l IH]; simpl; intros H; [lia|]. destruct (f x) eqn:E; auto. apply IH; lia.
Qed.

Lemma fidx_filter l : 0 < length (filter f l) -> fidx l < length l.
Proof.
  induction l as [|x l IH]; simpl; [lia|]. destruct (f x); simpl; [lia|]. intros H. specialize (IH H). lia.
Qed.

Lemma filter_all l : (forall x, In x l -> f x = true) -> filter f l = l.
Proof. induction l; simpl; intros H; auto. rewrite H by auto. rewrite IHl; auto. Qed.
Lemma filter_nil l : (forall x, In x l -> f x = false) -> filter f l = [].
Proof. induction l; simpl; intros H; auto. rewrite H by auto. apply IHl; auto. Qed.
Lemma filter_nil_inv l : filter f l = [] -> forall x, In x l -> f x = false.
Proof.
  induction l as [|a l IH]; simpl; intros H x Hx; [contradiction|].
  destruct (f a) eqn:E; [discriminate|]. destruct Hx as [<-|Hx]; auto.
Qed.
Lemma filter_split_length l : length (filter f l) + length (filter nf l) = length l.
Proof. induction l; simpl; auto. unfold nf at 1. destruct (f a); simpl; lia. Qed.

Lemma firstn_Forall (P : T -> Prop) n l d : (forall i, i < n -> i < length l -> P (nth i l d)) -> forall x, In x (firstn n l) -> P x.
Proof.
  intros H x Hx. apply (In_nth _ _ d) in Hx as (i & Hi & <-). rewrite firstn_length in Hi.
  rewrite nth_firstn' by lia. apply H; lia.
Qed.

(** A block of all true entries. *)
Lemma block l d : (forall i, i < length (filter f l) -> f (nth (fidx l + i) l d) = true) ->
  exists pre post, l = pre ++ filter f l ++ post /\ length pre = fidx l /\ filter nf l = pre ++ post /\
    (forall x, In x pre -> f x = false) /\ (forall x, In x post -> f x = false).
Proof.
  intros H. set (n := length (filter f l)) in *. set (k := fidx l) in *.
  set (pre := firstn k l). set (mid := firstn n (skipn k l)). set (post := skipn n (skipn k l)).
  assert (E : l = pre ++ mid ++ post) by (unfold pre, mid, post; now rewrite !firstn_skipn).
  assert (Hpre : forall x, In x pre -> f x = false).
  { apply (firstn_Forall _ _ _ d). intros i Hi _. apply fidx_before. exact Hi. }
  assert (Hk : n = 0 \/ k + n <= length l).
  { destruct n as [|n'] eqn:En; auto. right. specialize (H n' ltac:(lia)).
    destruct (Nat.le_gt_cases (k + S n') (length l)); auto.
    exfalso. assert (Lk : k < length l) by (apply fidx_filter; fold n; lia).
    assert (CL : length (filter f l) <= length l - k).
    { rewrite E at 1. rewrite !filter_app, !app_length, (filter_nil pre) by auto. simpl.
      pose proof (filter_length_le f mid). pose proof (filter_length_le f post).
      assert (length l = length pre + (length mid + length post)) by (rewrite E at 1; rewrite !app_length; lia).
      assert (length pre = k) by (unfold pre; rewrite firstn_length; lia). lia. }
    fold n in CL. lia. }
  assert (Lk : k <= length l) by apply fidx_le.
  assert (Lm : length mid = n) by (unfold mid; rewrite firstn_length, skipn_length; lia).
  assert (Hmid : forall x, In x mid -> f x = true).
  { apply (firstn_Forall _ _ _ d). intros i Hi Hi'. rewrite nth_skipn'. apply H. exact Hi. }
  assert (FL : length (filter f post) = 0).
  { assert (X : n = length (filter f l)) by reflexivity. rewrite E in X at 1.
    rewrite !filter_app, !app_length, (filter_nil pre), (filter_all mid) in X by auto. simpl in X. lia. }
  assert (Hpost : forall x, In x post -> f x = false).
  { apply filter_nil_inv. destruct (filter f post); auto. simpl in FL; lia. }
  assert (Ff : filter f l = mid).
  { rewrite E. rewrite !filter_app, (filter_nil pre), (filter_nil post), (filter_all mid) by auto. simpl. now rewrite app_nil_r. }
  exists pre, post. rewrite Ff. split; [exact E|]. split; [unfold pre; rewrite firstn_length; lia|]. split; [|auto].
  rewrite E. rewrite !filter_app.
  assert (G : forall l', (forall x, In x l' -> f x = false) -> filter nf l' = l').
  { induction l' as [|y l' IH]; intros HH; simpl; auto. unfold nf at 1. rewrite HH by (simpl; auto). simpl. f_equal. apply IH. intros; apply HH; simpl; auto. }
  rewrite !G by auto. f_equal.
  assert (G' : forall l', (forall x, In x l' -> f x = true) -> filter nf l' = []).
  { induction l' as [|y l' IH]; intros HH; simpl; auto. unfold nf at 1. rewrite HH by (simpl; auto). simpl. apply IH. intros; apply HH; simpl; auto. }
  now rewrite G', G by auto.
Qed.
End Blocks.

(** ** positions of labels *)
Section Pos.
Variables (ci : labels) (NC : NoDup ci).
Definition inC (x : Z) : bool := mem Z.eqb x ci.
Definition fc (x : Z) : bool := negb (inC x).
Definition pos (x : Z) : nat := match find_index ci x with Some k => k | None => 0 end.
Definition toC (l : labels) : tomap := to_map l ci.
Definition con (l : labels) := filter fc l.
Definition unc (l : labels) := filter inC l.

Lemma mem_In x l : mem Z.eqb x l = true <-> In x l.
Proof.
  unfold mem. rewrite existsb_exists. split.
  - intros (y & Hy & E). apply Z.eqb_eq in E. now subst.
  - intros H. exists x. split; auto. apply Z.eqb_refl.
Qed.

Lemma inC_In x : inC x = true <-> In x ci.
Proof. apply mem_In. Qed.
Lemma fc_In x : fc x = true <-> ~ In x ci.
Proof. unfold fc. rewrite negb_true_iff. rewrite <- inC_In. destruct (inC x); split; congruence. Qed.

Lemma find_index_cases x : (In x ci /\ find_index ci x = Some (pos x) /\ pos x < length ci /\ nth (pos x) ci 0%Z = x /\ inC x = true)
   \/ (~ In x ci /\ find_index ci x = None /\ inC x = false).
Proof.
  unfold pos. destruct (find_index ci x) as [k|] eqn:E.
  - left. destruct (find_pos_some Z.eqb Zeqb_spec x ci k 0%Z E) as [H1 H2].
    assert (In x ci) by (rewrite <- H2; now apply nth_In). repeat split; auto. now apply inC_In.
  - right. assert (K : ~ In x ci) by (apply (find_pos_none Z.eqb Zeqb_spec); exact E). repeat split; auto.
    destruct (inC x) eqn:F; auto. apply inC_In in F. contradiction.
Qed.

Lemma nf_fc l : filter (nf fc) l = unc l.
Proof. apply filter_ext. intros x. unfold nf, fc. apply negb_involutive. Qed.

Lemma contracted_toC l i : i < length l -> contracted (toC l) i = Ok (fc (nth i l 0%Z)).
Proof.
  intros H. unfold contracted, toC, to_map. rewrite (oget_ok None) by now rewrite map_length.
  unfold omap. cbn [obind]. rewrite (nth_indep _ None (find_index ci 0%Z)) by now rewrite map_length.
  rewrite map_nth. unfold fc.
  destruct (find_index_cases (nth i l 0%Z)) as [(_ & -> & _ & _ & ->)|(_ & -> & ->)]; reflexivity.
Qed.

Fixpoint somes (m : tomap) : list nat := match m with [] => [] | Some k :: m' => k :: somes m' | None :: m' => somes m' end.

Lemma somes_toC l : somes (toC l) = map pos (unc l).
Proof.
  unfold toC, to_map, unc. induction l as [|x l IH]; simpl; auto.
  destruct (find_index_cases x) as [(_ & -> & _ & _ & ->)|(_ & -> & ->)]; simpl; congruence.
Qed.

Lemma first_some_toC l : first_some (toC l) = fidx inC l.
Proof.
  unfold toC, to_map. induction l as [|x l IH]; simpl; auto.
  destruct (find_index_cases x) as [(_ & -> & _ & _ & ->)|(_ & -> & ->)]; simpl; congruence.
Qed.

Lemma setPC_spec m : forall c PC, c + length (somes m) <= length PC ->
  setPC m c PC = Ok (c + length (somes m), firstn c PC ++ somes m ++ skipn (c + length (somes m)) PC).
Proof.
  induction m as [|[k|] m IH]; intros c PC H; simpl in *.
  - rewrite Nat.add_0_r, firstn_skipn. reflexivity.
  - rewrite oupd_ok by lia. cbn [obind]. rewrite IH by (rewrite upd_length; lia). f_equal. f_equal; [lia|].
    replace (S c + length (somes m)) with (c + S (length (somes m))) by lia.
    assert (Lc : c < length PC) by lia.
    assert (E : PC = firstn c PC ++ nth c PC 0 :: skipn (S c) PC).
    { clear - Lc. revert c Lc. induction PC as [|p PC IH]; intros [|c] Lc; simpl in *; try lia; auto. f_equal. apply IH. lia. }
    assert (L1 : length (firstn c PC) = c) by (rewrite firstn_length; lia).
    set (Q := firstn c PC) in *. set (S' := skipn (S c) PC) in *. set (v := nth c PC 0) in *. clearbody Q S' v. subst PC.
    assert (EU : upd c k (Q ++ v :: S') = Q ++ k :: S') by (rewrite <- L1; apply upd_middle).
    rewrite EU.
    assert (EF : firstn (S c) (Q ++ k :: S') = Q ++ [k]).
    { rewrite firstn_app, firstn_all2 by lia. replace (S c - length Q) with 1 by lia. reflexivity. }
    rewrite EF, <- app_assoc. cbn [app]. f_equal. f_equal. f_equal.
    rewrite !skipn_app, !skipn_all2 by lia. rewrite L1.
    replace (c + S (length (somes m)) - c) with (S (length (somes m))) by lia. reflexivity.
  - now apply IH.
Qed.

Lemma computePC_spec mA mB PC0 : length (somes mA) + length (somes mB) = length PC0 ->
  computePC mA mB PC0 = Ok (somes mA ++ somes mB).
Proof.
  intros H. unfold computePC. rewrite setPC_spec by lia. cbn [obind]. rewrite Nat.add_0_l. cbn [firstn app].
  set (PC1 := somes mA ++ skipn (length (somes mA)) PC0).
  assert (L1 : length PC1 = length PC0) by (unfold PC1; rewrite app_length, skipn_length; lia).
  rewrite setPC_spec by lia. cbn [obind]. f_equal.
  rewrite skipn_all2 by lia. rewrite app_nil_r. unfold PC1. rewrite firstn_app, Nat.sub_diag, firstn_all. cbn [firstn].
  now rewrite app_nil_r.
Qed.

Lemma sameord_loop_spec m : forall cur, sameord_loop m cur = true <-> somes m = seq cur (length (somes m)).
Proof.
  induction m as [|[k|] m IH]; intros cur; simpl; [tauto| |apply IH].
  destruct (Nat.eqb_spec k cur) as [->|E].
  - rewrite IH. split; intros H; [now rewrite H at 1|injection H; auto].
  - split; [discriminate|]. intros H. injection H as H' _. congruence.
Qed.

Lemma first_some_hd m : first_some m < length m -> exists c r, nth_error m (first_some m) = Some (Some c) /\ somes m = c :: r.
Proof. induction m as [|[k|] m IH]; simpl; intros H; [lia|eauto|]. apply IH. lia. Qed.

Lemma first_some_none m : length m <= first_some m -> somes m = [].
Proof. induction m as [|[k|] m IH]; simpl; intros H; auto; [lia|]. apply IH. lia. Qed.

Lemma checkCsameord_spec m : exists b, checkCsameord m (first_some m) = Ok b /\
  (b = true -> exists p, somes m = seq p (length (somes m))).
Proof.
  unfold checkCsameord. destruct (Nat.leb_spec (length m) (first_some m)) as [H|H].
  - exists true. split; auto. intros _. exists 0. now rewrite first_some_none.
  - destruct (first_some_hd m H) as (c & r & E & E'). unfold oget. rewrite E. cbn [obind].
    eexists; split; [reflexivity|]. intros K. apply sameord_loop_spec in K. eauto.
Qed.

(** labels are determined by their positions *)
Lemma map_pos_inj l l' : (forall x, In x l -> In x ci) -> (forall x, In x l' -> In x ci) -> map pos l = map pos l' -> l = l'.
Proof.
  revert l'; induction l as [|x l IH]; intros [|y l'] H H' E; simpl in *; try discriminate; auto.
  injection E as E1 E2. f_equal; [|apply IH; auto].
  destruct (find_index_cases x) as [(_ & _ & _ & <- & _)|(K & _)]; [|exfalso; auto].
  destruct (find_index_cases y) as [(_ & _ & _ & <- & _)|(K & _)]; [|exfalso; auto].
  congruence.
Qed.

Lemma map_pos_ci : map pos ci = seq 0 (length ci).
Proof.
  apply (nth_ext _ _ 0 0); [rewrite map_length, seq_length; auto|]. rewrite map_length. intros i Hi.
  rewrite seq_nth by auto. rewrite (nth_indep _ 0 (pos 0%Z)) by now rewrite map_length. rewrite map_nth.
  destruct (find_index_cases (nth i ci 0%Z)) as [(_ & _ & H1 & H2 & _)|(K & _)].
  - apply (NoDup_nth ci 0%Z); auto; lia.
  - exfalso. apply K. now apply nth_In.
Qed.

Lemma pos_is_perm l : Permutation l ci -> is_perm (length ci) (map pos l) /\ l = through (map pos l) 0%Z ci.
Proof.
  intros HP. pose proof (Permutation_length HP) as HL.
  assert (Hin : forall x, In x l -> In x ci) by (intros; eapply Permutation_in; eauto).
  assert (Nl : NoDup l) by (eapply Permutation_NoDup; [symmetry; eauto|auto]).
  assert (Np : forall i, i < length l -> nth i (map pos l) 0 = pos (nth i l 0%Z)).
  { intros i Hi. rewrite (nth_indep _ 0 (pos 0%Z)) by now rewrite map_length. apply map_nth. }
  assert (Hp : forall x, In x l -> pos x < length ci /\ nth (pos x) ci 0%Z = x).
  { intros x Hx. destruct (find_index_cases x) as [(_ & _ & H1 & H2 & _)|(K & _)]; auto. exfalso; auto. }
  split.
  - split; [now rewrite map_length|]. split.
    + intros i Hi. rewrite Np by lia. apply Hp. apply nth_In. lia.
    + intros i j Hi Hj. rewrite !Np by lia. intros E. apply (NoDup_nth l 0%Z); auto; try lia.
      rewrite <- (proj2 (Hp (nth i l 0%Z) ltac:(apply nth_In; lia))), <- (proj2 (Hp (nth j l 0%Z) ltac:(apply nth_In; lia))).
      now rewrite E.
  - unfold through. rewrite map_map. rewrite <- (map_id l) at 1. apply map_ext_in. intros x Hx. symmetry. now apply Hp.
Qed.

(** ** c_flags *)
Lemma seq_app_perm p na q nb n : na + nb = n -> Permutation (seq p na ++ seq q nb) (seq 0 n) ->
  seq p na ++ seq q nb <> seq 0 n -> q = 0 /\ p = nb \/ (seq q nb ++ seq p na = seq 0 n).
Proof.
  intros En HP HN.
  assert (HI : forall x, (p <= x < p + na \/ q <= x < q + nb) <-> x < n).
  { intros x. split.
    - intros H. assert (K : In x (seq 0 n)) by (eapply Permutation_in; [exact HP|]; apply in_app_iff; rewrite !in_seq; lia).
      apply in_seq in K. lia.
    - intros H. assert (K : In x (seq p na ++ seq q nb)) by (eapply Permutation_in; [symmetry; exact HP|]; apply in_seq; lia).
      apply in_app_iff in K. rewrite !in_seq in K. lia. }
  assert (ND : NoDup (seq p na ++ seq q nb)) by (eapply Permutation_NoDup; [symmetry; exact HP|apply seq_NoDup]).
  destruct na as [|na].
  - exfalso. simpl in *. destruct nb as [|nb]; [apply HN; subst; reflexivity|].
    assert (q = 0). { specialize (HI 0) as H0. lia. } subst q n. apply HN. reflexivity.
  - destruct nb as [|nb].
    + exfalso. rewrite app_nil_r in *. assert (p = 0). { specialize (HI 0) as H0. lia. } subst p n. apply HN. now rewrite Nat.add_0_r.
    + assert (D : forall x, ~ (p <= x < p + S na /\ q <= x < q + S nb)).
      { intros x [H1 H2]. rewrite (NoDup_nth (seq p (S na) ++ seq q (S nb)) 0) in ND.
        assert (I1 : nth (x - p) (seq p (S na) ++ seq q (S nb)) 0 = x) by (rewrite app_nth1 by (rewrite seq_length; lia); rewrite seq_nth by lia; lia).
        assert (I2 : nth (S na + (x - q)) (seq p (S na) ++ seq q (S nb)) 0 = x).
        { rewrite app_nth2 by (rewrite seq_length; lia). rewrite seq_length, seq_nth by lia. lia. }
        assert (x - p = S na + (x - q)); [|lia].
        apply ND; rewrite ?app_length, ?seq_length; try lia. }
      pose proof (HI 0) as H0. pose proof (HI (n - 1)) as H1.
      pose proof (D p). pose proof (D q). pose proof (D (p + na)). pose proof (D (q + nb)).
      destruct (Nat.eq_dec p 0) as [->|Hp].
      * exfalso. assert (q = S na). { pose proof (HI (S na)) as H6. lia. }
        subst q. apply HN. rewrite <- seq_app. now rewrite <- En.
      * left. assert (q = 0) by lia. subst q. split; auto. pose proof (HI (S nb)) as H6. lia.
Qed.

Lemma c_flags_spec la lb : Permutation (unc la ++ unc lb) ci ->
  exists pC ct, c_flags (somes (toC la) ++ somes (toC lb)) (toC la) (toC lb) = Ok (pC, ct) /\
    (pC = false -> ct = false -> unc la ++ unc lb = ci) /\
    (ct = true -> pC = false /\ unc lb ++ unc la = ci) /\
    (unc la ++ unc lb = ci -> pC = false /\ ct = false).
Proof.
  intros HP. unfold c_flags. rewrite !somes_toC, <- map_app.
  assert (Hin : forall x, In x (unc la ++ unc lb) -> In x ci) by (intros; eapply Permutation_in; eauto).
  assert (HinB : forall x, In x (unc lb ++ unc la) -> In x ci) by (intros x Hx; apply Hin; rewrite in_app_iff in *; tauto).
  destruct (isTrivial (map pos (unc la ++ unc lb))) eqn:ET.
  - exists false, false. split; auto. split; [|split; [discriminate|auto]].
    intros _ _. apply map_pos_inj; auto. rewrite map_pos_ci.
    unfold isTrivial in ET. apply isTrivial_from_spec in ET. rewrite map_length, (Permutation_length HP) in ET. exact ET.
  - assert (NT : unc la ++ unc lb <> ci).
    { intros E. assert (isTrivial (map pos (unc la ++ unc lb)) = true); [|congruence].
      apply isTrivial_from_spec. rewrite map_length, E. apply map_pos_ci. }
    destruct (checkCsameord_spec (toC lb)) as (sb & Eb & Hb). rewrite Eb. cbn [obind].
    destruct (checkCsameord_spec (toC la)) as (sa & Ea & Ha).
    destruct sb; [|exists true, false; split; [reflexivity|split; [discriminate|split; [discriminate|contradiction]]]].
    rewrite Ea. cbn [obind]. destruct sa; cbn [andb];
      [|exists true, false; split; [reflexivity|split; [discriminate|split; [discriminate|contradiction]]]].
    exists false, true. split; [reflexivity|]. split; [discriminate|]. split; [|contradiction].
    intros _. split; auto. destruct (Ha eq_refl) as (p & Pa), (Hb eq_refl) as (q & Pb).
    rewrite somes_toC in Pa, Pb. rewrite map_length in Pa, Pb.
    apply map_pos_inj; auto. rewrite map_pos_ci, map_app, Pa, Pb.
    assert (HPs : Permutation (seq p (length (unc la)) ++ seq q (length (unc lb))) (seq 0 (length ci))).
    { rewrite <- Pa, <- Pb, <- map_app, <- map_pos_ci. now apply Permutation_map. }
    assert (LL : length (unc la) + length (unc lb) = length ci) by (rewrite <- app_length; now apply Permutation_length).
    destruct (seq_app_perm p (length (unc la)) q (length (unc lb)) (length ci)) as [[-> ->]|E]; auto.
    + intros E. apply NT. apply map_pos_inj; auto. rewrite map_pos_ci, map_app, Pa, Pb. exact E.
    + rewrite <- seq_app, <- LL. now rewrite Nat.add_comm.
Qed.

(** ** needs_permute *)
Lemma noncontig_spec l : forall n i, i + n <= length l ->
  exists b, noncontig n (toC l) i = Ok b /\ (b = false -> forall k, k < n -> fc (nth (i + k) l 0%Z) = true).
Proof.
  induction n as [|n IH]; intros i H; simpl.
  - exists false. split; auto. intros; lia.
  - rewrite contracted_toC by lia. cbn [obind]. destruct (fc (nth i l 0%Z)) eqn:E.
    + destruct (IH (S i) ltac:(lia)) as (b & E1 & H1). exists b. split; auto. intros Hb [|k] Hk.
      * now rewrite Nat.add_0_r.
      * replace (i + S k) with (S i + k) by lia. apply H1; auto; lia.
    + exists true. split; auto. discriminate.
Qed.

Lemma con_length_bound l : fidx fc l + length (con l) <= length l.
Proof.
  unfold con. induction l as [|x l IH]; simpl; auto. destruct (fc x); simpl; [|lia].
  pose proof (filter_length_le fc l). lia.
Qed.

Lemma needs_permute_spec l : l <> [] ->
  exists b, needs_permute (toC l) (fidx fc l) (length (con l)) = Ok b /\
    (b = false -> exists tr, contracted (toC l) 0 = Ok tr /\
       (if tr then l = con l ++ unc l /\ fidx fc l = 0
        else l = unc l ++ con l /\ fidx fc l = length (unc l))).
Proof.
  intros Hl. assert (L0 : 0 < length l) by (destruct l; simpl; [congruence|lia]).
  assert (Lm : length (toC l) = length l) by (unfold toC, to_map; apply map_length).
  unfold needs_permute. rewrite Lm. rewrite !contracted_toC by lia. cbn [obind].
  destruct (fc (nth 0 l 0%Z)) eqn:E0.
  - destruct (noncontig_spec l (length (con l)) (fidx fc l) (con_length_bound l)) as (b & Eb & Hb).
    exists b. split; [exact Eb|]. intros Hbf. exists true. split; auto.
    destruct (block fc l 0%Z (Hb Hbf)) as (pre & post & El & Lp & Ef & Hpre & Hpost).
    rewrite nf_fc in Ef.
    assert (F0 : fidx fc l = 0) by (destruct l; simpl in *; [lia|now rewrite E0]).
    rewrite F0 in Lp. destruct pre; [|simpl in Lp; lia]. simpl in El, Ef. split; auto. unfold con. rewrite Ef. exact El.
  - destruct (fc (nth (length l - 1) l 0%Z)) eqn:E1; cbn [orb negb].
    + destruct (noncontig_spec l (length (con l)) (fidx fc l) (con_length_bound l)) as (b & Eb & Hb).
      exists b. split; [exact Eb|]. intros Hbf. exists false. split; auto.
      destruct (block fc l 0%Z (Hb Hbf)) as (pre & post & El & Lp & Ef & Hpre & Hpost).
      rewrite nf_fc in Ef.
      destruct post as [|y post].
      { rewrite app_nil_r in *. unfold con. rewrite Ef. split; auto. }
      exfalso. assert (K : In (nth (length l - 1) l 0%Z) (y :: post)).
      { assert (LL : length l = length pre + (length (filter fc l) + length (y :: post))).
        { rewrite El at 1. now rewrite !app_length. }
        rewrite El at 2. rewrite app_assoc. rewrite app_nth2; [apply nth_In|]; rewrite ?app_length; cbn [length] in *; lia. }
      apply Hpost in K. congruence.
    + exists true. split; [reflexivity|]. discriminate.
Qed.

(** ** building the permutations *)
Lemma next_contracted_spec l : forall fuel i, i + fidx fc (skipn i l) < length l -> fidx fc (skipn i l) <= fuel ->
  next_contracted fuel (toC l) i = Ok (i + fidx fc (skipn i l)).
Proof.
  induction fuel as [|fuel IH]; intros i H HF.
  - assert (E : fidx fc (skipn i l) = 0) by lia. cbn [next_contracted]. rewrite contracted_toC by lia. cbn [obind].
    pose proof (fidx_at fc (skipn i l) 0%Z) as K. rewrite E, nth_skipn', Nat.add_0_r in K.
    rewrite K by (rewrite skipn_length; lia). rewrite E. now rewrite Nat.add_0_r.
  - cbn [next_contracted]. rewrite contracted_toC by lia. cbn [obind].
    assert (ES : skipn i l = nth i l 0%Z :: skipn (S i) l).
    { assert (Hi : i < length l) by lia. clear - Hi. revert i Hi. induction l as [|x l IH]; intros [|i] Hi; simpl in *; try lia; auto. apply IH; lia. }
    rewrite ES in *. cbn [fidx] in *. destruct (fc (nth i l 0%Z)); [f_equal; lia|].
    rewrite IH by lia. f_equal. lia.
Qed.

Lemma con_skipn_next l i : 0 < length (con (skipn i l)) ->
  let b := i + fidx fc (skipn i l) in
  b < length l /\ con (skipn i l) = nth b l 0%Z :: con (skipn (S b) l).
Proof.
  intros H. cbv zeta. revert i H. induction l as [|x l IH]; intros i H.
  - rewrite skipn_nil in H. simpl in H. lia.
  - destruct i as [|i].
    + cbn [skipn] in *. unfold con in *. cbn [filter fidx] in *. destruct (fc x) eqn:E.
      * simpl. split; [lia|reflexivity].
      * destruct (IH 0) as [I1 I2]; [exact H|]. cbn [skipn] in I1, I2. split; [simpl; lia|].
        rewrite I2. rewrite !Nat.add_0_l. reflexivity.
    + cbn [skipn] in *. destruct (IH i H) as [I1 I2]. split; [simpl; lia|]. rewrite I2. reflexivity.
Qed.

Lemma front_other_spec oth own : forall n ind newi P, n = length (con (skipn ind oth)) ->
  (forall x, In x (con oth) -> In x own) -> length P = length own ->
  front_other n (toC oth) oth own ind newi P =
  obind (calcPerm_loop Z.eqb own (con (skipn ind oth)) newi P) (fun P' => Ok (newi + n, P')).
Proof.
  induction n as [|n IH]; intros ind newi P Hn Hin HL.
  - destruct (con (skipn ind oth)); [|discriminate]. simpl. now rewrite Nat.add_0_r.
  - destruct (con_skipn_next oth ind ltac:(lia)) as [H1 H2]. cbn [front_other].
    assert (HF : fidx fc (skipn ind oth) <= length (toC oth)).
    { unfold toC, to_map. rewrite map_length. lia. }
    rewrite next_contracted_spec by auto. cbn [obind]. rewrite (oget_ok 0%Z) by auto. cbn [obind].
    set (b := ind + fidx fc (skipn ind oth)) in *. rewrite H2. cbn [calcPerm_loop].
    change (find_pos Z.eqb (nth b oth 0%Z) own) with (find_index own (nth b oth 0%Z)).
    destruct (find_index own (nth b oth 0%Z)) as [j|] eqn:EF.
    + destruct (find_pos_some Z.eqb Zeqb_spec _ own j 0%Z EF) as [J1 J2]. rewrite oupd_ok by lia. cbn [obind].
      rewrite IH; auto.
      * replace (S newi + n) with (newi + S n) by lia. reflexivity.
      * rewrite H2 in Hn. cbn [length] in Hn. lia.
      * rewrite upd_length; auto.
    + exfalso. apply (find_pos_none Z.eqb Zeqb_spec) in EF. apply EF, Hin.
      assert (K : In (nth b oth 0%Z) (con (skipn ind oth))) by (rewrite H2; simpl; auto).
      unfold con in *. apply filter_In in K as [K1 K2]. apply filter_In. split; auto.
      now apply nth_In.
Qed.

Lemma find_index_self l b : NoDup l -> b < length l -> find_index l (nth b l 0%Z) = Some b.
Proof.
  intros HN Hb. destruct (find_index l (nth b l 0%Z)) as [j|] eqn:E.
  - destruct (find_pos_some Z.eqb Zeqb_spec _ l j 0%Z E) as [J1 J2]. f_equal. apply (NoDup_nth l 0%Z); auto.
  - apply (find_pos_none Z.eqb Zeqb_spec) in E. exfalso. apply E. now apply nth_In.
Qed.

Lemma front_self_other l : NoDup l -> forall n i newi P, n = length (con (skipn i l)) ->
  front_self n (toC l) i newi P = front_other n (toC l) l l i newi P.
Proof.
  intros HN. induction n as [|n IH]; intros i newi P Hn; auto.
  destruct (con_skipn_next l i ltac:(lia)) as [H1 H2]. cbn [front_self front_other].
  assert (HF : fidx fc (skipn i l) <= length (toC l)).
  { unfold toC, to_map. rewrite map_length. lia. }
  rewrite next_contracted_spec by auto. cbn [obind]. rewrite (oget_ok 0%Z) by auto. cbn [obind].
  rewrite find_index_self by auto.
  destruct (oupd _ newi P); simpl; auto. apply IH. rewrite H2 in Hn. cbn [length] in Hn. lia.
Qed.

Lemma calcPerm_loop_app s1 : forall a b i P,
  calcPerm_loop Z.eqb s1 (a ++ b) i P = obind (calcPerm_loop Z.eqb s1 a i P) (calcPerm_loop Z.eqb s1 b (i + length a)).
Proof.
  induction a as [|x a IH]; intros b i P; simpl.
  - now rewrite Nat.add_0_r.
  - destruct (find_pos Z.eqb x s1); simpl; auto. destruct (oupd n i P); simpl; auto. rewrite IH. now rewrite Nat.add_succ_r.
Qed.

Lemma back_loop_spec own : forall cl k newi m P, NoDup own ->
  (forall i, i < length cl -> nth i cl 0%Z = nth (k + i) ci 0%Z) -> k + length cl = length ci ->
  let u := filter (fun x => mem Z.eqb x own) cl in
  newi + length u = length own -> length m = length own -> length P = length own ->
  back_loop cl k own newi m P =
  obind (calcPerm_loop Z.eqb own u newi P) (fun P' => Ok (firstn newi m ++ map (fun x => Some (pos x)) u, P')).
Proof.
  induction cl as [|c cl IH]; intros k newi m P HN Hcl Hk u Hu Hm HP.
  - simpl in *. unfold u in *. simpl in *. rewrite app_nil_r. rewrite firstn_all2 by lia. reflexivity.
  - assert (Ec : c = nth k ci 0%Z) by (specialize (Hcl 0 ltac:(simpl; lia)); simpl in Hcl; rewrite Hcl; f_equal; lia).
    assert (Hcl' : forall i, i < length cl -> nth i cl 0%Z = nth (S k + i) ci 0%Z).
    { intros i Hi. specialize (Hcl (S i) ltac:(simpl; lia)). simpl in Hcl. rewrite Hcl. f_equal. lia. }
    assert (Pc : pos c = k).
    { subst c. unfold pos. rewrite find_index_self; auto. simpl in Hk. lia. }
    cbn [length] in Hk. cbn [back_loop]. unfold u in *. cbn [filter] in *. destruct (mem Z.eqb c own) eqn:EM.
    + assert (Hin : In c own) by (apply mem_In; exact EM).
      cbn [length] in Hu. cbn [calcPerm_loop map].
      change (find_pos Z.eqb c own) with (find_index own c).
      destruct (find_index own c) as [j|] eqn:EF.
      2:{ apply (find_pos_none Z.eqb Zeqb_spec) in EF. contradiction. }
      destruct (find_pos_some Z.eqb Zeqb_spec _ own j 0%Z EF) as [J1 J2].
      rewrite !oupd_ok by lia. cbn [obind].
      assert (EU : firstn (S newi) (upd newi (Some k) m) = firstn newi m ++ [Some k]).
      { assert (Ln : newi < length m) by lia. clear - Ln. revert newi Ln. induction m as [|x m IH]; intros [|n] Ln; simpl in *; try lia; auto. rewrite <- IH by lia. reflexivity. }
      destruct (Nat.eqb_spec (S newi) (length own)) as [EL|EL].
      * assert (E0 : filter (fun x => mem Z.eqb x own) cl = []) by (destruct (filter (fun x => mem Z.eqb x own) cl); auto; simpl in Hu; lia).
        rewrite E0. simpl. f_equal. f_equal. rewrite Pc, <- EU. symmetry. apply firstn_all2. rewrite upd_length. lia.
      * rewrite IH; auto; try lia; try (rewrite upd_length; lia).
        destruct (calcPerm_loop Z.eqb own _ (S newi) (upd j newi P)); cbn [obind]; auto.
        rewrite EU, Pc, <- app_assoc. reflexivity.
    + assert (HNin : ~ In c own) by (intros K; apply mem_In in K; congruence).
      assert (EF : find_index own c = None) by (apply (find_pos_none Z.eqb Zeqb_spec); exact HNin).
      rewrite EF. destruct (Nat.eqb_spec newi (length own)) as [EL|EL].
      * assert (E0 : filter (fun x => mem Z.eqb x own) cl = []) by (destruct (filter (fun x => mem Z.eqb x own) cl); auto; simpl in Hu; lia).
        rewrite E0. simpl. rewrite app_nil_r, firstn_all2 by lia. reflexivity.
      * apply IH; auto; lia.
Qed.

Lemma calcPerm_through s1 s2 : NoDup s1 -> Permutation s1 s2 ->
  exists P, calcPerm_loop Z.eqb s1 s2 0 (perm_id (length s1)) = Ok P /\ is_perm (length s2) P /\ s1 = through P 0%Z s2.
Proof.
  intros HN HP. assert (HN2 : NoDup s2) by (eapply Permutation_NoDup; eauto).
  pose proof (Permutation_length HP) as HL.
  destruct (calcPerm_loop_spec Z.eqb Zeqb_spec 0%Z s1 HN s2 0 (perm_id (length s1))) as (P & E & L & HA & _); auto.
  { intros x Hx. eapply Permutation_in; [symmetry; exact HP|auto]. }
  { apply seq_length. }
  assert (HB : forall i, i < length s1 -> nth i P 0 < length s2 /\ nth (nth i P 0) s2 0%Z = nth i s1 0%Z).
  { intros i Hi. destruct (HA i Hi) as (j & J1 & J2 & J3).
    - eapply Permutation_in; [exact HP|]. now apply nth_In.
    - rewrite J2. simpl. auto. }
  exists P. split; [exact E|]. split.
  - split; [lia|]. split.
    + intros i Hi. apply HB. lia.
    + intros i j Hi Hj Eij. apply (NoDup_nth s1 0%Z); auto; try lia.
      rewrite <- (proj2 (HB i ltac:(lia))), <- (proj2 (HB j ltac:(lia))). now rewrite Eij.
  - apply (nth_ext _ _ 0%Z 0%Z); [rewrite through_length; lia|].
    intros i Hi. rewrite nth_through by lia. symmetry. now apply HB.
Qed.

Section Dims.
Variable d : Z -> nat.

Lemma permuteExtents_relabel P l l' : is_perm (length l') P -> l = through P 0%Z l' ->
  permuteExtents (range_init (map d l)) P = Ok (range_init (map d l')).
Proof.
  intros HP Hl. unfold permuteExtents, range_init at 1. rewrite map_ext_range_init.
  assert (LL : length l = length l') by (subst l; rewrite through_length; exact (proj1 HP)).
  unfold range_init at 1. rewrite with_strides_length, map_length.
  destruct (permute_loop_through 0 (length l') P (map d l) (repeat 0 (length l))) as (to & E & HL & HT); auto.
  { now rewrite map_length. }
  { now rewrite repeat_length. }
  rewrite E. cbn [obind]. f_equal. f_equal.
  apply (through_inj 0 (length l') P); auto; [now rewrite map_length|].
  rewrite <- HT. rewrite <- (through_map d P 0%Z 0 (length l')) by auto. now rewrite <- Hl.
Qed.

Lemma prod_where_some l : forall s, prod_where is_some (toC l) (with_strides s (map d l)) = size (map d (unc l)).
Proof.
  unfold toC, to_map, unc. induction l as [|x l IH]; intros s; simpl; auto.
  destruct (find_index_cases x) as [(_ & -> & _ & _ & ->)|(_ & -> & ->)]; simpl; rewrite IH; auto.
Qed.
Lemma prod_where_none l : forall s, prod_where is_none (toC l) (with_strides s (map d l)) = size (map d (con l)).
Proof.
  unfold toC, to_map, con, fc. induction l as [|x l IH]; intros s; simpl; auto.
  destruct (find_index_cases x) as [(_ & -> & _ & _ & ->)|(_ & -> & ->)]; simpl; rewrite IH; auto.
Qed.
Lemma unc_exts_spec l : forall s, unc_exts (toC l) (with_strides s (map d l)) = map d (unc l).
Proof.
  unfold toC, to_map, unc. induction l as [|x l IH]; intros s; simpl; auto.
  destruct (find_index_cases x) as [(_ & -> & _ & _ & ->)|(_ & -> & ->)]; simpl; rewrite IH; auto.
Qed.

(** ** the two operands *)
Variables (ai bi : labels).
Hypothesis NA : NoDup ai.
Hypothesis NB : NoDup bi.
Hypothesis HC : forall x, In x ci <-> (In x ai /\ ~ In x bi) \/ (In x bi /\ ~ In x ai).

Lemma fcA x : In x ai -> (fc x = true <-> In x bi).
Proof. intros Hx. rewrite fc_In, HC. destruct (in_dec Z.eq_dec x bi); tauto. Qed.
Lemma fcB x : In x bi -> (fc x = true <-> In x ai).
Proof. intros Hx. rewrite fc_In, HC. destruct (in_dec Z.eq_dec x ai); tauto. Qed.

Lemma con_AB x : In x (con ai) <-> In x (con bi).
Proof.
  unfold con. rewrite !filter_In. split; intros [H1 H2]; split; auto.
  - now apply (fcA x H1).
  - now apply (fcB x H1).
Qed.

Lemma con_perm : Permutation (con ai) (con bi).
Proof. apply NoDup_Permutation; [now apply NoDup_filter|now apply NoDup_filter|apply con_AB]. Qed.

Lemma unc_perm : Permutation (unc ai ++ unc bi) ci.
Proof.
  apply NoDup_Permutation; auto.
  - apply NoDup_app_intro; [now apply NoDup_filter|now apply NoDup_filter|].
    intros x H1 H2. apply filter_In in H1 as [H1 H1'], H2 as [H2 H2']. apply inC_In, HC in H1'. tauto.
  - intros x. rewrite in_app_iff. unfold unc. rewrite !filter_In, inC_In, HC. tauto.
Qed.

Lemma unc_of_ci : Permutation (unc ai) (filter (fun x => mem Z.eqb x ai) ci).
Proof.
  apply NoDup_Permutation; [now apply NoDup_filter|now apply NoDup_filter|].
  intros x. unfold unc. rewrite !filter_In, mem_In, inC_In. tauto.
Qed.
Lemma unc_of_ci_b : Permutation (unc bi) (filter (fun x => mem Z.eqb x bi) ci).
Proof.
  apply NoDup_Permutation; [now apply NoDup_filter|now apply NoDup_filter|].
  intros x. unfold unc. rewrite !filter_In, mem_In, inC_In. tauto.
Qed.

Lemma AtoB_first l : (forall x, In x l -> In x ai) -> first_some (to_map l bi) = fidx fc l.
Proof.
  unfold to_map. induction l as [|x l IH]; intros H; simpl; auto.
  assert (Hx : In x ai) by (apply H; simpl; auto). pose proof (fcA x Hx) as F.
  assert (IH' : first_some (map (find_index bi) l) = fidx fc l) by (apply IH; intros; apply H; simpl; auto).
  destruct (find_index bi x) as [k|] eqn:E.
  - destruct (find_pos_some Z.eqb Zeqb_spec x bi k 0%Z E) as [K1 K2].
    rewrite (proj2 F); auto. rewrite <- K2. now apply nth_In.
  - apply (find_pos_none Z.eqb Zeqb_spec) in E. destruct (fc x); [exfalso; apply E; now apply F|]. now rewrite IH'.
Qed.

Lemma AtoB_count l : (forall x, In x l -> In x ai) -> count_some (to_map l bi) = length (con l).
Proof.
  unfold to_map, con. induction l as [|x l IH]; intros H; simpl; auto.
  assert (Hx : In x ai) by (apply H; simpl; auto). pose proof (fcA x Hx) as F.
  assert (IH' : count_some (map (find_index bi) l) = length (filter fc l)) by (apply IH; intros; apply H; simpl; auto).
  destruct (find_index bi x) as [k|] eqn:E.
  - destruct (find_pos_some Z.eqb Zeqb_spec x bi k 0%Z E) as [K1 K2].
    rewrite (proj2 F); [simpl; lia|]. rewrite <- K2. now apply nth_In.
  - apply (find_pos_none Z.eqb Zeqb_spec) in E. destruct (fc x); [exfalso; apply E; now apply F|]. auto.
Qed.

Lemma min_some_spec m : forall v, (forall k, In (Some k) m -> min_some v m <= k) /\ min_some v m <= v /\
  (min_some v m = v \/ In (Some (min_some v m)) m).
Proof.
  induction m as [|[j|] m IH]; intros v; simpl.
  - split; [intros k []|auto].
  - destruct (IH (Nat.min v j)) as (H1 & H2 & H3). split; [|split].
    + intros k [E|Hk]; [injection E as ->; lia|auto].
    + lia.
    + destruct H3 as [H3|H3]; [|auto]. rewrite H3. destruct (Nat.min_dec v j) as [->| ->]; auto.
  - destruct (IH v) as (H1 & H2 & H3). split; [|split]; auto.
    + intros k [E|Hk]; [discriminate|auto].
    + destruct H3; auto.
Qed.

Lemma Bcstart_spec : min_some (length bi) (to_map ai bi) = fidx fc bi.
Proof.
  destruct (min_some_spec (to_map ai bi) (length bi)) as (H1 & H2 & H3).
  pose proof (fidx_le fc bi) as HL.
  assert (HS : forall k, In (Some k) (to_map ai bi) -> k < length bi /\ fc (nth k bi 0%Z) = true).
  { intros k Hk. unfold to_map in Hk. apply in_map_iff in Hk as (x & E & Hx).
    destruct (find_pos_some Z.eqb Zeqb_spec x bi k 0%Z E) as [K1 K2]. split; auto.
    rewrite K2. apply fcA; auto. rewrite <- K2. now apply nth_In. }
  destruct (Nat.eq_dec (fidx fc bi) (length bi)) as [E|E].
  - rewrite E. destruct H3 as [H3|H3]; auto. destruct (HS _ H3) as [K1 K2].
    rewrite (fidx_before fc bi 0%Z) in K2 by lia. discriminate.
  - assert (Hlt : fidx fc bi < length bi) by lia.
    pose proof (fidx_at fc bi 0%Z Hlt) as Hf.
    assert (Hin : In (nth (fidx fc bi) bi 0%Z) ai) by (apply fcB; [now apply nth_In|auto]).
    assert (Hle : min_some (length bi) (to_map ai bi) <= fidx fc bi).
    { apply H1. unfold to_map. apply in_map_iff. exists (nth (fidx fc bi) bi 0%Z). split; auto. now apply find_index_self. }
    destruct H3 as [H3|H3]; [lia|]. destruct (HS _ H3) as [K1 K2].
    destruct (Nat.lt_ge_cases (min_some (length bi) (to_map ai bi)) (fidx fc bi)) as [L|L]; [|lia].
    rewrite (fidx_before fc bi 0%Z) in K2 by auto. discriminate.
Qed.

Lemma diff_order_spec : forall n ia ib, ia + n <= length ai ->
  exists b, diff_order n (to_map ai bi) ia ib = Ok b /\
    (b = false -> forall k, k < n -> nth (ib + k) bi 0%Z = nth (ia + k) ai 0%Z).
Proof.
  induction n as [|n IH]; intros ia ib H; simpl.
  - exists false. split; auto. intros; lia.
  - assert (Lm : ia < length (to_map ai bi)) by (unfold to_map; rewrite map_length; lia).
    rewrite (oget_ok None) by auto. cbn [obind]. unfold to_map at 1.
    rewrite (nth_indep _ None (find_index bi 0%Z)) by (rewrite map_length; lia). rewrite map_nth.
    destruct (find_index bi (nth ia ai 0%Z)) as [j|] eqn:E; [|exists true; split; auto; discriminate].
    destruct (Nat.eqb_spec j ib) as [->|Ej]; [|exists true; split; auto; discriminate].
    destruct (IH (S ia) (S ib) ltac:(lia)) as (b & E1 & H1). exists b. split; auto. intros Hb [|k] Hk.
    + rewrite !Nat.add_0_r. now destruct (find_pos_some Z.eqb Zeqb_spec _ bi ib 0%Z E).
    + rewrite !Nat.add_succ_r. apply (H1 Hb k). lia.
Qed.

Definition blockform (tr : bool) (l : labels) : Prop :=
  if tr then l = con l ++ unc l /\ fidx fc l = 0 else l = unc l ++ con l /\ fidx fc l = length (unc l).

Lemma blockform_nth tr l k : blockform tr l -> k < length (con l) -> nth (fidx fc l + k) l 0%Z = nth k (con l) 0%Z.
Proof.
  unfold blockform. destruct tr; intros [E F] Hk; rewrite F.
  - simpl. rewrite E at 1. now rewrite app_nth1.
  - rewrite E at 2. rewrite app_nth2 by lia. f_equal. lia.
Qed.

Lemma same_order ta tb : blockform ta ai -> blockform tb bi ->
  (forall k, k < length (con ai) -> nth (fidx fc bi + k) bi 0%Z = nth (fidx fc ai + k) ai 0%Z) -> con ai = con bi.
Proof.
  intros Ha Hb H. pose proof (Permutation_length con_perm) as HL.
  apply (nth_ext _ _ 0%Z 0%Z); auto. intros k Hk. specialize (H k Hk).
  rewrite (blockform_nth tb) in H by (auto; lia). rewrite (blockform_nth ta) in H by auto. congruence.
Qed.

(** uncontracted labels first in C's order *)
Definition cord (l : labels) := filter (fun x => mem Z.eqb x l) ci.

Lemma toC_canon lc l : (forall x, In x lc -> fc x = true) ->
  repeat None (length lc) ++ map (fun x => Some (pos x)) (cord l) = toC (lc ++ cord l).
Proof.
  intros H. unfold toC, to_map. rewrite map_app. f_equal.
  - induction lc as [|x lc IH]; simpl; auto. f_equal; [|apply IH; intros; apply H; simpl; auto].
    assert (F : fc x = true) by (apply H; simpl; auto).
    apply fc_In in F. destruct (find_index_cases x) as [(K & _)|(_ & -> & _)]; [contradiction|auto].
  - apply map_ext_in. intros x Hx. unfold cord in Hx. apply filter_In in Hx as [Hx _].
    destruct (find_index_cases x) as [(_ & -> & _)|(K & _)]; [auto|contradiction].
Qed.

Lemma con_in x l : In x (con l) -> fc x = true.
Proof. unfold con. intros H. now apply filter_In in H. Qed.

Lemma con_canon lc l : (forall x, In x lc -> fc x = true) -> con (lc ++ cord l) = lc /\ unc (lc ++ cord l) = cord l.
Proof.
  intros H. unfold con, unc. rewrite !filter_app.
  assert (H1 : forall x, In x (cord l) -> inC x = true).
  { intros x Hx. unfold cord in Hx. apply filter_In in Hx as [Hx _]. now apply inC_In. }
  assert (H2 : forall x, In x (cord l) -> fc x = false) by (intros x Hx; unfold fc; now rewrite H1).
  assert (H3 : forall x, In x lc -> inC x = false) by (intros x Hx; apply H in Hx; unfold fc in Hx; now destruct (inC x)).
  rewrite (filter_all fc lc), (filter_nil fc (cord l)), (filter_nil inC lc), (filter_all inC (cord l)) by auto.
  now rewrite app_nil_r.
Qed.

Lemma split_perm l : Permutation (con l ++ unc l) l.
Proof.
  unfold con, unc, fc. induction l as [|x l IH]; simpl; auto.
  destruct (inC x); simpl; [|now constructor].
  rewrite <- Permutation_middle. now constructor.
Qed.

(** The canonical relabelling of an operand: [lc] first, then the uncontracted labels in C's order. *)
Lemma canon_perm lc l : Permutation lc (con l) -> Permutation (unc l) (cord l) -> Permutation l (lc ++ cord l).
Proof. intros H1 H2. rewrite <- (split_perm l) at 1. apply Permutation_app; auto. now symmetry. Qed.

Lemma permute_phase lc l : NoDup l -> Permutation lc (con l) -> Permutation (unc l) (cord l) ->
  exists P1 P, calcPerm_loop Z.eqb l lc 0 (perm_id (length l)) = Ok P1 /\
    back_loop ci 0 l (length lc) (repeat None (length l)) P1 = Ok (toC (lc ++ cord l), P) /\
    is_perm (length (lc ++ cord l)) P /\ l = through P 0%Z (lc ++ cord l) /\
    permuteExtents (range_init (map d l)) P = Ok (range_init (map d (lc ++ cord l))).
Proof.
  intros HN H1 H2. pose proof (canon_perm lc l H1 H2) as HP.
  destruct (calcPerm_through l (lc ++ cord l) HN HP) as (P & E & HPm & HT).
  rewrite calcPerm_loop_app in E.
  assert (Hlc : forall x, In x lc -> fc x = true).
  { intros x Hx. apply (con_in x l). eapply Permutation_in; eauto. }
  assert (LL : length lc + length (cord l) = length l) by (rewrite <- app_length; symmetry; now apply Permutation_length).
  destruct (calcPerm_loop Z.eqb l lc 0 (perm_id (length l))) as [P1| |] eqn:E1; try discriminate.
  cbn [obind] in E. rewrite Nat.add_0_l in E.
  assert (HL1 : length P1 = length l).
  { destruct (calcPerm_loop_spec Z.eqb Zeqb_spec 0%Z l HN lc 0 (perm_id (length l))) as (P' & E' & L' & _).
    - eapply Permutation_NoDup; [symmetry; exact H1|]. now apply NoDup_filter.
    - intros x Hx. eapply Permutation_in in Hx; [|exact H1]. unfold con in Hx. now apply filter_In in Hx.
    - apply seq_length.
    - congruence. }
  exists P1, P. split; auto. split; [|split; [exact HPm|split; [exact HT|now apply permuteExtents_relabel]]].
  rewrite back_loop_spec; auto.
  - fold (cord l). rewrite E. cbn [obind]. rewrite <- (toC_canon lc l Hlc). repeat f_equal.
    clear - LL. replace (length l) with (length lc + length (cord l)). generalize (length (cord l)) as k. intros k. clear LL.
    induction (length lc) as [|n IH]; simpl; auto. now rewrite IH.
  - rewrite repeat_length. auto.
Qed.

(** ** the result of compute *)
Definition goodA (p : cprops) (l lc u : labels) : Prop :=
  (permuteA p = true -> is_perm (length (lc ++ u)) (PA p) /\ l = through (PA p) 0%Z (lc ++ u) /\
                        newArange p = range_init (map d (lc ++ u))) /\
  (permuteA p = false -> exists tr, contracted (fAtoC p) 0 = Ok tr /\ l = (if tr then lc ++ u else u ++ lc)).
Definition goodB (p : cprops) (l lc u : labels) : Prop :=
  (permuteB p = true -> is_perm (length (lc ++ u)) (PB p) /\ l = through (PB p) 0%Z (lc ++ u) /\
                        newBrange p = range_init (map d (lc ++ u))) /\
  (permuteB p = false -> exists tr, contracted (fBtoC p) 0 = Ok tr /\ l = (if tr then lc ++ u else u ++ lc)).

Theorem compute_spec : ai <> [] -> bi <> [] ->
  exists p lc ua ub,
    compute (range_init (map d ai)) (range_init (map d bi)) ai bi ci = Ok p /\
    Permutation lc (con ai) /\ Permutation ua (unc ai) /\ Permutation ub (unc bi) /\
    goodA p ai lc ua /\ goodB p bi lc ub /\
    dleft p = size (map d ua) /\ dmid p = size (map d lc) /\ dright p = size (map d ub) /\
    (permuteC p = true -> newCrange p = range_init (map d (ua ++ ub)) /\
                          is_perm (length ci) (PC p) /\ ua ++ ub = through (PC p) 0%Z ci) /\
    (permuteC p = false -> ci = if ctrans p then ub ++ ua else ua ++ ub) /\
    (unc ai ++ unc bi = ci -> permuteC p = false).
Proof.
  intros Ane Bne. unfold compute.
  change (to_map ai ci) with (toC ai). change (to_map bi ci) with (toC bi).
  rewrite (AtoB_first ai), (AtoB_count ai), Bcstart_spec by auto.
  cbv zeta.
  change (prod_where is_some (toC ai) (range_init (map d ai))) with (prod_where is_some (toC ai) (with_strides 1 (map d ai))).
  change (prod_where is_none (toC ai) (range_init (map d ai))) with (prod_where is_none (toC ai) (with_strides 1 (map d ai))).
  change (prod_where is_some (toC bi) (range_init (map d bi))) with (prod_where is_some (toC bi) (with_strides 1 (map d bi))).
  rewrite !prod_where_some, prod_where_none.
  pose proof unc_perm as UP.
  assert (UL : length (somes (toC ai)) + length (somes (toC bi)) = length ci).
  { rewrite !somes_toC, !map_length, <- app_length. now apply Permutation_length. }
  rewrite computePC_spec by (unfold perm_id; now rewrite seq_length). cbn [obind].
  destruct (c_flags_spec ai bi UP) as (pC0 & ct0 & EC & HC1 & HC2 & HC3). rewrite EC. cbn [obind].
  destruct (needs_permute_spec ai Ane) as (pA0 & EA & HA0). rewrite EA. cbn [obind].
  pose proof (Permutation_length con_perm) as CL.
  destruct (needs_permute_spec bi Bne) as (pB0 & EB & HB0). 
  replace (needs_permute (toC bi) (fidx fc bi) (length (con ai))) with (Ok pB0) by (rewrite CL; auto). cbn [obind].
  assert (ED : exists df, (if pA0 || pB0 then Ok false else diff_order (length (con ai)) (to_map ai bi) (fidx fc ai) (fidx fc bi)) = Ok df /\
     (pA0 = false -> pB0 = false -> df = false -> con ai = con bi)).
  { destruct (pA0 || pB0) eqn:EO.
    - exists false. split; auto. intros -> ->. discriminate.
    - destruct (diff_order_spec (length (con ai)) (fidx fc ai) (fidx fc bi) (con_length_bound ai)) as (b & Eb & Hb).
      exists b. split; auto. intros Ha' Hb' Hf. destruct (HA0 Ha') as (ta & _ & Fa), (HB0 Hb') as (tb & _ & Fb).
      apply (same_order ta tb); auto. }
  destruct ED as (df & -> & HD). cbn [obind].
  set (dl := size (map d (unc ai))). set (dm := size (map d (con ai))). set (dr := size (map d (unc bi))).
  set (pA1 := pA0 || (df && (dl <? dr))). set (pB1 := pB0 || (df && negb (dl <? dr))).
  set (sw := pC0 && negb (pA1 && pB1) && cheaper pA1 pB1 dl dm dr).
  assert (HpA : pA1 || sw = false -> pA0 = false).
  { intros H. unfold pA1 in H. now destruct pA0. }
  assert (HpB : pB1 || sw = false -> pB0 = false).
  { intros H. unfold pB1 in H. now destruct pB0. }
  assert (HpAB : pA1 || sw = false -> pB1 || sw = false -> df = false).
  { unfold pA1, pB1. intros H1 H2. destruct df; auto. destruct (dl <? dr), pA0, pB0; simpl in *; discriminate. }
  clearbody pA1 pB1 sw. set (pA := pA1 || sw) in *. set (pB := pB1 || sw) in *. 
  assert (HswAB : pA = false -> pB = false -> sw = false) by (unfold pA, pB; destruct pA1, pB1, sw; simpl; auto).
  clearbody pA pB.
  assert (Sz : forall l l' : labels, Permutation l l' -> size (map d l) = size (map d l')).
  { intros l l' HP; induction HP; simpl; nia. }
  assert (Sk : forall l, con (skipn (fidx fc l) l) = con l).
  { intros l. unfold con. induction l as [|x l IH]; simpl; auto. destruct (fc x) eqn:E; simpl; [now rewrite E|exact IH]. }
  (* the operand A *)
  destruct pA.
  - assert (F1 : front_other (length (con ai)) (toC bi) bi ai (fidx fc bi) 0 (perm_id (length ai)) =
      obind (calcPerm_loop Z.eqb ai (con bi) 0 (perm_id (length ai))) (fun P' => Ok (length (con bi), P'))).
    { rewrite CL. rewrite front_other_spec.
      - now rewrite Sk.
      - now rewrite Sk.
      - intros x Hx. apply con_AB in Hx. unfold con in Hx. now apply filter_In in Hx.
      - apply seq_length. }
    rewrite F1. clear F1.
    destruct (permute_phase (con bi) ai NA ltac:(symmetry; apply con_perm) unc_of_ci) as (P1 & P & E1 & E2 & PP & PT & PE).
    rewrite E1. cbn [obind]. rewrite E2. cbn [obind]. rewrite PE. cbn [obind].
    set (ua := cord ai). assert (Hua : Permutation ua (unc ai)) by (symmetry; apply unc_of_ci).
    destruct (con_canon (con bi) ai (fun x H => con_in x bi H)) as [CA1 CA2]. fold ua in CA1, CA2, PP, PT, PE.
    destruct pB.
    + assert (F2 : front_self (length (con ai)) (toC bi) (fidx fc bi) 0 (perm_id (length bi)) =
        obind (calcPerm_loop Z.eqb bi (con bi) 0 (perm_id (length bi))) (fun P' => Ok (length (con bi), P'))).
      { rewrite CL. rewrite front_self_other; auto; [|now rewrite Sk]. rewrite front_other_spec.
        - now rewrite Sk.
        - now rewrite Sk.
        - intros x Hx. unfold con in Hx. now apply filter_In in Hx.
        - apply seq_length. }
      rewrite F2. clear F2.
      destruct (permute_phase (con bi) bi NB (Permutation_refl _) unc_of_ci_b) as (Q1 & Q & E3 & E4 & QP & QT & QE).
      rewrite E3. cbn [obind]. rewrite E4. cbn [obind]. rewrite QE. cbn [obind orb].
      set (ub := cord bi). assert (Hub : Permutation ub (unc bi)) by (symmetry; apply unc_of_ci_b).
      destruct (con_canon (con bi) bi (fun x H => con_in x bi H)) as [CB1 CB2]. fold ub in CB1, CB2, QP, QT, QE.
      assert (UP' : Permutation (unc (con bi ++ ua) ++ unc (con bi ++ ub)) ci).
      { rewrite CA2, CB2. rewrite Hua, Hub. exact UP. }
      assert (UL' : length (somes (toC (con bi ++ ua))) + length (somes (toC (con bi ++ ub))) = length (somes (toC ai) ++ somes (toC bi))).
      { rewrite !somes_toC, !map_length, <- app_length. rewrite (Permutation_length UP'). rewrite app_length, !map_length.
        rewrite <- app_length. now rewrite (Permutation_length UP). }
      fold ua ub. rewrite computePC_spec by exact UL'. cbn [obind].
      destruct (c_flags_spec (con bi ++ ua) (con bi ++ ub) UP') as (pC & ct & EC' & HC1' & HC2' & HC3'). rewrite EC'. cbn [obind].
      rewrite CA2, CB2 in *.
      eexists _, (con bi), ua, ub. split; [reflexivity|]. cbn [permuteA permuteB permuteC ctrans dleft dmid dright PA PB PC newArange newBrange newCrange fAtoC fBtoC].
      split; [symmetry; apply con_perm|]. split; [auto|]. split; [auto|].
      split; [split; cbn [permuteA PA newArange]; [intros _; split; [exact PP|split; auto]|discriminate]|].
      split; [split; cbn [permuteB PB newBrange]; [intros _; split; [exact QP|split; auto]|discriminate]|].
      split; [apply Sz; now symmetry|]. split; [apply Sz; apply con_perm|]. split; [apply Sz; now symmetry|].
      split; [|split].
      * intros ->. unfold range_init at 2 3. rewrite !unc_exts_spec, CA2, CB2, <- map_app. split; auto.
        rewrite !somes_toC, CA2, CB2, <- map_app. now apply pos_is_perm.
      * intros HpC. destruct ct; [symmetry; now apply HC2'|symmetry; now apply HC1'].
      * intros E. apply HC3'. rewrite <- E. unfold ua, ub. unfold cord. rewrite <- E.
        rewrite !filter_app.
        rewrite (filter_all _ (unc ai)), (filter_nil _ (unc bi)), (filter_nil _ (unc ai)), (filter_all _ (unc bi)); simpl.
        -- now rewrite app_nil_r.
        -- intros x Hx. unfold unc in Hx. apply filter_In in Hx. now apply mem_In.
        -- intros x Hx. unfold unc in Hx. apply filter_In in Hx as [H1 H2]. apply inC_In, HC in H2.
           destruct (mem Z.eqb x bi) eqn:F; auto. apply mem_In in F. tauto.
        -- intros x Hx. unfold unc in Hx. apply filter_In in Hx as [H1 H2]. apply inC_In, HC in H2.
           destruct (mem Z.eqb x ai) eqn:F; auto. apply mem_In in F. tauto.
        -- intros x Hx. unfold unc in Hx. apply filter_In in Hx. now apply mem_In.
    + cbn [obind orb].
      destruct (HB0 (HpB eq_refl)) as (tb & Etb & Fb).
      assert (UP' : Permutation (unc (con bi ++ ua) ++ unc bi) ci).
      { rewrite CA2, Hua. exact UP. }
      assert (UL' : length (somes (toC (con bi ++ ua))) + length (somes (toC bi)) = length (somes (toC ai) ++ somes (toC bi))).
      { rewrite !somes_toC, !map_length, <- app_length. rewrite (Permutation_length UP'). rewrite app_length, !map_length.
        rewrite <- app_length. now rewrite (Permutation_length UP). }
      fold ua. rewrite computePC_spec by exact UL'. cbn [obind].
      destruct (c_flags_spec (con bi ++ ua) bi UP') as (pC & ct & EC' & HC1' & HC2' & HC3'). rewrite EC'. cbn [obind].
      rewrite CA2 in *.
      eexists _, (con bi), ua, (unc bi). split; [reflexivity|]. cbn [permuteA permuteB permuteC ctrans dleft dmid dright PA PB PC newArange newBrange newCrange fAtoC fBtoC].
      split; [symmetry; apply con_perm|]. split; [auto|]. split; [auto|].
      split; [split; cbn [permuteA PA newArange]; [intros _; split; [exact PP|split; auto]|discriminate]|].
      split.
      { split; cbn [permuteB fBtoC]; [discriminate|]. intros _. exists tb. split; auto. destruct tb; apply Fb. }
      split; [apply Sz; now symmetry|]. split; [apply Sz; apply con_perm|]. split; [reflexivity|].
      split; [|split].
      * intros ->. unfold range_init at 2 3. rewrite !unc_exts_spec, CA2, <- map_app. split; auto.
        rewrite !somes_toC, CA2, <- map_app. now apply pos_is_perm.
      * intros HpC. destruct ct; [symmetry; now apply HC2'|symmetry; now apply HC1'].
      * intros E. apply HC3'. rewrite <- E. f_equal. unfold ua, cord. rewrite <- E, filter_app.
        rewrite (filter_all _ (unc ai)), (filter_nil _ (unc bi)); [now rewrite app_nil_r| |].
        -- intros x Hx. unfold unc in Hx. apply filter_In in Hx as [H1 H2]. apply inC_In, HC in H2.
           destruct (mem Z.eqb x ai) eqn:F; auto. apply mem_In in F. tauto.
        -- intros x Hx. unfold unc in Hx. apply filter_In in Hx. now apply mem_In.
  - cbn [obind]. destruct (HA0 (HpA eq_refl)) as (ta & Eta & Fa).
    destruct pB.
    + assert (F2 : front_other (length (con ai)) (toC ai) ai bi (fidx fc ai) 0 (perm_id (length bi)) =
        obind (calcPerm_loop Z.eqb bi (con ai) 0 (perm_id (length bi))) (fun P' => Ok (length (con ai), P'))).
      { rewrite front_other_spec.
        - now rewrite Sk.
        - now rewrite Sk.
        - intros x Hx. apply con_AB in Hx. unfold con in Hx. now apply filter_In in Hx.
        - apply seq_length. }
      rewrite F2. clear F2.
      destruct (permute_phase (con ai) bi NB con_perm unc_of_ci_b) as (Q1 & Q & E3 & E4 & QP & QT & QE).
      rewrite E3. cbn [obind]. rewrite E4. cbn [obind]. rewrite QE. cbn [obind orb].
      set (ub := cord bi). assert (Hub : Permutation ub (unc bi)) by (symmetry; apply unc_of_ci_b).
      destruct (con_canon (con ai) bi (fun x H => con_in x ai H)) as [CB1 CB2]. fold ub in CB1, CB2, QP, QT, QE.
      assert (UP' : Permutation (unc ai ++ unc (con ai ++ ub)) ci).
      { rewrite CB2. rewrite Hub. exact UP. }
      assert (UL' : length (somes (toC ai)) + length (somes (toC (con ai ++ ub))) = length (somes (toC ai) ++ somes (toC bi))).
      { rewrite !somes_toC, !map_length, <- app_length. rewrite (Permutation_length UP'). rewrite app_length, !map_length.
        rewrite <- app_length. now rewrite (Permutation_length UP). }
      fold ub. rewrite computePC_spec by exact UL'. cbn [obind].
      destruct (c_flags_spec ai (con ai ++ ub) UP') as (pC & ct & EC' & HC1' & HC2' & HC3'). rewrite EC'. cbn [obind].
      rewrite CB2 in *.
      eexists _, (con ai), (unc ai), ub. split; [reflexivity|]. cbn [permuteA permuteB permuteC ctrans dleft dmid dright PA PB PC newArange newBrange newCrange fAtoC fBtoC].
      split; [auto|]. split; [auto|]. split; [auto|].
      split.
      { split; cbn [permuteA fAtoC]; [discriminate|]. intros _. exists ta. split; auto. destruct ta; apply Fa. }
      split; [split; cbn [permuteB PB newBrange]; [intros _; split; [exact QP|split; auto]|discriminate]|].
      split; [reflexivity|]. split; [reflexivity|]. split; [apply Sz; now symmetry|].
      split; [|split].
      * intros ->. unfold range_init at 2 3. rewrite !unc_exts_spec, CB2, <- map_app. split; auto.
        rewrite !somes_toC, CB2, <- map_app. now apply pos_is_perm.
      * intros HpC. destruct ct; [symmetry; now apply HC2'|symmetry; now apply HC1'].
      * intros E. apply HC3'. rewrite <- E. f_equal. unfold ub, cord. rewrite <- E, filter_app.
        rewrite (filter_nil _ (unc ai)), (filter_all _ (unc bi)); auto.
        -- intros x Hx. unfold unc in Hx. apply filter_In in Hx. now apply mem_In.
        -- intros x Hx. unfold unc in Hx. apply filter_In in Hx as [H1 H2]. apply inC_In, HC in H2.
           destruct (mem Z.eqb x bi) eqn:F; auto. apply mem_In in F. tauto.
    + cbn [obind orb]. destruct (HB0 (HpB eq_refl)) as (tb & Etb & Fb).
      pose proof (HD (HpA eq_refl) (HpB eq_refl) (HpAB eq_refl eq_refl)) as ECon.
      rewrite (HswAB eq_refl eq_refl). cbn [negb]. rewrite andb_true_r.
      eexists _, (con ai), (unc ai), (unc bi). split; [reflexivity|]. cbn [permuteA permuteB permuteC ctrans dleft dmid dright PA PB PC newArange newBrange newCrange fAtoC fBtoC].
      split; [auto|]. split; [auto|]. split; [auto|].
      split.
      { split; cbn [permuteA fAtoC]; [discriminate|]. intros _. exists ta. split; auto. destruct ta; apply Fa. }
      split.
      { split; cbn [permuteB fBtoC]; [discriminate|]. intros _. exists tb. split; auto. rewrite ECon. destruct tb; apply Fb. }
      split; [reflexivity|]. split; [reflexivity|]. split; [reflexivity|].
      split; [|split].
      * intros ->. unfold range_init at 2 3. rewrite !unc_exts_spec, <- map_app. split; auto.
        rewrite !somes_toC, <- map_app. now apply pos_is_perm.
      * intros HpC. destruct ct0; [symmetry; now apply HC2|symmetry; now apply HC1].
      * intros E. now apply HC3.
Qed.
End Dims.
End Pos.
