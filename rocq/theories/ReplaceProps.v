(** C48: replaceInds and swapInds.  Vocabulary: IndexSpec.v. *)
From Coq Require Import List ZArith Bool Lia Arith Permutation.
From Verif Require Import Util SmallStringModel TagSetModel TagSetSpec TagSetProofs TagSetProps
  QnModel IndexModel IndexSpec IndexProofs IndexProps.
Import ListNotations.

(** An arrow of a real index. *)
Definition arrowed (J : index) : Prop := ix_dir J <> ArrNeither.

(** Prime levels a program uses: not negative, and (for the tensor) below the private level added
    while renaming. *)
Definition plain_level (J : index) : Prop := (0 <= ix_level J < 43218432)%Z.

Definition primed (B : index) : index := with_tags B (ts_prime (ix_tags B) replace_temp).
Definition newp (J B : index) : index := with_dir (primed B) (ix_dir J).

Fixpoint lk (is1 is2 : list index) (J : index) : option index :=
  match is1, is2 with
  | K :: is1', B :: is2' => if ix_bool K && ix_eqb J K then Some B else lk is1' is2' J
  | _, _ => None
  end.
Definition repl (is1 is2 : list index) (J : index) : index :=
  match lk is1 is2 J with Some B => newp J B | None => J end.

Lemma lk_some is1 is2 J B : lk is1 is2 J = Some B ->
  exists k A, nth_error is1 k = Some A /\ nth_error is2 k = Some B /\ key A = key J.
Proof.
  revert is2. induction is1 as [|K is1 IH]; intros [|C is2] H; try discriminate. simpl in H.
  destruct (ix_bool K && ix_eqb J K) eqn:E.
  - injection H as <-. apply andb_prop in E as [_ E]. apply ix_eqb_key in E. exists 0, K. auto.
  - apply IH in H as (k & A & H1 & H2 & H3). exists (S k), A. auto.
Qed.
Lemma lk_none is1 is2 J : length is2 = length is1 -> Forall (fun A => ix_bool A = true) is1 -> lk is1 is2 J = None -> ~ In (key J) (map key is1).
Proof.
  revert is2. induction is1 as [|K is1 IH]; intros [|C is2] L N H; try discriminate; simpl in *; auto.
  inversion N; subst. rewrite H2 in H. cbn [andb] in H. destruct (ix_eqb J K) eqn:E; [discriminate|]. apply ix_eqb_false in E.
  intros [X|X]; [congruence|]. revert X. apply IH with (is2 := is2); auto.
Qed.

Lemma dag_with_dir J Kp : arrowed J -> arrowed Kp ->
  (if match ix_dir (ix_dag J), ix_dir Kp with
      | ArrIn, ArrIn | ArrOut, ArrOut | ArrNeither, ArrNeither => true | _, _ => false end
   then ix_dag Kp else Kp) = with_dir Kp (ix_dir J).
Proof.
  unfold arrowed, ix_dag, with_dir. intros H1 H2. destruct J as [? ? d1 ? ?], Kp as [? ? d2 ? ?]. simpl in *.
  destruct d1, d2; try contradiction; reflexivity.
Qed.

Lemma replace_one_lk is1 : forall is2 J cur, arrowed J -> Forall arrowed is2 ->
  (forall k A B, nth_error is1 k = Some A -> nth_error is2 k = Some B -> key A = key J -> ix_dim J = ix_dim B) ->
  replace_one is1 (map primed is2) is2 J cur =
  match lk is1 is2 J with Some B => times_delta cur (ix_dag J) (newp J B) | None => Ok cur end.
Proof.
  induction is1 as [|K is1 IH]; intros [|B is2] J cur HJ HA HD; cbn [replace_one map lk]; auto.
  inversion HA; subst. destruct (ix_bool K && ix_eqb J K) eqn:E.
  - apply andb_prop in E as [_ E]. apply ix_eqb_key in E. rewrite (HD 0 K B eq_refl eq_refl (eq_sym E)).
    rewrite Z.eqb_refl. cbn [negb]. rewrite dag_with_dir by auto. reflexivity.
  - apply IH; auto. intros k A C H3 H4. apply (HD (S k)); auto.
Qed.

Lemma key_newp J B : key (newp J B) = (ix_id B, ix_level B + 43218432, ts_list (ix_tags B))%Z.
Proof. reflexivity. Qed.
Lemma key_newp_eq J B J' B' : key (newp J B) = key (newp J' B') -> key B = key B'.
Proof. rewrite !key_newp. unfold key. intros E. injection E as E1 E2 E3. f_equal; auto. f_equal; auto. lia. Qed.
Lemma key_level a b : key a = key b -> ix_level a = ix_level b.
Proof. unfold key, ix_level. congruence. Qed.

Section Replace.
Variables is1 is2 is : list index.
Hypothesis V : Forall valid is.
Hypothesis V1 : Forall valid is1.
Hypothesis V2 : Forall valid is2.
Hypothesis D : distinct is.
Hypothesis D2 : distinct is2.
Hypothesis LEN : length is2 = length is1.
Hypothesis N1 : Forall (fun A => ix_id A <> 0%N) is1.
Hypothesis AR : Forall arrowed is.
Hypothesis AR2 : Forall arrowed is2.
Hypothesis LV : Forall plain_level is.
Hypothesis LV2 : Forall plain_level is2.
Hypothesis DIM : forall k A B J, nth_error is1 k = Some A -> nth_error is2 k = Some B -> In J is -> same A J ->
  ix_dim J = ix_dim B.

Lemma bool1 : Forall (fun A => ix_bool A = true) is1.
Proof. rewrite Forall_forall in *. intros A HA. unfold ix_bool. apply negb_true_iff, N.eqb_neq. auto. Qed.
Lemma Dk : NoDup (map key is).
Proof. now apply distinct_keys. Qed.
Lemma D2k : NoDup (map key is2).
Proof. now apply distinct_keys. Qed.
Lemma DIMk k A B J : nth_error is1 k = Some A -> nth_error is2 k = Some B -> In J is -> key A = key J -> ix_dim J = ix_dim B.
Proof.
  intros H1 H2 H3 H4. apply (DIM k A B J); auto. apply same_key; auto.
  - rewrite Forall_forall in V1. apply V1. eapply nth_error_In; eauto.
  - rewrite Forall_forall in V. auto.
Qed.

Lemma newp_level J B : In B is2 -> (43218432 <= ix_level (newp J B))%Z.
Proof. intros H. rewrite Forall_forall in LV2. specialize (LV2 B H). unfold plain_level in LV2. unfold ix_level in *. simpl. unfold replace_temp. lia. Qed.
Lemma is_level J : In J is -> (ix_level J < 43218432)%Z.
Proof. intros H. rewrite Forall_forall in LV. apply (LV J H). Qed.

Lemma lk_in J B : lk is1 is2 J = Some B -> In B is2.
Proof. intros H. apply lk_some in H as (k & A & _ & H & _). eapply nth_error_In; eauto. Qed.

Lemma lk_inj J J' B B' : lk is1 is2 J = Some B -> lk is1 is2 J' = Some B' -> key B = key B' -> key J = key J'.
Proof.
  intros H H' E. apply lk_some in H as (k & A & HA & HB & EA). apply lk_some in H' as (k' & A' & HA' & HB' & EA').
  assert (k = k').
  { apply (proj1 (NoDup_nth_error (map key is2)) D2k).
    - rewrite map_length. apply nth_error_Some. congruence.
    - rewrite !nth_error_map, HB, HB'. simpl. congruence. }
  subst k'. congruence.
Qed.

Lemma repl_key_neq J0 K : In J0 is -> In K is -> key (repl is1 is2 J0) = key K -> key J0 = key K.
Proof.
  unfold repl. intros H0 HK E. destruct (lk is1 is2 J0) as [B|] eqn:EL; auto. exfalso.
  pose proof (newp_level J0 B (lk_in _ _ EL)). pose proof (is_level K HK). apply key_level in E. lia.
Qed.
Lemma repl_inj J J' : In J is -> In J' is -> key (repl is1 is2 J) = key (repl is1 is2 J') -> key J = key J'.
Proof.
  intros H H' E. destruct (lk is1 is2 J') as [B'|] eqn:EL'.
  - destruct (lk is1 is2 J) as [B|] eqn:EL.
    + unfold repl in E. rewrite EL, EL' in E. apply key_newp_eq in E. eapply lk_inj; eauto.
    + assert (R : repl is1 is2 J = J) by (unfold repl; now rewrite EL). rewrite R in E. symmetry. symmetry in E. now apply repl_key_neq.
  - assert (R : repl is1 is2 J' = J') by (unfold repl; now rewrite EL'). rewrite R in E. now apply repl_key_neq.
Qed.

Lemma replace_loop_spec : forall post pre, is = pre ++ post ->
  replace_loop is1 (map primed is2) is2 post (map (repl is1 is2) pre ++ post) =
    (Ok (map (repl is1 is2) is), map (repl is1 is2) is).
Proof.
  induction post as [|J post IH]; intros pre E; cbn [replace_loop].
  - rewrite app_nil_r in *. now subst.
  - assert (HJ : In J is) by (rewrite E; apply in_or_app; simpl; auto).
    assert (HP : forall K, In K pre -> In K is) by (intros; rewrite E; apply in_or_app; auto).
    assert (HQ : forall K, In K post -> In K is) by (intros; rewrite E; apply in_or_app; simpl; auto).
    assert (ND := Dk). rewrite E, map_app in ND. cbn [map] in ND. pose proof (NoDup_remove_2 _ _ _ ND) as NI. rewrite in_app_iff in NI.
    rewrite replace_one_lk.
    + assert (G : match lk is1 is2 J with
                  | Some B => times_delta (map (repl is1 is2) pre ++ J :: post) (ix_dag J) (newp J B)
                  | None => Ok (map (repl is1 is2) pre ++ J :: post)
                  end = Ok (map (repl is1 is2) (pre ++ [J]) ++ post)).
      { rewrite map_app. cbn [map]. rewrite <- app_assoc. cbn [app]. destruct (lk is1 is2 J) as [B|] eqn:EL.
        - unfold times_delta.
          assert (H1 : hasIndex (map (repl is1 is2) pre ++ J :: post) (ix_dag J) = true).
          { apply hasIndex_key. rewrite map_app, in_app_iff. right. left. reflexivity. }
          assert (H2 : hasIndex (map (repl is1 is2) pre ++ J :: post) (newp J B) = false).
          { destruct (hasIndex (map (repl is1 is2) pre ++ J :: post) (newp J B)) eqn:X; auto. exfalso. apply hasIndex_key in X. rewrite map_app, in_app_iff in X.
            pose proof (newp_level J B (lk_in _ _ EL)) as HL. destruct X as [X|X].
            - rewrite map_map in X. apply in_map_iff in X as (K & X & HK).
              assert (Q : repl is1 is2 J = newp J B) by (unfold repl; now rewrite EL).
              rewrite <- Q in X.
              apply repl_inj in X; auto. apply NI. left. rewrite <- X. now apply in_map.
            - change (key J :: map key post) with (map key (J :: post)) in X. apply in_map_iff in X as (K & X & HK).
              assert (In K is) by (destruct HK as [<-|HK]; auto). pose proof (is_level K H). apply key_level in X. lia. }
          rewrite H1, H2. cbn [andb negb]. f_equal. rewrite map_app. cbn [map]. f_equal.
          + rewrite <- (map_id (map (repl is1 is2) pre)) at 2. apply map_ext_in. intros K' HK'.
            apply in_map_iff in HK' as (K & <- & HK). destruct (ix_eqb (repl is1 is2 K) (ix_dag J)) eqn:X; auto. exfalso.
            apply ix_eqb_key in X. change (key (ix_dag J)) with (key J) in X. apply repl_key_neq in X; auto.
            apply NI. left. rewrite <- X. now apply in_map.
          + assert (X : ix_eqb J (ix_dag J) = true) by (apply ix_eqb_key; reflexivity). rewrite X.
            assert (Q : repl is1 is2 J = newp J B) by (unfold repl; now rewrite EL). rewrite Q. f_equal.
            rewrite <- (map_id post) at 2. apply map_ext_in. intros K HK. destruct (ix_eqb K (ix_dag J)) eqn:Y; auto. exfalso.
            apply ix_eqb_key in Y. change (key (ix_dag J)) with (key J) in Y. apply NI. right. rewrite <- Y. now apply in_map.
        - f_equal. f_equal. f_equal. unfold repl. now rewrite EL. }
      rewrite G. apply IH. rewrite <- app_assoc. auto.
    + rewrite Forall_forall in AR. auto.
    + auto.
    + intros k A B H1 H2 H3. eapply DIMk; eauto.
Qed.

Lemma primed_keys : NoDup (map key (map primed is2)).
Proof.
  rewrite map_map. assert (ND := D2k). clear - ND. induction is2 as [|B l IH]; simpl; [constructor|].
  simpl in ND. inversion ND; subst. constructor; auto. intros H. apply H1. apply in_map_iff in H as (C & E & HC).
  apply in_map_iff. exists C. split; auto. apply (key_newp_eq B C B B). exact E.
Qed.

(** Every index listed in is1 becomes the index at the same place of is2, keeping its own arrow; all
    the others stay, and so does the order.  (The storage is not touched.) *)
Theorem C48_rename : exists is', fst (replaceInds is1 is2 is) = Ok is' /\ snd (replaceInds is1 is2 is) = is' /\
  Forall2 (fun J J' => (has is1 J -> exists k A B, nth_error is1 k = Some A /\ nth_error is2 k = Some B /\ same A J /\
                                       J' = with_dir B (ix_dir J)) /\
                       (~ has is1 J -> J' = J)) is is'.
Proof.
  unfold replaceInds.
  change (map (fun J => with_tags J (ts_prime (ix_tags J) replace_temp)) is2) with (map primed is2).
  pose proof (replace_loop_spec is [] eq_refl) as HL. cbn [map app] in HL. rewrite HL. clear HL.
  assert (ND : NoDup (map key (map (repl is1 is2) is))).
  { rewrite map_map. assert (ND := Dk). assert (I : incl is is) by apply incl_refl. revert ND I.
    cut (forall l, NoDup (map key l) -> incl l is -> NoDup (map (fun x => key (repl is1 is2 x)) l)); [intros C; apply C|].
    induction l as [|J l IH]; simpl; intros ND I; [constructor|]. inversion ND; subst. constructor.
    - intros H. apply in_map_iff in H as (K & E & HK). apply repl_inj in E; [|apply I; simpl; auto|apply I; simpl; auto].
      apply H1. rewrite <- E. now apply in_map.
    - apply IH; auto. intros x Hx. apply I. simpl; auto. }
  pose proof (is_op_release (IPrime (- replace_temp)) (SInds (map primed is2)) _ ND primed_keys) as R.
  assert (Q : each_where (ix_op false (IPrime (- replace_temp))) (selb (SInds (map primed is2))) (map (repl is1 is2) is)
              = Ok (map (fun J => match lk is1 is2 J with Some B => with_dir B (ix_dir J) | None => J end) is)).
  { unfold each_where. apply each_Forall2.
    cut (forall l, incl l is -> Forall2 (fun J J' => (if selb (SInds (map primed is2)) J then ix_op false (IPrime (- replace_temp)) J else Ok J) = Ok J')
      (map (repl is1 is2) l) (map (fun J => match lk is1 is2 J with Some B => with_dir B (ix_dir J) | None => J end) l));
      [intros C; apply C, incl_refl|].
    induction l as [|J l IH]; simpl; intros I; constructor; [|apply IH; intros x Hx; apply I; simpl; auto].
    unfold repl. destruct (lk is1 is2 J) as [B|] eqn:EL.
    - assert (H : hasIndex (map primed is2) (newp J B) = true).
      { apply hasIndex_key. apply in_map_iff. exists (primed B). split; [reflexivity|]. apply in_map. eapply lk_in; eauto. }
      rewrite H. unfold ix_prime, level_check. cbn [andb]. f_equal. unfold newp, primed, with_tags, with_dir, ts_prime. simpl.
      destruct B as [i d r q [tg lv sz]]. simpl. do 2 f_equal. unfold replace_temp. lia.
    - destruct (hasIndex (map primed is2) J) eqn:X; auto. exfalso. apply hasIndex_key in X. rewrite map_map in X.
      apply in_map_iff in X as (B & E & HB). pose proof (newp_level B B HB). pose proof (is_level J (I J (or_introl eq_refl))).
      apply key_level in E. change (ix_level (primed B)) with (ix_level (newp B B)) in E. lia. }
  cbv iota beta.
  destruct (is_op false (IPrime (- replace_temp)) (SInds (map primed is2)) (map (repl is1 is2) is)) as [r| |];
    [|destruct R as (J & _ & _ & [R|R]); simpl in R; discriminate|destruct R as (J & _ & _ & [R|R]); simpl in R; discriminate].
  rewrite Q in R. injection R as <-. eexists. split; [reflexivity|]. split; [reflexivity|].
  rewrite Forall_forall in V. revert V. clear - LEN V1 N1. induction is as [|J l IH]; intros W; simpl; constructor; [|apply IH; intros; apply W; simpl; auto].
  specialize (W J (or_introl eq_refl)). destruct (lk is1 is2 J) as [B|] eqn:EL.
  - apply lk_some in EL as (k & A & HA & HB & E).
    assert (S : same A J) by (apply same_key; auto; rewrite Forall_forall in V1; apply V1; eapply nth_error_In; eauto).
    split; [intros _; exists k, A, B; auto|]. intros H. exfalso. apply H. exists A. split; auto. eapply nth_error_In; eauto.
  - apply lk_none in EL; auto using bool1. split; auto. intros H. exfalso. apply EL. apply (has_key is1 J) in H; auto.
Qed.
End Replace.

(** swapInds exchanges the two lists position by position. *)
Theorem C48_swap : forall is1 is2 is,
  Forall valid is -> Forall valid is1 -> Forall valid is2 -> distinct is -> distinct (is1 ++ is2) -> length is2 = length is1 ->
  Forall (fun A => ix_id A <> 0%N) (is1 ++ is2) -> Forall arrowed (is ++ is1 ++ is2) -> Forall plain_level (is ++ is1 ++ is2) ->
  (forall k A B, nth_error is1 k = Some A -> nth_error is2 k = Some B -> ix_dim A = ix_dim B) ->
  (forall J K, In J is -> In K (is1 ++ is2) -> same K J -> ix_dim J = ix_dim K) ->
  exists is', fst (swapInds is1 is2 is) = Ok is' /\
    Forall2 (fun J J' =>
      (forall k A B, nth_error is1 k = Some A -> nth_error is2 k = Some B ->
         (same A J -> J' = with_dir B (ix_dir J)) /\ (same B J -> J' = with_dir A (ix_dir J))) /\
      (~ has (is1 ++ is2) J -> J' = J)) is is'.
Proof.
  intros is1 is2 is V V1 V2 D DD LEN N AR LV DIM DIMJ.
  assert (V12 : Forall valid (is1 ++ is2)) by now apply Forall_app. assert (V21 : Forall valid (is2 ++ is1)) by now apply Forall_app.
  apply Forall_app in AR as [AR AR12]. apply Forall_app in LV as [LV LV12].
  assert (DK : NoDup (map key (is1 ++ is2))) by now apply distinct_keys.
  assert (D21 : distinct (is2 ++ is1)).
  { apply distinct_keys; auto. eapply Permutation_NoDup; [apply Permutation_map, Permutation_app_comm|exact DK]. }
  assert (AR21 : Forall arrowed (is2 ++ is1)) by (apply Forall_app in AR12 as [? ?]; now apply Forall_app).
  assert (LV21 : Forall plain_level (is2 ++ is1)) by (apply Forall_app in LV12 as [? ?]; now apply Forall_app).
  assert (L21 : length (is2 ++ is1) = length (is1 ++ is2)) by (rewrite !app_length; lia).
  assert (NA : forall (l l' : list index) k x, nth_error (l ++ l') k = Some x ->
     (k < length l /\ nth_error l k = Some x) \/ (exists k', k = length l + k' /\ nth_error l' k' = Some x)).
  { intros l l' k x H. destruct (Nat.lt_ge_cases k (length l)).
    - left. rewrite nth_error_app1 in H by auto. auto.
    - right. rewrite nth_error_app2 in H by auto. exists (k - length l). split; auto. lia. }
  assert (PAIR : forall k A B, nth_error (is1 ++ is2) k = Some A -> nth_error (is2 ++ is1) k = Some B ->
     (nth_error is1 k = Some A /\ nth_error is2 k = Some B) \/
     (exists k', k = length is1 + k' /\ nth_error is2 k' = Some A /\ nth_error is1 k' = Some B)).
  { intros k A B HA HB. apply NA in HA as [[H1 H2]|(k1 & H1 & H2)], HB as [[H3 H4]|(k2 & H3 & H4)]; auto; try lia.
    right. exists k1. assert (k1 = k2) by lia. subst k2. auto. }
  destruct (C48_rename (is1 ++ is2) (is2 ++ is1) is) as (is' & E & _ & F); auto.
  - intros k A B J HA HB HJ S. assert (ix_dim J = ix_dim A) by (apply DIMJ; auto; eapply nth_error_In; eauto).
    destruct (PAIR k A B HA HB) as [[H1 H2]|(k' & _ & H1 & H2)].
    + rewrite H. eapply DIM; eauto.
    + rewrite H. symmetry. eapply DIM; eauto.
  - exists is'. split; [exact E|]. assert (VI : forall J, In J is -> valid J) by (now apply Forall_forall).
    assert (GI : forall k A, nth_error (is1 ++ is2) k = Some A -> valid A).
    { intros k A HA. rewrite Forall_forall in V12. apply V12. eapply nth_error_In; eauto. }
    clear - F VI DK PAIR GI LEN. induction F as [|J J' l l' [H1 H2] F IH]; constructor; [|apply IH; intros; apply VI; simpl; auto].
    split; auto. assert (VJ : valid J) by (apply VI; simpl; auto).
    assert (G : forall k A B, nth_error (is1 ++ is2) k = Some A -> nth_error (is2 ++ is1) k = Some B -> same A J -> J' = with_dir B (ix_dir J)).
    { intros k A B HA HB S. destruct H1 as (k2 & A2 & B2 & HA2 & HB2 & S2 & ->); [exists A; split; auto; eapply nth_error_In; eauto|].
      apply same_key in S; eauto. apply same_key in S2; eauto.
      assert (k = k2).
      { apply (proj1 (NoDup_nth_error _) DK); [rewrite map_length; apply nth_error_Some; congruence|].
        rewrite !nth_error_map, HA, HA2. simpl. congruence. }
      subst k2. congruence. }
    intros k A B HA HB.
    assert (Q1 : k < length is1) by (apply nth_error_Some; congruence). assert (Q2 : k < length is2) by (apply nth_error_Some; congruence).
    split; intros S.
    + apply (G k A B); auto; rewrite nth_error_app1; auto.
    + apply (G (length is1 + k) B A); auto; rewrite nth_error_app2 by lia; [|rewrite LEN]; now replace (length is1 + k - length is1) with k by lia.
Qed.

(** Finding: when a dimension does not match, the error leaves the tensor with the indices before it
    already replaced, and at a prime level shifted by 43218432. *)
Definition kA := ix_new 11 2 ts_new.
Definition kB := ix_new 12 4 ts_new.
Theorem C48_failed_call_refuted :
  exists is', replaceInds [iA; iB] [kA; kB] [iA; iB] = (Err, is') /\ ~ has is' iA /\ ~ has is' kA /\
    map ix_level is' = [43218432; 0]%Z.
Proof.
  eexists. split; [vm_compute; reflexivity|]. split; [|split; [|reflexivity]].
  - intros (J & [<-|[<-|[]]] & (S & _)); vm_compute in S; discriminate.
  - intros (J & [<-|[<-|[]]] & (S & L & _)); vm_compute in S, L; discriminate.
Qed.

Example C48_nonvacuous :
  (Forall valid [iA; iA'; iB] /\ distinct [iA; iA'; iB] /\ Forall arrowed [iA; iA'; iB] /\ Forall plain_level [iA; iA'; iB]) /\
  fst (swapInds [iA] [iA'] [iA; iA'; iB]) = Ok [iA'; iA; iB] /\
  fst (replaceInds [iA; iB] [iB; ix_dag iC] [iA; iC; iB]) = Err /\
  fst (replaceInds [iA; iB] [iA'; ix_dag iC] [iA; iB]) = Ok [iA'; iC].
Proof.
  assert (V : Forall valid [iA; iA'; iB]) by (repeat constructor; auto using vA, vA', vB).
  split; [|split; [|split]; vm_compute; reflexivity]. split; auto. split.
  - apply distinct_keys; auto. apply NoDup_nth_error. intros i j Hi. simpl in Hi.
    destruct i as [|[|[|i]]]; try lia; destruct j as [|[|[|j]]]; vm_compute; try reflexivity; try discriminate; destruct j; discriminate.
  - split; repeat constructor; try discriminate; vm_compute; try discriminate; reflexivity.
Qed.

Print Assumptions C48_rename.
Print Assumptions C48_swap.
Print Assumptions C48_failed_call_refuted.
