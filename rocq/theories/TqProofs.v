(** Proofs for property C72. *)
From Coq Require Import List ZArith Lia Bool Arith Permutation Ring.
From Verif Require Import Util BigSum SmallStringModel QnModel QnSpec QnProofs RangeSpec QdModel QdSpec QdProofs QdFlux QdAdd QdProps ProductProps QCombProps InfArrayProofs TqSpec TqModel.
Import ListNotations.
Local Open Scope nat_scope.
Local Open Scope outcome_scope.

Section Proofs.
Context {R : Type} (r0 r1 : R) (radd rmul rsub : R -> R -> R) (ropp : R -> R) (RT : ring_theory r0 r1 radd rmul rsub ropp eq).
Add Ring RRtq : RT.
Context {I : Type} (ieq : I -> I -> bool) (ieq_spec : forall a b, ieq a b = true <-> a = b).
Context (bs : I -> list nat) (qns : I -> list QN) (M : SmallString -> Z) (S : list SmallString) (Sch : Scheme M S).
Notation qt := (qt R I).
Notation isval := (isval M S).
Notation conserves := (conserves bs qns M S).
Notation qamp := (qamp r0 r1 radd rmul ieq bs).
Notation charge := (charge bs qns).

Fixpoint qsum (qs : list QN) (n : SmallString) : Z := match qs with [] => 0%Z | q :: qs' => (qn_val_of q n + qsum qs' n)%Z end.

Lemma sum_over_zero ls : forall f s, (forall s', (forall y, ~ In y ls -> s' y = s y) -> f s' = r0) -> sum_over r0 radd ieq bs ls f s = r0.
Proof.
  induction ls as [|x ls IH]; intros f s H; cbn [sum_over]; [apply H; auto|].
  transitivity (bsum r0 radd (total bs x) (fun _ => r0)).
  - apply bsum_ext. intros v _. apply IH. intros s' H'. apply H. intros y Hy. rewrite H' by (intros K; apply Hy; right; exact K).
    unfold assign. destruct (ieq x y) eqn:E; [|reflexivity]. apply ieq_spec in E. subst. exfalso. apply Hy. left. reflexivity.
  - apply (bsum_zero r0 r1 radd rmul rsub ropp RT). reflexivity.
Qed.

(** An element that is not in a stored block is 0. *)
Lemma qelt_cases (t : qt) d s : qst t = Some d -> has_block d (blockof bs (qis t) s) \/ qelt r0 bs t s = r0.
Proof.
  intros E. unfold qelt. rewrite E. unfold qval. destruct (find _ _) as [e|] eqn:F; [|right; reflexivity]. left.
  apply find_some in F as [F1 F2]. destruct (list_eq_dec _ _ _) as [K|]; [|discriminate]. rewrite <- K. apply in_map. exact F1.
Qed.
Lemma qprod_cases ts qs s : Forall2 conserves ts qs ->
  Forall (fun t => exists d, qst t = Some d /\ has_block d (blockof bs (qis t) s)) ts \/ qprod r0 r1 rmul bs ts s = r0.
Proof.
  induction 1 as [|t q ts qs (N & d & E & T) F IH]; [left; constructor|]. cbn [qprod].
  destruct (qelt_cases t d s E) as [H|H]; [|right; rewrite H; ring].
  destruct IH as [IH|IH]; [|right; rewrite IH; ring]. left. constructor; [|exact IH]. exists d. auto.
Qed.

Lemma fluxes ts qs s n : Forall2 conserves ts qs -> Forall (fun t => exists d, qst t = Some d /\ has_block d (blockof bs (qis t) s)) ts ->
  residue (M n) (qsum qs n) =
  residue (M n) (fold_right Z.add 0%Z (map (fun o => arrow_int (snd o) * qn_val_of (nth (blk (bs (fst o)) (s (fst o))) (qns (fst o)) qn0) n)%Z
    (flat_map (fun t : qt => map (fun x => (x, qdir t x)) (qis t)) ts))).
Proof.
  intros F. induction F as [|t q ts qs (N & d & E & T) F IH]; intros H; [reflexivity|].
  inversion H as [|? ? (d' & E' & B) H']; subst. rewrite E in E'. injection E' as <-. cbn [qsum flat_map].
  rewrite map_app, fold_right_app. destruct T as (_ & _ & _ & _ & T). specialize (T _ B n). rewrite <- T.
  set (X := map _ (flat_map _ ts)) in *. rewrite residue_add_l, <- residue_add_r, (IH H'), residue_add_r.
  f_equal. unfold blockof. rewrite flux_beta. rewrite map_map. cbn [fst snd]. clear. induction (qis t) as [|x l IH]; cbn; [lia|]. lia.
Qed.
Lemma charge_ext os s s' n : (forall o, In o os -> s (fst o) = s' (fst o)) -> charge os s n = charge os s' n.
Proof. intros H. unfold TqSpec.charge. f_equal. apply map_ext_in. intros o Ho. rewrite (H o Ho). reflexivity. Qed.
Lemma charge_network ts os ls s n : network (R := R) ts os ls ->
  fold_right Z.add 0%Z (map (fun o => arrow_int (snd o) * qn_val_of (nth (blk (bs (fst o)) (s (fst o))) (qns (fst o)) qn0) n)%Z
    (flat_map (fun t : qt => map (fun x => (x, qdir t x)) (qis t)) ts)) = charge os s n.
Proof.
  intros [_ P]. etransitivity; [apply zsum_perm, Permutation_map, P|]. unfold TqSpec.charge. rewrite map_app, fold_right_app.
  assert (Z : fold_right Z.add 0%Z (map (fun o => arrow_int (snd o) * qn_val_of (nth (blk (bs (fst o)) (s (fst o))) (qns (fst o)) qn0) n)%Z
    (flat_map (fun x => [(x, ArrOut); (x, ArrIn)]) ls)) = 0%Z).
  { clear. induction ls as [|x ls IH]; [reflexivity|]. cbn [flat_map app map fold_right fst snd arrow_int]. rewrite IH. lia. }
  rewrite Z. reflexivity.
Qed.

(** * div and the loop of totalQN *)
Lemma qdiv_ok (t : qt) q : conserves t q -> exists q', qdiv qns t = Ok q' /\ Charges M S q' /\
  ((exists d, qst t = Some d /\ offs d <> []) -> qn_eqb q' q = true).
Proof.
  intros (N & d & E & P & L & St & C & F). unfold qdiv. rewrite E. destruct (qis t) as [|x is] eqn:Ei; [congruence|].
  unfold calcDiv. destruct (offs d) as [|[b o] l] eqn:Eo.
  - exists qn0. split; [reflexivity|]. split; [constructor|]. intros (d' & E' & H). injection E' as <-. congruence.
  - cbn [fst]. assert (V : valid (map (nblocks bs) (x :: is)) b).
    { pose proof (stored_valid bs _ d St) as SV. rewrite Eo in SV. inversion SV; subst. auto. }
    destruct (block_qn_flux bs qns (qdir t) M S Sch (x :: is) b q L V C) as (q' & E' & C' & _ & K). exists q'.
    split; [exact E'|]. split; [exact C'|]. intros _. apply K. apply F. unfold has_block. rewrite Eo. left. reflexivity.
Qed.
Lemma at_site_ok (ts : list qt) j t : nth_error ts j = Some t -> at_site ts (j + 1) = Ok t.
Proof. intros E. unfold at_site. rewrite Nat.add_1_r. cbn. rewrite E. reflexivity. Qed.

Lemma qn_eqb_vals q q' : Charges M S q -> Charges M S q' -> qn_eqb q q' = true -> forall n, qn_val_of q n = qn_val_of q' n.
Proof. intros C C' H. apply (qn_eqb_iff M S); auto. Qed.

Lemma total_loop_ok (ts : list qt) qs : Forall2 conserves ts qs -> forall n j tq f, j + n <= length ts -> isval tq f ->
  exists Q, total_loop qns ts n (j + 1) tq = Ok Q /\ Charges M S Q /\
    (Forall (fun t => exists d, qst t = Some d /\ offs d <> []) ts -> isval Q (fun m => f m + qsum (firstn n (skipn j qs)) m)%Z).
Proof.
  intros F. induction n as [|n IH]; intros j tq f L H.
  - exists tq. split; [reflexivity|]. split; [apply H|]. intros _. eapply isval_ext; [exact H|]. intros m. cbn. ring.
  - destruct (nth_error ts j) as [t|] eqn:Et; [|apply nth_error_None in Et; lia].
    assert (exists q, nth_error qs j = Some q /\ conserves t q) as (q & Eq & Ct).
    { clear - F Et. revert j Et. induction F as [|t' q' ts qs C F IH]; intros [|j] E; try discriminate; [injection E as ->; eexists; split; [reflexivity|exact C]|].
      apply (IH j E). }
    destruct (qdiv_ok t q Ct) as (q' & Ed & C' & K). cbn [total_loop]. rewrite (at_site_ok ts j t Et). cbn [obind]. rewrite Ed. cbn [obind].
    replace (Datatypes.S (j + 1)) with (Datatypes.S j + 1) by lia.
    destruct (IH (Datatypes.S j) (qn_add tq q') (fun m => f m + qn_val_of q' m)%Z) as (Q & EQ & CQ & VQ); [lia| |].
    { apply (isval_add M S Sch); [exact H|apply (isval_self M S Sch); exact C']. }
    exists Q. split; [exact EQ|]. split; [exact CQ|]. intros A. eapply isval_ext; [apply (VQ A)|]. intros m. cbv beta.
    assert (Ev : qn_val_of q' m = qn_val_of q m).
    { apply qn_eqb_vals; [exact C'|destruct Ct as (_ & d0 & _ & _ & _ & _ & C0 & _); exact C0|]. apply K. rewrite Forall_forall in A. apply A. eapply nth_error_In; eauto. }
    assert (Es : skipn j qs = q :: skipn (Datatypes.S j) qs).
    { clear - Eq. revert j Eq. induction qs as [|a qs IH]; intros [|j] E; try discriminate; [injection E as ->; reflexivity|]. cbn. apply (IH j E). }
    rewrite Es. cbn [firstn qsum]. rewrite Ev. ring.
Qed.

Lemma qsum_app a b n : qsum (a ++ b) n = (qsum a n + qsum b n)%Z.
Proof. induction a as [|x a IH]; cbn; [lia|]. rewrite IH. lia. Qed.
Lemma qsum_zero qs n : (forall q, In q qs -> qn_val_of q n = 0%Z) -> qsum qs n = 0%Z.
Proof. induction qs as [|q qs IH]; intros H; [reflexivity|]. cbn. rewrite (H q (or_introl eq_refl)), IH by (intros; apply H; right; auto). reflexivity. Qed.

Lemma qn0_val n : qn_val_of qn0 n = 0%Z.
Proof. change (qn_val_of qn0 n) with (qn_val_of (pad []) n). now rewrite val_pad. Qed.

Lemma total_charge ts qs l r os ls : Forall2 conserves ts qs -> network (R := R) ts os ls -> l + 1 <= r -> r <= length ts + 1 ->
  (forall j q, nth_error qs j = Some q -> j < l \/ r <= j + 1 -> qn_eqb q qn0 = true) ->
  exists Q, totalQN qns ts l r = Ok Q /\ Charges M S Q /\
    forall s, qamp ts ls s <> r0 -> forall n, qn_val_of Q n = residue (M n) (charge os s n).
Proof.
  intros F N Hl Hr Z. destruct (total_loop_ok ts qs F (r - 1 - l) l qn0 (fun _ => 0%Z)) as (Q & EQ & CQ & VQ); [lia|apply isval0; exact Sch|].
  exists Q. split; [exact EQ|]. split; [exact CQ|]. intros s A n.
  destruct (Z.eq_dec (qn_val_of Q n) (residue (M n) (charge os s n))) as [E|NE]; [exact E|]. exfalso. apply A.
  apply sum_over_zero. intros s' Hs'. destruct (qprod_cases ts qs s' F) as [B|B]; [|exact B]. exfalso. apply NE.
  destruct VQ as [_ VQ].
  { eapply Forall_impl; [|exact B]. intros t (d & E & H). exists d. split; [exact E|]. intros K. unfold has_block in H. rewrite K in H. destruct H. }
  rewrite VQ. rewrite (charge_ext os s s').
  2:{ intros o Ho. symmetry. apply Hs'. intros K. destruct N as [ND _]. clear - ND Ho K.
      induction os as [|o' os IH]; [destruct Ho|]. cbn in ND. inversion ND as [|? ? H1 H2]; subst. destruct Ho as [->|Ho]; [|auto].
      apply H1, in_or_app. right. exact K. }
  rewrite <- (charge_network ts os ls s' n N), <- (fluxes ts qs s' n F B). f_equal.
  rewrite Z.add_0_l. assert (V : forall j q, nth_error qs j = Some q -> j < l \/ r <= j + 1 -> qn_val_of q n = 0%Z).
  { intros j q E H. rewrite (qn_eqb_vals q qn0); [apply qn0_val| |constructor|apply (Z j q E H)].
    clear - F E. revert j E. induction F as [|t q' ts qs (_ & d & _ & C) F IH]; intros [|j] E; try discriminate; [injection E as ->; apply C|apply (IH j E)]. }
  transitivity (qsum (firstn l qs ++ firstn (r - 1 - l) (skipn l qs) ++ skipn (r - 1 - l) (skipn l qs)) n).
  2:{ rewrite firstn_skipn, firstn_skipn. reflexivity. }
  rewrite !qsum_app. rewrite (qsum_zero (firstn l qs)), (qsum_zero (skipn (r - 1 - l) (skipn l qs))); [lia| |].
  - intros q Hq. apply In_nth_error in Hq as [j Hj]. rewrite !nth_error_skipn in Hj. apply (V _ _ Hj). lia.
  - intros q Hq. apply In_nth_error in Hq as [j Hj].
    assert (j < l). { assert (j < length (firstn l qs)) by (apply nth_error_Some; congruence). rewrite firstn_length in H. lia. }
    rewrite nth_error_firstn in Hj by assumption. apply (V _ _ Hj). lia.
Qed.

(** * checkQNs *)
Lemma every_true js body : every js body = Ok true <-> Forall (fun j => body j = Ok true) js.
Proof.
  induction js as [|j js IH]; cbn [every]; [split; auto|]. split.
  - intros H. destruct (body j) as [[|]| |] eqn:E; cbn [obind] in H; try discriminate. constructor; [exact E|apply IH, H].
  - intros H. inversion H as [|? ? H1 H2]; subst. rewrite H1. cbn [obind]. apply IH, H2.
Qed.
Lemma all_same_spec (t : qt) : all_same t = true <-> one_arrow t.
Proof.
  unfold all_same, one_arrow. destruct (qis t) as [|x is]; [split; auto; intros _; exists ArrOut; intros ? []|]. rewrite forallb_forall. split.
  - intros H. exists (qdir t x). intros y [<-|Hy]; [reflexivity|]. apply arrow_eqb_spec, H, Hy.
  - intros [d H] y Hy. apply arrow_eqb_spec. rewrite (H y (or_intror Hy)), (H x (or_introl eq_refl)). reflexivity.
Qed.
Lemma findCenter_spec (ts : list qt) : forall j c, findCenter_from ts j = Ok (Some c) <->
  exists k t, c = j + k /\ nth_error ts k = Some t /\ qis t <> [] /\ one_arrow t /\
    forall i u, i < k -> nth_error ts i = Some u -> qis u <> [] /\ ~ one_arrow u.
Proof.
  induction ts as [|t ts IH]; intros j c; cbn [findCenter_from].
  - split; [discriminate|]. intros (k & t & _ & E & _). destruct k; discriminate.
  - destruct (qis t) as [|x is] eqn:Ei.
    { split; [discriminate|]. intros ([|k] & u & _ & E & N & _ & B); [injection E as ->; congruence|].
      destruct (B 0 t) as [K _]; [lia|reflexivity|]. congruence. }
    destruct (all_same t) eqn:A.
    + split.
      * intros E. injection E as <-. exists 0, t. split; [lia|]. split; [reflexivity|]. split; [congruence|]. split; [apply all_same_spec, A|]. intros; lia.
      * intros ([|k] & u & -> & _ & _ & _ & B); [f_equal; f_equal; lia|]. exfalso.
        destruct (B 0 t) as [_ K]; [lia|reflexivity|]. apply K, all_same_spec, A.
    + rewrite IH. split.
      * intros (k & u & -> & E & N & O & B). exists (Datatypes.S k), u. split; [lia|]. split; [exact E|]. split; [exact N|]. split; [exact O|].
        intros [|i] v Hi Ev; [injection Ev as <-; split; [congruence|]; intros K; apply all_same_spec in K; congruence|apply (B i); [lia|exact Ev]].
      * intros ([|k] & u & -> & E & N & O & B); [injection E as <-; apply all_same_spec in O; congruence|].
        exists k, u. split; [lia|]. split; [exact E|]. split; [exact N|]. split; [exact O|]. intros i v Hi Ev. apply (B (Datatypes.S i)); [lia|exact Ev].
Qed.
Lemma existsb_In x (l : list I) : existsb (ieq x) l = true <-> In x l.
Proof. rewrite existsb_exists. split; [intros (y & H & E); apply ieq_spec in E; subst; exact H|intros H; exists x; split; [exact H|apply ieq_spec; reflexivity]]. Qed.
Lemma common_dir_spec (A B : qt) d : NoDup (qis A) -> (common_dir ieq A B = Ok d <-> link_arrow A B d).
Proof.
  intros ND. unfold common_dir, link_arrow.
  assert (IN : forall y, In y (filter (fun x => existsb (ieq x) (qis B)) (qis A)) <-> In y (qis A) /\ In y (qis B)).
  { intros y. rewrite filter_In, existsb_In. reflexivity. }
  assert (NDF : NoDup (filter (fun x => existsb (ieq x) (qis B)) (qis A))) by (apply NoDup_filter; exact ND).
  destruct (filter _ (qis A)) as [|x [|y l]].
  - split.
    + intros E. injection E as <-. right. split; [|reflexivity]. intros y Hy Hy'. destruct (proj2 (IN y)); auto.
    + intros [(x & H1 & H2 & _)|[_ ->]]; [destruct (proj2 (IN x)); auto|reflexivity].
  - split.
    + intros E. injection E as <-. left. exists x. destruct (proj1 (IN x) (or_introl eq_refl)) as [H1 H2]. split; [exact H1|]. split; [exact H2|].
      split; [|reflexivity]. intros y Hy Hy'. destruct (proj2 (IN y) (conj Hy Hy')) as [->|[]]. reflexivity.
    + intros [(z & H1 & H2 & U & <-)|[K _]]; [destruct (proj2 (IN z) (conj H1 H2)) as [->|[]]; reflexivity|].
      destruct (proj1 (IN x) (or_introl eq_refl)) as [H1 H2]. destruct (K x H1 H2).
  - split; [discriminate|]. destruct (proj1 (IN x) (or_introl eq_refl)) as [H1 H2]. destruct (proj1 (IN y) (or_intror (or_introl eq_refl))) as [H3 H4].
    intros [(z & _ & _ & U & _)|[K _]]; [|destruct (K x H1 H2)]. exfalso. inversion NDF as [|? ? NI _]; subst. apply NI. left.
    rewrite (U x H1 H2), (U y H3 H4). reflexivity.
Qed.
End Proofs.
