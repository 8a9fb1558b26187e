(** What partitionHTerms computes. *)
From Coq Require Import List ZArith Arith Lia Bool String Sorted.
From Verif Require Import Util AutoMpoModel AutoMpoSpec AutoMpoProofs AutoMpoJW SvdMpoModel SvdMpoTerms.
Import ListNotations.
Local Open Scope outcome_scope.
Local Arguments Nat.sub : simpl never.

Lemma prod_eqb_spec a b : prod_eqb a b = true <-> a = b.
Proof.
  revert b. induction a as [|x a IH]; intros [|y b]; cbn; split; try congruence; try discriminate.
  - intros H. apply andb_true_iff in H as [H1 H2]. apply st_eqb_eq in H1. apply IH in H2. congruence.
  - intros H. injection H as -> ->. rewrite st_eqb_refl. cbn. now apply IH.
Qed.

(** *** Positions *)
Definition pos (p : prod) (l : list prod) : nat := match find_prod p l with Some i => i | None => 0 end.
Lemma find_prod_in p l : In p l -> exists i, find_prod p l = Some i /\ nth_error l i = Some p.
Proof.
  induction l as [|x l IH]; intros H; [destruct H|]. cbn. destruct (prod_eqb p x) eqn:E.
  - apply prod_eqb_spec in E. subst x. exists 0. auto.
  - destruct H as [->|H]; [rewrite (proj2 (prod_eqb_spec p p) eq_refl) in E; discriminate|]. destruct (IH H) as (i & E1 & E2). exists (S i). rewrite E1. auto.
Qed.
Lemma find_prod_none p l : find_prod p l = None -> ~ In p l.
Proof. intros H Hin. destruct (find_prod_in p l Hin) as (i & E & _). congruence. Qed.
Lemma find_prod_app p l e i : find_prod p l = Some i -> find_prod p (l ++ e) = Some i.
Proof.
  revert i. induction l as [|x l IH]; intros i H; cbn in H; [discriminate|]. cbn. destruct (prod_eqb p x); auto.
  destruct (find_prod p l) as [k|]; [|discriminate]. now rewrite (IH k eq_refl).
Qed.
Lemma find_prod_app_none p l e : find_prod p l = None -> find_prod p (l ++ e) = match find_prod p e with Some i => Some (List.length l + i) | None => None end.
Proof.
  induction l as [|x l IH]; intros H; cbn in *; [now destruct (find_prod p e)|]. destruct (prod_eqb p x); [discriminate|]. destruct (find_prod p l); [discriminate|].
  rewrite (IH eq_refl). now destruct (find_prod p e).
Qed.
Lemma pos_app p l e : In p l -> pos p (l ++ e) = pos p l.
Proof. intros H. destruct (find_prod_in p l H) as (i & E & _). unfold pos. now rewrite (find_prod_app p l e i E), E. Qed.
Lemma pos_nth p l : In p l -> nth_error l (pos p l) = Some p.
Proof. intros H. destruct (find_prod_in p l H) as (i & E & E2). unfold pos. now rewrite E. Qed.
Lemma pos_inj p p' l : In p l -> In p' l -> pos p l = pos p' l -> p = p'.
Proof. intros H H' E. pose proof (pos_nth p l H) as A. pose proof (pos_nth p' l H') as A'. rewrite E in A. congruence. Qed.
Lemma posInBlock_spec p l i l' : posInBlock p l = (i, l') -> NoDup l ->
  NoDup l' /\ In p l' /\ i = pos p l' /\ exists e, l' = l ++ e.
Proof.
  unfold posInBlock. intros E N. destruct (find_prod p l) as [k|] eqn:F.
  - injection E as <- <-. split; auto. assert (Hin : In p l).
    { destruct (in_dec (list_eq_dec (fun a b : sterm => ltac:(decide equality; [apply Nat.eq_dec|apply string_dec]))) p l) as [|H]; auto.
      exfalso. revert k F. clear -H. induction l as [|x l IH]; intros k F; cbn in F; [discriminate|]. destruct (prod_eqb p x) eqn:E.
      - apply prod_eqb_spec in E. apply H. now left.
      - destruct (find_prod p l) eqn:E2; [|discriminate]. apply (IH ltac:(intros ?; apply H; now right) _ eq_refl). }
    split; auto. split; [unfold pos; now rewrite F|]. exists []. now rewrite app_nil_r.
  - injection E as <- <-. pose proof (find_prod_none p l F) as Nin. split.
    { clear -N Nin. induction l as [|x l IH]; [cbn; constructor; [intros []|constructor]|]. apply NoDup_cons_iff in N as [N1 N2]. cbn. constructor.
      - intros H. apply in_app_iff in H as [H|[->|[]]]; [contradiction|]. apply Nin. now left.
      - apply IH; auto. intros H. apply Nin. now right. }
    split; [apply in_or_app; right; now left|]. split; [|now exists [p]].
    unfold pos. rewrite find_prod_app_none by auto. cbn. rewrite (proj2 (prod_eqb_spec p p) eq_refl). lia.
Qed.

Section Part.
Context {R : Type} (r0 r1 : R) (ceq : R -> R -> bool) (ceq_refl : forall x, ceq x x = true).
Context {Q : Type} (q0 : Q) (qadd : Q -> Q -> Q) (qeqb qltb : Q -> Q -> bool).
Context (qeqb_spec : forall a b, qeqb a b = true <-> a = b).
Context (qassoc : forall a b c, qadd a (qadd b c) = qadd (qadd a b) c) (qid_l : forall a, qadd q0 a = a) (qid_r : forall a, qadd a q0 = a).
Context (opq : sterm -> Q).
Notation calcQN := (calcQN q0 qadd opq).
Notation block := (@block R).
Notation block0 := (@block0 R).
Notation elem := (@elem R Q).
Notation get_blk := (get_blk qeqb).
Notation put_blk := (put_blk qeqb qltb).
Notation hterm := (@hterm R).

Lemma calcQN_app a b : calcQN (a ++ b) = qadd (calcQN a) (calcQN b).
Proof.
  unfold SvdMpoModel.calcQN. rewrite fold_left_app.
  assert (G : forall b q, fold_left (fun q t => qadd q (opq t)) b q = qadd q (fold_left (fun q t => qadd q (opq t)) b q0)).
  { induction b0 as [|t b0 IH]; intros q; cbn; [now rewrite qid_r|]. rewrite IH, (IH (qadd q0 (opq t))), qid_l, qassoc. reflexivity. }
  apply G.
Qed.

(** *** Maps from quantum numbers *)
Lemma qeqb_refl a : qeqb a a = true. Proof. now apply qeqb_spec. Qed.
Lemma qeqb_neq a b : a <> b -> qeqb a b = false.
Proof. intros H. destruct (qeqb a b) eqn:E; auto. apply qeqb_spec in E. contradiction. Qed.
Lemma get_ins {X} (d : X) q b m q' : ~ In q (map fst m) -> get_blk d q' (ins_blk qltb q b m) = if qeqb q' q then b else get_blk d q' m.
Proof.
  induction m as [|[k v] m IH]; intros H; cbn; [reflexivity|]. destruct (qltb q k); cbn; [reflexivity|]. cbn in H. rewrite IH by tauto.
  destruct (qeqb q' k) eqn:E1; auto. destruct (qeqb q' q) eqn:E2; auto. apply qeqb_spec in E1, E2. subst. tauto.
Qed.
Lemma get_set {X} (d : X) q b m q' : In q (map fst m) -> get_blk d q' (set_blk qeqb q b m) = if qeqb q' q then b else get_blk d q' m.
Proof.
  induction m as [|[k v] m IH]; intros H; cbn; [destruct H|]. destruct (qeqb q k) eqn:E; cbn.
  - apply qeqb_spec in E. subst k. now destruct (qeqb q' q).
  - cbn in H. destruct H as [->|H]; [rewrite qeqb_refl in E; discriminate|]. rewrite IH by auto.
    destruct (qeqb q' k) eqn:E1; auto. apply qeqb_spec in E1. subst. destruct (qeqb k q) eqn:E2; auto. apply qeqb_spec in E2. subst. rewrite qeqb_refl in E. discriminate.
Qed.
Lemma exists_key {X} q (m : list (Q * X)) : existsb (fun e => qeqb q (fst e)) m = true <-> In q (map fst m).
Proof.
  rewrite existsb_exists, in_map_iff. split; intros (e & H1 & H2).
  - exists e. split; auto. apply qeqb_spec in H2. auto.
  - exists e. split; auto. apply qeqb_spec. auto.
Qed.
Lemma get_put {X} (d : X) q b m q' : get_blk d q' (put_blk q b m) = if qeqb q' q then b else get_blk d q' m.
Proof.
  unfold SvdMpoModel.put_blk. destruct (existsb _ m) eqn:E.
  - apply get_set. now apply exists_key.
  - apply get_ins. intros H. apply exists_key in H. congruence.
Qed.
Lemma keys_set {X} q (b : X) m : map fst (set_blk qeqb q b m) = map fst m.
Proof. induction m as [|[k v] m IH]; cbn; auto. destruct (qeqb q k); cbn; congruence. Qed.
Lemma keys_ins {X} q (b : X) m : forall x, In x (map fst (ins_blk qltb q b m)) <-> x = q \/ In x (map fst m).
Proof. induction m as [|[k v] m IH]; intros x; cbn; [intuition|]. destruct (qltb q k); cbn; [intuition|]. rewrite IH. intuition. Qed.
Lemma keys_ins_nodup {X} q (b : X) m : ~ In q (map fst m) -> NoDup (map fst m) -> NoDup (map fst (ins_blk qltb q b m)).
Proof.
  induction m as [|[k v] m IH]; intros H N; cbn; [constructor; auto|]. cbn in N. apply NoDup_cons_iff in N as [N1 N2]. destruct (qltb q k); cbn.
  - constructor; [exact H|]. constructor; auto.
  - cbn in H. constructor; [|apply IH; tauto]. rewrite keys_ins. intros [->|]; tauto.
Qed.
Lemma keys_put {X} q (b : X) m : NoDup (map fst m) -> NoDup (map fst (put_blk q b m)).
Proof.
  intros N. unfold SvdMpoModel.put_blk. destruct (existsb _ m) eqn:E; [now rewrite keys_set|]. apply keys_ins_nodup; auto. intros H. apply exists_key in H. congruence.
Qed.
Lemma get_notin {X} (d : X) q m : ~ In q (map fst m) -> get_blk d q m = d.
Proof. induction m as [|[k v] m IH]; intros H; cbn; auto. cbn in H. destruct (qeqb q k) eqn:E; [apply qeqb_spec in E; subst; tauto|]. apply IH. tauto. Qed.

(** Block q of link m (between sites m and m+1). *)
Definition B (qbs : list (list (Q * block))) (m : nat) (q : Q) : block := get_blk block0 q (nth (m - 1) qbs []).
Definition setB (qbs : list (list (Q * block))) (m : nat) (q : Q) (b : block) := upd (m - 1) (put_blk q b (nth (m - 1) qbs [])) qbs.
Lemma B_set qbs m q b m' q' : 1 <= m -> 1 <= m' -> m <= List.length qbs -> B (setB qbs m q b) m' q' = if (Nat.eqb m m' && qeqb q' q)%bool then b else B qbs m' q'.
Proof.
  intros H1 H2 H3. unfold B, setB. destruct (Nat.eqb_spec m m') as [<-|N]; cbn [andb].
  - rewrite nth_upd_eq by lia. apply get_put.
  - now rewrite nth_upd_neq by lia.
Qed.

(** *** Terms *)
Record wf (N : nat) (o : prod) : Prop := mkwf {
  wf_ne : o <> []; wf_sorted : StronglySorted sle o; wf_range : forall t, In t o -> 1 <= st_i t <= N;
  wf_even : isFp o = false; wf_zero : calcQN o = q0; wf_plain : plain o }.

Definition olf n (h : hterm) := lf n (ht_ops h).
Definition oon n (h : hterm) := on n (ht_ops h).
Definition org n (h : hterm) := rg n (ht_ops h).
Definition qlf n (h : hterm) : Q := calcQN (olf n h).
(** The element of tempMPO that term h gives on site n. *)
Definition elof (qbs : list (list (Q * block))) (n : nat) (h : hterm) : elem :=
  El (qlf n h) (qlf (S n) h)
    (if emptyb (olf n h) then None else Some (pos (org (n - 1) h) (b_right (B qbs (n - 1) (qlf n h)))))
    (if emptyb (org n h) then None else Some (pos (org n h) (b_right (B qbs n (qlf (S n) h)))))
    (if emptyb (olf n h) then ht_coef h else r1) (spp (ht_ops h) n).
(** The entry of the coefficient matrix of link m. *)
Definition ent (qbs : list (list (Q * block))) (m : nat) (h : hterm) : nat * nat * R :=
  (pos (olf (S m) h) (b_left (B qbs m (qlf (S m) h))), pos (org m h) (b_right (B qbs m (qlf (S m) h))), ht_coef h).
Definition crosses (m : nat) (q : Q) (p : hterm * nat) : bool :=
  (Nat.eqb (snd p) (S m) && negb (emptyb (olf (S m) (fst p))) && qeqb (qlf (S m) (fst p)) q)%bool.
Definition cr (P : list (hterm * nat)) (m : nat) (q : Q) : list hterm := map fst (filter (crosses m q) P).

Definition grows (qbs qbs' : list (list (Q * block))) : Prop := forall m q, 1 <= m ->
  (exists e, b_left (B qbs' m q) = b_left (B qbs m q) ++ e) /\ (exists e, b_right (B qbs' m q) = b_right (B qbs m q) ++ e).
Definition blocks_ok (N : nat) (qbs : list (list (Q * block))) : Prop :=
  List.length qbs = N /\ (forall m, NoDup (map fst (nth m qbs []))) /\
  (forall m q, 1 <= m -> NoDup (b_left (B qbs m q)) /\ NoDup (b_right (B qbs m q))).
Definition left_in qbs n h := In (org (n - 1) h) (b_right (B qbs (n - 1) (qlf n h))) /\ In (olf n h) (b_left (B qbs (n - 1) (qlf n h))).
Definition right_in qbs n h := In (org n h) (b_right (B qbs n (qlf (S n) h))).

Record Inv (N : nat) (P : list (hterm * nat)) (qbs : list (list (Q * block))) (temp : list (list elem)) : Prop := mkInv {
  i_ok : blocks_ok N qbs;
  i_len : List.length temp = N;
  i_left : forall h n, In (h, n) P -> olf n h <> [] -> left_in qbs n h;
  i_right : forall h n, In (h, n) P -> org n h <> [] -> right_in qbs n h;
  i_mat : forall m q, 1 <= m -> b_mat (B qbs m q) = map (ent qbs m) (cr P m q);
  i_nodup : forall n, 1 <= n -> NoDup (nth (n - 1) temp []);
  i_temp : forall n e, 1 <= n -> n <= N -> (In e (nth (n - 1) temp []) <-> exists h, In (h, n) P /\ e = elof qbs n h)
}.

Lemma at_ok {X} (v : list X) d n k : (Z.of_nat k <= Z.of_nat n)%Z -> n - k < List.length v -> at_ v (Z.of_nat n - Z.of_nat k) = Ok (nth (n - k) v d).
Proof.
  intros H1 H2. unfold at_. destruct (Z.ltb_spec (Z.of_nat n - Z.of_nat k) 0); [lia|]. rewrite <- Nat2Z.inj_sub by lia. rewrite Nat2Z.id. now rewrite (nth_error_nth' v d).
Qed.
Lemma put_ok {X} (v : list X) n k x : k <= n -> put_at v (Z.of_nat n - Z.of_nat k) x = upd (n - k) x v.
Proof. intros H. unfold put_at. rewrite <- Nat2Z.inj_sub by lia. now rewrite Nat2Z.id. Qed.

Lemma grows_refl qbs : grows qbs qbs.
Proof. intros m q _. split; exists []; now rewrite app_nil_r. Qed.
Lemma setB_ok N qbs m q b : blocks_ok N qbs -> 1 <= m <= N -> NoDup (b_left b) -> NoDup (b_right b) -> blocks_ok N (setB qbs m q b).
Proof.
  intros (H1 & H2 & H3) Hm N1 N2. split; [unfold setB; now rewrite upd_length|]. split.
  - intros k. unfold setB. destruct (Nat.eq_dec (m - 1) k) as [<-|Ne]; [rewrite nth_upd_eq by lia; now apply keys_put|rewrite nth_upd_neq by auto; auto].
  - intros k q' Hk. rewrite B_set by lia. destruct (Nat.eqb m k && qeqb q' q)%bool; auto.
Qed.
Lemma setB_grows N qbs m q b : blocks_ok N qbs -> 1 <= m <= N -> (exists e, b_left b = b_left (B qbs m q) ++ e) -> (exists e, b_right b = b_right (B qbs m q) ++ e) ->
  grows qbs (setB qbs m q b).
Proof.
  intros (H1 & _) Hm G1 G2 k q' Hk. rewrite B_set by lia. destruct (Nat.eqb_spec m k) as [<-|]; cbn [andb]; [|apply grows_refl; auto].
  destruct (qeqb q' q) eqn:E; [|apply grows_refl; auto]. apply qeqb_spec in E. subst q'. auto.
Qed.
Lemma grows_trans a b c : grows a b -> grows b c -> grows a c.
Proof.
  intros H1 H2 m q Hm. destruct (H1 m q Hm) as [[e1 E1] [e2 E2]]. destruct (H2 m q Hm) as [[e3 E3] [e4 E4]]. split; [exists (e1 ++ e3)|exists (e2 ++ e4)].
  - now rewrite E3, E1, app_assoc. - now rewrite E4, E2, app_assoc.
Qed.
Lemma grows_left a b n h : grows a b -> 2 <= n -> left_in a n h -> left_in b n h.
Proof.
  intros G Hn [H1 H2]. destruct (G (n - 1) (qlf n h) ltac:(lia)) as [[e1 E1] [e2 E2]]. unfold left_in. rewrite E1, E2. split; apply in_or_app; now left.
Qed.
Lemma grows_right a b n h : grows a b -> 1 <= n -> right_in a n h -> right_in b n h.
Proof. intros G Hn H. destruct (G n (qlf (S n) h) Hn) as [_ [e2 E2]]. unfold right_in. rewrite E2. apply in_or_app; now left. Qed.
Lemma elof_grows a b n h : grows a b -> 1 <= n -> (olf n h <> [] -> 2 <= n /\ left_in a n h) -> (org n h <> [] -> right_in a n h) -> elof b n h = elof a n h.
Proof.
  intros G Hn HL HR. unfold elof. f_equal.
  - destruct (olf n h) eqn:E; cbn [emptyb]; auto. destruct (HL ltac:(congruence)) as [H2 [HI _]]. f_equal.
    destruct (G (n - 1) (qlf n h) ltac:(lia)) as [_ [e2 E2]]. rewrite E2. now apply pos_app.
  - destruct (org n h) eqn:E; cbn [emptyb]; auto. specialize (HR ltac:(congruence)). unfold right_in in HR. rewrite E in HR. f_equal.
    destruct (G n (qlf (S n) h) Hn) as [_ [e2 E2]]. rewrite E2. now apply pos_app.
Qed.
Lemma ent_grows a b m h : grows a b -> 1 <= m -> left_in a (S m) h -> ent b m h = ent a m h.
Proof.
  intros G Hm [H1 H2]. unfold ent. replace (S m - 1) with m in * by lia. destruct (G m (qlf (S m) h) Hm) as [[e1 E1] [e2 E2]]. rewrite E1, E2.
  now rewrite !pos_app.
Qed.

(** The part of one step that changes the blocks. *)
Lemma step_blocks N qbs temp (h : hterm) n : blocks_ok N qbs -> List.length temp = N -> wf N (ht_ops h) -> cover (ht_ops h) n -> 1 <= n <= N ->
  exists qbs', part_site r1 ceq q0 qadd qeqb qltb opq (ht_coef h) (ht_ops h) n (qbs, temp) =
      Ok (qbs', upd (n - 1) (el_insert ceq qeqb (elof qbs' n h) (nth (n - 1) temp [])) temp) /\
    blocks_ok N qbs' /\ grows qbs qbs' /\ (olf n h <> [] -> 2 <= n /\ left_in qbs' n h) /\ (org n h <> [] -> right_in qbs' n h) /\
    forall m q, 1 <= m -> b_mat (B qbs' m q) = b_mat (B qbs m q) ++ (if crosses m q (h, n) then [ent qbs' m h] else []).
Proof.
  intros BO LT W C Hn. pose proof BO as (BL & BK & BN). destruct W as [Wne Ws Wr We Wz Wp]. unfold part_site. rewrite (decompose_filter n _ Ws).
  fold (olf n h). fold (oon n h). fold (org n h).
  assert (QS : qadd (calcQN (olf n h)) (calcQN (oon n h)) = qlf (S n) h). { unfold qlf, olf, oon. now rewrite lf_S, calcQN_app. }
  assert (SP : match oon n h with [] => Ok [ST (if isFp (olf n h) then "F" else "Id")%string n] | _ => rewriteFermionic (oon n h) (isFp (olf n h)) end = Ok (spp (ht_ops h) n)) by (now apply spp_on).
  assert (TN : at_ temp (Z.of_nat n - 1) = Ok (nth (n - 1) temp [])) by (change 1%Z with (Z.of_nat 1); apply at_ok; lia).
  assert (PN : forall x, put_at temp (Z.of_nat n - 1) x = upd (n - 1) x temp) by (intros; change 1%Z with (Z.of_nat 1); apply put_ok; lia).
  assert (L2 : olf n h <> [] -> 2 <= n).
  { intros H. assert (Q1 : ~ n <= st_i (hd st_none (ht_ops h))) by (intros Q1; apply H; now apply (lf_nil n _ Ws Wne)).
    destruct (ht_ops h) as [|t l]; [congruence|]. specialize (Wr t (or_introl eq_refl)). cbn in Q1. lia. }
  assert (RN : org n h <> [] -> n < N).
  { intros H. assert (Q1 : ~ st_i (last (ht_ops h) st_none) <= n) by (intros Q1; apply H; now apply (rg_nil n _ Ws Wne)).
    assert (Q2 : In (last (ht_ops h) st_none) (ht_ops h)) by now apply last_in. specialize (Wr _ Q2). lia. }
  assert (RS : org (n - 1) h = oon n h ++ org n h). { unfold org, oon. rewrite (rg_S (n - 1) _ Ws). now replace (S (n - 1)) with n by lia. }
  destruct (olf n h) as [|l1 ll] eqn:EL.
  - (* the term starts here *)
    change (calcQN []) with q0 in *. rewrite qid_l in *.
    destruct (org n h) as [|g1 gg] eqn:EG.
    + cbn [obind]. rewrite SP. cbn [obind]. rewrite TN. cbn [obind]. rewrite PN. exists qbs. split.
      { do 5 f_equal. unfold elof. rewrite EL, EG. cbn [emptyb]. unfold qlf at 1. rewrite EL, QS. reflexivity. }
      split; [exact BO|]. split; [apply grows_refl|]. split; [congruence|]. split; [congruence|].
      intros m q Hm. unfold crosses. cbn [fst snd]. destruct (Nat.eqb_spec n (S m)) as [->|]; cbn [andb]; [|now rewrite app_nil_r].
      rewrite EL. cbn. now rewrite app_nil_r.
    + assert (AN : at_ qbs (Z.of_nat n - 1) = Ok (nth (n - 1) qbs [])) by (change 1%Z with (Z.of_nat 1); apply at_ok; lia).
      rewrite AN. cbn [obind]. rewrite QS in *. set (q := qlf (S n) h) in *.
      change (get_blk block0 q (nth (n - 1) qbs [])) with (B qbs n q).
      destruct (posInBlock (g1 :: gg) (b_right (B qbs n q))) as [k r] eqn:EP. destruct (posInBlock_spec _ _ _ _ EP (proj2 (BN n q ltac:(lia)))) as (P1 & P2 & P3 & P4).
      cbn [obind]. rewrite SP. cbn [obind]. rewrite TN. cbn [obind]. rewrite PN.
      assert (PQ : put_at qbs (Z.of_nat n - 1) (put_blk q (Blk (b_left (B qbs n q)) r (b_mat (B qbs n q))) (nth (n - 1) qbs [])) = setB qbs n q (Blk (b_left (B qbs n q)) r (b_mat (B qbs n q)))).
      { change 1%Z with (Z.of_nat 1). rewrite put_ok by lia. reflexivity. }
      rewrite PQ. clear PQ. set (b := Blk (b_left (B qbs n q)) r (b_mat (B qbs n q))) in *.
      assert (EB : B (setB qbs n q b) n q = b) by (rewrite B_set by lia; now rewrite Nat.eqb_refl, qeqb_refl).
      exists (setB qbs n q b). split.
      { do 5 f_equal. unfold elof. rewrite EL, EG. cbn [emptyb]. unfold qlf at 1. rewrite EL. fold q. rewrite EB. cbn [b_right b]. rewrite <- P3. reflexivity. }
      split; [apply setB_ok; auto; apply BN; lia|].
      split; [apply (setB_grows N); auto; exists []; now rewrite app_nil_r|].
      split; [congruence|]. split; [intros _; unfold right_in; fold q; rewrite EB, EG; exact P2|].
      intros m q' Hm. unfold crosses. cbn [fst snd]. replace (if (Nat.eqb n (S m) && negb (emptyb (olf (S m) h)) && qeqb (qlf (S m) h) q')%bool then [ent (setB qbs n q b) m h] else []) with (@nil (nat * nat * R)).
      2:{ destruct (Nat.eqb_spec n (S m)) as [->|]; cbn [andb]; [|reflexivity]. now rewrite EL. }
      rewrite app_nil_r, B_set by lia. destruct (Nat.eqb_spec n m) as [<-|]; cbn [andb]; [|reflexivity]. destruct (qeqb q' q) eqn:E; [|reflexivity]. apply qeqb_spec in E. now subst q'.
  - (* it started before *)
    specialize (L2 ltac:(congruence)). rewrite <- EL in *. change (calcQN (olf n h)) with (qlf n h) in *.
    assert (A2 : at_ qbs (Z.of_nat n - 2) = Ok (nth (n - 2) qbs [])) by (change 2%Z with (Z.of_nat 2); apply at_ok; lia).
    rewrite A2. cbn [obind]. set (q := qlf n h) in *.
    change (get_blk block0 q (nth (n - 2) qbs [])) with (get_blk block0 q (nth (n - 2) qbs [])). replace (n - 2) with (n - 1 - 1) by lia. change (get_blk block0 q (nth (n - 1 - 1) qbs [])) with (B qbs (n - 1) q).
    assert (PUT : forall v b, put_at v (Z.of_nat n - 2) (put_blk q b (nth (n - 1 - 1) v [])) = setB v (n - 1) q b).
    { intros v b. change 2%Z with (Z.of_nat 2). rewrite put_ok by lia. unfold setB. now replace (n - 2) with (n - 1 - 1) by lia. }
    destruct (BN (n - 1) q ltac:(lia)) as [BNl BNr].
    destruct (org n h) as [|g1 gg] eqn:EG.
    + rewrite app_nil_r in RS. rewrite <- RS.
      destruct (posInBlock (org (n - 1) h) (b_right (B qbs (n - 1) q))) as [j r] eqn:EP. destruct (posInBlock_spec _ _ _ _ EP BNr) as (P1 & P2 & P3 & P4).
      destruct (posInBlock (olf n h) (b_left (B qbs (n - 1) q))) as [l lf'] eqn:EP'. destruct (posInBlock_spec _ _ _ _ EP' BNl) as (P1' & P2' & P3' & P4').
      rewrite EL. cbn [obind]. rewrite RS, <- EL, SP. cbn [obind]. rewrite TN. cbn [obind]. rewrite PN, PUT. rewrite QS.
      set (b := Blk lf' r (b_mat (B qbs (n - 1) q) ++ [(l, j, ht_coef h)])) in *.
      assert (EB : B (setB qbs (n - 1) q b) (n - 1) q = b) by (rewrite B_set by lia; now rewrite Nat.eqb_refl, qeqb_refl).
      exists (setB qbs (n - 1) q b). split.
      { do 5 f_equal. unfold elof. rewrite EG. fold q. rewrite EB. rewrite EL at 1 2. cbn [emptyb b_right b]. rewrite <- P3. reflexivity. }
      split; [apply setB_ok; auto; lia|]. split; [apply (setB_grows N); auto; lia|].
      split; [intros _; split; [exact L2|]; unfold left_in; fold q; rewrite EB; split; [exact P2|exact P2']|].
      split; [congruence|].
      intros m q' Hm. unfold crosses. cbn [fst snd]. rewrite B_set by lia. destruct (Nat.eqb_spec n (S m)) as [En|En]; cbn [andb].
      * assert (m = n - 1) by lia. subst m. rewrite Nat.eqb_refl. replace (S (n - 1)) with n by lia. fold q. rewrite (proj2 (emptyb_false (olf n h))) by congruence. cbn [negb andb].
        destruct (qeqb q' q) eqn:E; [|rewrite (qeqb_neq q q'), app_nil_r; [reflexivity|intros ->; rewrite qeqb_refl in E; discriminate]].
        apply qeqb_spec in E. subst q'. rewrite qeqb_refl. unfold ent. replace (S (n - 1)) with n by lia. fold q. rewrite EB. cbn [b_mat b_left b_right b]. rewrite <- P3, <- P3'. reflexivity.
      * rewrite app_nil_r. destruct (Nat.eqb_spec (n - 1) m) as [<-|]; [lia|]. reflexivity.
    + rewrite <- EG. assert (AN : at_ qbs (Z.of_nat n - 1) = Ok (nth (n - 1) qbs [])) by (change 1%Z with (Z.of_nat 1); apply at_ok; lia).
      rewrite <- EG in RS. rewrite <- RS.
      destruct (posInBlock (org (n - 1) h) (b_right (B qbs (n - 1) q))) as [j r] eqn:EP. destruct (posInBlock_spec _ _ _ _ EP BNr) as (P1 & P2 & P3 & P4).
      rewrite EL, EG. rewrite AN. cbn [obind]. rewrite QS. rewrite <- EL, <- EG. set (qr := qlf (S n) h) in *.
      change (get_blk block0 qr (nth (n - 1) qbs [])) with (B qbs n qr). destruct (BN n qr ltac:(lia)) as [BNl2 BNr2].
      destruct (posInBlock (org n h) (b_right (B qbs n qr))) as [k r'] eqn:EPk. destruct (posInBlock_spec _ _ _ _ EPk BNr2) as (K1 & K2 & K3 & K4).
      destruct (posInBlock (olf n h) (b_left (B qbs (n - 1) q))) as [l lf'] eqn:EP'. destruct (posInBlock_spec _ _ _ _ EP' BNl) as (P1' & P2' & P3' & P4').
      cbn [obind]. rewrite SP. cbn [obind]. rewrite TN. cbn [obind]. rewrite PN, PUT.
      set (b := Blk lf' r (b_mat (B qbs (n - 1) q) ++ [(l, j, ht_coef h)])) in *. set (b' := Blk (b_left (B qbs n qr)) r' (b_mat (B qbs n qr))) in *.
      set (qbs1 := setB qbs (n - 1) q b) in *.
      assert (BO1 : blocks_ok N qbs1) by (apply setB_ok; auto; lia).
      assert (E1 : B qbs1 n qr = B qbs n qr). { unfold qbs1. rewrite B_set by lia. destruct (Nat.eqb_spec (n - 1) n); [lia|reflexivity]. }
      assert (PUT2 : put_at qbs1 (Z.of_nat n - 1) (put_blk qr b' (nth (n - 1) qbs [])) = setB qbs1 n qr b').
      { change 1%Z with (Z.of_nat 1). rewrite put_ok by lia. unfold setB. do 2 f_equal. unfold qbs1, setB. rewrite nth_upd_neq by lia. reflexivity. }
      rewrite PUT2. clear PUT2.
      assert (EB : B (setB qbs1 n qr b') (n - 1) q = b).
      { destruct BO1 as (Q1 & _). rewrite B_set by lia. destruct (Nat.eqb_spec n (n - 1)); [lia|]. cbn [andb]. unfold qbs1. rewrite B_set by lia. now rewrite Nat.eqb_refl, qeqb_refl. }
      assert (EB' : B (setB qbs1 n qr b') n qr = b').
      { destruct BO1 as (Q1 & _). rewrite B_set by lia. now rewrite Nat.eqb_refl, qeqb_refl. }
      exists (setB qbs1 n qr b'). split.
      { do 5 f_equal. unfold elof. fold q. fold qr. rewrite EB, EB', (proj2 (emptyb_false (olf n h))), (proj2 (emptyb_false (org n h))) by congruence. cbn [emptyb b_right b b']. rewrite <- P3, <- K3. reflexivity. }
      split; [apply setB_ok; auto; lia|].
      split.
      { apply (grows_trans _ qbs1); [apply (setB_grows N); auto; lia|]. apply (setB_grows N); [exact BO1|exact Hn| |]; rewrite E1; cbn [b_left b_right b']; [exists []; now rewrite app_nil_r|exact K4]. }
      split; [intros _; split; [exact L2|]; unfold left_in; fold q; rewrite EB; split; [exact P2|exact P2']|].
      split; [intros _; unfold right_in; fold qr; rewrite EB'; exact K2|].
      intros m q' Hm. unfold crosses. cbn [fst snd]. pose proof (proj1 BO1) as LQ1. rewrite B_set by lia. destruct (Nat.eqb_spec n (S m)) as [En|En]; cbn [andb].
      * assert (m = n - 1) by lia. subst m. destruct (Nat.eqb_spec n (n - 1)); [lia|]. cbn [andb]. unfold qbs1 at 1. rewrite B_set by lia. rewrite Nat.eqb_refl. replace (S (n - 1)) with n by lia. fold q.
        rewrite (proj2 (emptyb_false (olf n h))) by congruence. cbn [negb andb].
        destruct (qeqb q' q) eqn:E; [|rewrite (qeqb_neq q q'), app_nil_r; [reflexivity|intros ->; rewrite qeqb_refl in E; discriminate]].
        apply qeqb_spec in E. subst q'. rewrite qeqb_refl. unfold ent. replace (S (n - 1)) with n by lia. fold q. rewrite EB. cbn [b_mat b_left b_right b]. rewrite <- P3, <- P3'. reflexivity.
      * rewrite app_nil_r. destruct (Nat.eqb_spec n m) as [<-|]; cbn [andb].
        -- destruct (qeqb q' qr) eqn:E; [apply qeqb_spec in E; subst q'; reflexivity|]. unfold qbs1. rewrite B_set by lia. destruct (Nat.eqb_spec (n - 1) n); [lia|reflexivity].
        -- unfold qbs1. rewrite B_set by lia. destruct (Nat.eqb_spec (n - 1) m); [lia|reflexivity].
Qed.

(** *** The set of elements of a site *)
Lemma el_equiv_refl (e : elem) : el_equiv ceq qeqb e e = true.
Proof.
  unfold el_equiv. rewrite !qeqb_refl, ceq_refl, (proj2 (prod_eqb_spec _ _) eq_refl).
  assert (H : forall o, onat_eqb o o = true) by (intros [k|]; cbn; [apply Nat.eqb_refl|reflexivity]). now rewrite !H.
Qed.
Lemma onat_eqb_spec a b : onat_eqb a b = true -> a = b.
Proof. destruct a, b; cbn; try discriminate; auto. intros H. apply Nat.eqb_eq in H. congruence. Qed.
Lemma el_equiv_inv (a b : elem) : el_equiv ceq qeqb a b = true -> e_row a = e_row b /\ e_col a = e_col b /\ e_rq a = e_rq b /\ e_cq a = e_cq b /\ e_ops a = e_ops b.
Proof.
  unfold el_equiv. rewrite !andb_true_iff. intros (((((H1 & H2) & H3) & H4) & _) & H6).
  repeat split; [now apply onat_eqb_spec|now apply onat_eqb_spec|now apply qeqb_spec|now apply qeqb_spec|now apply prod_eqb_spec].
Qed.

Definition covers (N : nat) (h : hterm) (n : nat) : Prop := cover (ht_ops h) n /\ 1 <= n <= N.
Lemma on_start h n : StronglySorted sle (ht_ops h) -> cover (ht_ops h) n -> olf n h = [] -> oon n h <> [].
Proof. intros S0 [_ C] E X. apply C. rewrite (lf_S _ _ S0). unfold olf, oon in *. now rewrite E, X. Qed.
(** Equivalent elements of two terms are equal. *)
Lemma elof_equiv N (T : list hterm) qbs n h h' : (forall a b, In a T -> In b T -> ht_ops a = ht_ops b -> a = b) -> In h T -> In h' T ->
  wf N (ht_ops h) -> wf N (ht_ops h') -> covers N h n -> covers N h' n -> (org n h <> [] -> right_in qbs n h) -> (org n h' <> [] -> right_in qbs n h') ->
  el_equiv ceq qeqb (elof qbs n h) (elof qbs n h') = true -> elof qbs n h = elof qbs n h'.
Proof.
  intros U HT HT' W W' [C Hn] [C' _] RI RI' E. apply el_equiv_inv in E as (E1 & E2 & E3 & E4 & E5). unfold elof in *. cbn [e_row e_col e_rq e_cq e_ops] in *.
  rewrite E1, E2, E3, E4, E5. f_equal. destruct (emptyb (olf n h)) eqn:L, (emptyb (olf n h')) eqn:L'; try discriminate; auto.
  apply emptyb_spec in L, L'. replace h' with h; [reflexivity|]. apply U; auto.
  assert (G : org n h = org n h').
  { destruct (emptyb (org n h)) eqn:G1, (emptyb (org n h')) eqn:G2; try discriminate.
    - apply emptyb_spec in G1, G2. congruence.
    - apply emptyb_false in G1, G2. injection E2 as E2. rewrite E4 in E2. specialize (RI G1). specialize (RI' G2). unfold right_in in *. rewrite E4 in RI. eapply pos_inj; eauto. }
  destruct W as [Wne Ws Wr We Wz Wp], W' as [Wne' Ws' Wr' We' Wz' Wp'].
  apply (start_inj _ _ n); auto; [now apply on_start|now apply on_start].
Qed.

Lemma nodup_snoc {X} (l : list X) x : NoDup l -> ~ In x l -> NoDup (l ++ [x]).
Proof.
  induction l as [|y l IH]; intros H Nx; cbn; [constructor; auto|]. apply NoDup_cons_iff in H as [H1 H2]. constructor.
  - intros Y. apply in_app_iff in Y as [Y|[->|[]]]; [contradiction|]. apply Nx. now left.
  - apply IH; auto. intros Y. apply Nx. now right.
Qed.

Lemma cr_app P P' m q : cr (P ++ P') m q = cr P m q ++ cr P' m q.
Proof. unfold cr. now rewrite filter_app, map_app. Qed.

Lemma left_ge2 N h n : wf N (ht_ops h) -> olf n h <> [] -> 2 <= n.
Proof.
  intros [Wne Ws Wr We Wz Wp] H. assert (Q1 : ~ n <= st_i (hd st_none (ht_ops h))) by (intros Q1; apply H; now apply (lf_nil n _ Ws Wne)).
  destruct (ht_ops h) as [|t l]; [congruence|]. specialize (Wr t (or_introl eq_refl)). cbn in Q1. lia.
Qed.

Lemma step_inv N (T : list hterm) P qbs temp h n : (forall a b, In a T -> In b T -> ht_ops a = ht_ops b -> a = b) ->
  (forall h, In h T -> wf N (ht_ops h)) -> (forall h n, In (h, n) P -> In h T /\ covers N h n) ->
  In h T -> covers N h n -> Inv N P qbs temp ->
  exists qbs' temp', part_site r1 ceq q0 qadd qeqb qltb opq (ht_coef h) (ht_ops h) n (qbs, temp) = Ok (qbs', temp') /\ Inv N (P ++ [(h, n)]) qbs' temp'.
Proof.
  intros U W HP HT [C Hn] [I1 I2 I3 I4 I5 I6 I7].
  destruct (step_blocks N qbs temp h n I1 I2 (W h HT) C Hn) as (qbs' & E & BO & G & L & RI & MM).
  set (t0 := nth (n - 1) temp []) in *. exists qbs', (upd (n - 1) (el_insert ceq qeqb (elof qbs' n h) t0) temp). split; [exact E|].
  assert (GE : forall h' n', In (h', n') P -> elof qbs' n' h' = elof qbs n' h').
  { intros h' n' H. destruct (HP _ _ H) as [HT' [C' Hn']]. apply elof_grows; auto; [lia|]. intros Y. split; [exact (left_ge2 N h' n' (W h' HT') Y)|]; auto. }
  assert (LL : forall h' n', In (h', n') (P ++ [(h, n)]) -> olf n' h' <> [] -> left_in qbs' n' h').
  { intros h' n' H Y. apply in_app_iff in H as [H|[H|[]]].
    - destruct (HP _ _ H) as [HT' _]. apply (grows_left qbs); auto. exact (left_ge2 N h' n' (W h' HT') Y).
    - injection H as -> ->. now apply L. }
  assert (RR : forall h' n', In (h', n') (P ++ [(h, n)]) -> org n' h' <> [] -> right_in qbs' n' h').
  { intros h' n' H Y. apply in_app_iff in H as [H|[H|[]]].
    - destruct (HP _ _ H) as [HT' [_ X]]. apply (grows_right qbs); auto. lia.
    - injection H as -> ->. now apply RI. }
  assert (T0 : forall e, In e t0 <-> exists h', In (h', n) P /\ e = elof qbs' n h').
  { intros e. unfold t0. rewrite I7 by lia. split; intros (h' & A & B'); exists h'; split; auto; rewrite B'; [symmetry|]; auto. }
  assert (NI : In (elof qbs' n h) (el_insert ceq qeqb (elof qbs' n h) t0) /\ NoDup (el_insert ceq qeqb (elof qbs' n h) t0) /\
    forall e, In e (el_insert ceq qeqb (elof qbs' n h) t0) -> In e t0 \/ e = elof qbs' n h).
  { unfold el_insert. destruct (existsb _ t0) eqn:X.
    - apply existsb_exists in X as (e' & Q1 & Q2). split; [|split; [apply I6; lia|auto]]. pose proof Q1 as Q3. apply T0 in Q3 as (h' & Q3 & ->). destruct (HP _ _ Q3) as [HT' C'].
      rewrite (elof_equiv N T qbs' n h h'); auto; [split; auto|]. intros Z. apply RR; auto. apply in_or_app; now left.
    - split; [apply in_or_app; right; now left|]. split.
      + apply nodup_snoc; [apply I6; lia|]. intros Y. assert (existsb (el_equiv ceq qeqb (elof qbs' n h)) t0 = true) by (apply existsb_exists; eexists; split; [exact Y|apply el_equiv_refl]). congruence.
      + intros e Y. apply in_app_iff in Y as [Y|[<-|[]]]; auto. }
  destruct NI as (N1 & N2 & N3). constructor.
  - exact BO.
  - now rewrite upd_length.
  - exact LL.
  - exact RR.
  - intros m q Hm. rewrite MM, I5, cr_app, map_app by auto. f_equal.
    + apply map_ext_in. intros h' Y. apply in_map_iff in Y as ([h'' n'] & Q1 & Q2). cbn in Q1. subst h''. apply filter_In in Q2 as [Q2 Q3]. unfold crosses in Q3. cbn [fst snd] in Q3.
      apply andb_true_iff in Q3 as [Q3 _]. apply andb_true_iff in Q3 as [Q3 Q4]. apply Nat.eqb_eq in Q3. subst n'. apply negb_true_iff, emptyb_false in Q4.
      symmetry. apply ent_grows; auto.
    + unfold cr. cbn [filter]. destruct (crosses m q (h, n)); reflexivity.
  - intros k Hk. destruct (Nat.eq_dec (n - 1) (k - 1)) as [Ek|Ek]; [rewrite <- Ek, nth_upd_eq by lia; exact N2|rewrite nth_upd_neq by auto; auto].
  - intros k e Hk HN. destruct (Nat.eq_dec (n - 1) (k - 1)) as [Ek|Ek].
    + assert (k = n) by lia. subst k. rewrite nth_upd_eq by lia. split.
      * intros Y. destruct (N3 e Y) as [Q'| ->]; [apply T0 in Q' as (h' & Q1 & Q2); exists h'; split; auto; apply in_or_app; now left|exists h; split; auto; apply in_or_app; right; now left].
      * intros (h' & Q1 & ->). apply in_app_iff in Q1 as [Q1|[Q1|[]]]; [|injection Q1 as ->; exact N1].
        assert (Y : In (elof qbs' n h') t0) by (apply T0; eauto). unfold el_insert. destruct (existsb _ t0); auto. apply in_or_app; now left.
    + rewrite nth_upd_neq by auto. rewrite I7 by auto. split; intros (h' & Q1 & Q2).
      * exists h'. split; [apply in_or_app; now left|]. rewrite Q2. symmetry. now apply GE.
      * exists h'. apply in_app_iff in Q1 as [Q1|[Q1|[]]]; [|injection Q1 as -> ->; lia]. split; auto. rewrite Q2. now apply GE.
Qed.

(** *** All terms *)
Definition sitesof (h : hterm) : list nat := let f := st_i (hd st_none (ht_ops h)) in seq f (S (st_i (last (ht_ops h) st_none)) - f).
Definition pairs (T : list hterm) : list (hterm * nat) := flat_map (fun h => map (pair h) (sitesof h)) T.
Lemma sitesof_iff N h n : wf N (ht_ops h) -> (In n (sitesof h) <-> covers N h n).
Proof.
  intros [Wne Ws Wr We Wz Wp]. unfold sitesof, covers. rewrite in_seq.
  assert (H1 : 1 <= st_i (hd st_none (ht_ops h))) by (destruct (ht_ops h) as [|t l]; [congruence|]; apply (Wr t); now left).
  assert (H2 : st_i (last (ht_ops h) st_none) <= N) by (apply (Wr _ (last_in st_none _ Wne))).
  split.
  - intros [A B']. assert (1 <= n <= N) by lia. split; auto. apply (cover_iff n _ Ws Wne); lia.
  - intros [A B']. apply (cover_iff n _ Ws Wne) in A; lia.
Qed.

Lemma part_sites_inv N (T : list hterm) h : (forall a b, In a T -> In b T -> ht_ops a = ht_ops b -> a = b) ->
  (forall h, In h T -> wf N (ht_ops h)) -> In h T ->
  forall ns P qbs temp, (forall n, In n ns -> covers N h n) -> (forall h n, In (h, n) P -> In h T /\ covers N h n) -> Inv N P qbs temp ->
  exists qbs' temp', part_sites r1 ceq q0 qadd qeqb qltb opq (ht_coef h) (ht_ops h) ns (qbs, temp) = Ok (qbs', temp') /\ Inv N (P ++ map (pair h) ns) qbs' temp'.
Proof.
  intros U W HT ns. induction ns as [|n ns IH]; intros P qbs temp Hns HP I.
  - exists qbs, temp. cbn. now rewrite app_nil_r.
  - destruct (step_inv N T P qbs temp h n U W HP HT (Hns n (or_introl eq_refl)) I) as (q1 & t1 & E & I').
    destruct (IH (P ++ [(h, n)]) q1 t1) as (q2 & t2 & E2 & I2).
    + intros; apply Hns; now right.
    + intros h' n' Y. apply in_app_iff in Y as [Y|[Y|[]]]; [now apply HP|]. injection Y as <- <-. split; auto. apply Hns; now left.
    + exact I'.
    + exists q2, t2. split; [cbn [part_sites]; rewrite E; exact E2|]. rewrite <- app_assoc in I2. exact I2.
Qed.

Lemma part_terms_inv N (T : list hterm) : (forall a b, In a T -> In b T -> ht_ops a = ht_ops b -> a = b) ->
  (forall h, In h T -> wf N (ht_ops h)) ->
  forall T' P qbs temp, (forall h, In h T' -> In h T) -> (forall h n, In (h, n) P -> In h T /\ covers N h n) -> Inv N P qbs temp ->
  exists qbs' temp', part_terms r1 ceq q0 qadd qeqb qltb opq T' (qbs, temp) = Ok (qbs', temp') /\ Inv N (P ++ pairs T') qbs' temp'.
Proof.
  intros U W T'. induction T' as [|h T' IH]; intros P qbs temp HS HP I.
  - exists qbs, temp. cbn. now rewrite app_nil_r.
  - assert (HT : In h T) by (apply HS; now left). pose proof (W h HT) as Wh.
    destruct (part_sites_inv N T h U W HT (sitesof h) P qbs temp) as (q1 & t1 & E & I'); auto; [intros n Y; now apply (sitesof_iff N h n Wh)|].
    destruct (IH (P ++ map (pair h) (sitesof h)) q1 t1) as (q2 & t2 & E2 & I2); auto.
    + intros; apply HS; now right.
    + intros h' n' Y. apply in_app_iff in Y as [Y|Y]; [now apply HP|]. apply in_map_iff in Y as (k & Y & Q'). injection Y as <- <-. split; auto. now apply (sitesof_iff N h k Wh).
    + exists q2, t2. split; [|cbn [pairs flat_map]; rewrite app_assoc; exact I2]. cbn [part_terms]. unfold part_term. destruct (ht_ops h) as [|x l] eqn:Eo; [destruct Wh; congruence|].
      assert (Es : seq (st_i (ht_first h)) (S (st_i (ht_last h)) - st_i (ht_first h)) = sitesof h) by (unfold ht_first, ht_last, sitesof; reflexivity).
      rewrite Es, E. exact E2.
Qed.

Theorem partition_inv N (T : list hterm) : NoDup (map ht_ops T) -> (forall h, In h T -> wf N (ht_ops h)) ->
  exists qbs temp, partitionHTerms r1 ceq q0 qadd qeqb qltb opq N T = Ok (qbs, temp) /\ Inv N (pairs T) qbs temp.
Proof.
  intros ND W. apply (part_terms_inv N T) with (P := []); auto.
  - intros a b Ha Hb E. clear -ND Ha Hb E. induction T as [|x T IH]; [destruct Ha|]. cbn in ND. apply NoDup_cons_iff in ND as [N1 N2].
    destruct Ha as [->|Ha], Hb as [->|Hb]; auto; exfalso; apply N1; [rewrite E|rewrite <- E]; now apply in_map.
  - intros h n [].
  - assert (Z : forall X k, nth k (repeat (@nil X) N) [] = []) by (intros X; clear; induction N as [|N' IHN]; intros [|k]; cbn; auto).
    assert (E0 : forall m q, B (repeat [] N) m q = block0) by (intros m q; unfold B; now rewrite Z).
    constructor.
    + split; [apply repeat_length|]. split; [intros m; rewrite Z; constructor|]. intros m q _. rewrite E0. split; constructor.
    + apply repeat_length.
    + intros h n [].
    + intros h n [].
    + intros m q _. rewrite E0. reflexivity.
    + intros n _. rewrite Z. constructor.
    + intros n e _ _. rewrite Z. split; [intros []|intros (h & [] & _)].
Qed.

Lemma in_pairs N T h n : (forall h, In h T -> wf N (ht_ops h)) -> (In (h, n) (pairs T) <-> In h T /\ covers N h n).
Proof.
  intros W. unfold pairs. rewrite in_flat_map. split.
  - intros (h' & H1 & H2). apply in_map_iff in H2 as (k & E & H2). injection E as -> ->. split; auto. now apply (sitesof_iff N h n); auto.
  - intros [H1 H2]. exists h. split; auto. apply in_map. now apply (sitesof_iff N h n); auto.
Qed.

(** Terms with operators on both sides of link m whose left part has quantum number q. *)
Definition crossing (m : nat) (h : hterm) : bool := (negb (emptyb (olf (S m) h)) && negb (emptyb (org m h)))%bool.
Lemma filter_seq k : forall a s, filter (Nat.eqb k) (seq a s) = if (Nat.leb a k && Nat.ltb k (a + s))%bool then [k] else [].
Proof.
  intros a s. revert a. induction s as [|s IH]; intros a; cbn [seq filter].
  - destruct (Nat.leb_spec a k), (Nat.ltb_spec k (a + 0)); cbn; auto; lia.
  - rewrite IH. destruct (Nat.eqb_spec k a) as [->|Ne].
    + destruct (Nat.leb_spec (S a) a), (Nat.leb_spec a a), (Nat.ltb_spec a (a + S s)); cbn; auto; lia.
    + destruct (Nat.leb_spec (S a) k), (Nat.leb_spec a k), (Nat.ltb_spec k (S a + s)), (Nat.ltb_spec k (a + S s)); cbn; auto; lia.
Qed.
Lemma cr_pairs N T m q : (forall h, In h T -> wf N (ht_ops h)) -> cr (pairs T) m q = filter (fun h => (crossing m h && qeqb (qlf (S m) h) q)%bool) T.
Proof.
  intros W. induction T as [|h T IH]; [reflexivity|]. cbn [pairs flat_map]. fold (pairs T). rewrite cr_app, IH by (intros; apply W; now right).
  destruct (W h (or_introl eq_refl)) as [Wne Ws Wr We Wz Wp]. cbn [filter].
  assert (E : cr (map (pair h) (sitesof h)) m q = if (crossing m h && qeqb (qlf (S m) h) q)%bool then [h] else []).
  { unfold cr.
    assert (F : forall l, map fst (filter (crosses m q) (map (pair h) l)) = if (negb (emptyb (olf (S m) h)) && qeqb (qlf (S m) h) q)%bool then map (fun _ => h) (filter (Nat.eqb (S m)) l) else []).
    { induction l as [|x l IHl]; cbn [map filter]; [now destruct (_ && _)%bool|]. unfold crosses at 1. cbn [fst snd]. rewrite (Nat.eqb_sym x (S m)).
      destruct (Nat.eqb (S m) x) eqn:Ex; cbn [andb map]; [|exact IHl].
      destruct (negb (emptyb (olf (S m) h)) && qeqb (qlf (S m) h) q)%bool eqn:Y; cbn [map fst]; [now rewrite IHl|exact IHl]. }
    rewrite F. unfold sitesof. rewrite filter_seq. unfold crossing.
    destruct (emptyb (olf (S m) h)) eqn:L; cbn [negb andb]; [reflexivity|]. apply emptyb_false in L.
    assert (L' : ~ S m <= st_i (hd st_none (ht_ops h))) by (intros X; apply L; now apply (lf_nil _ _ Ws Wne)).
    destruct (emptyb (org m h)) eqn:G.
    - apply emptyb_spec in G. apply (rg_nil _ _ Ws Wne) in G. cbn [negb andb].
      destruct (Nat.leb_spec (st_i (hd st_none (ht_ops h))) (S m)), (Nat.ltb_spec (S m) (st_i (hd st_none (ht_ops h)) + (S (st_i (last (ht_ops h) st_none)) - st_i (hd st_none (ht_ops h))))); cbn; try lia; destruct (qeqb _ q); reflexivity.
    - apply emptyb_false in G. assert (G' : ~ st_i (last (ht_ops h) st_none) <= m) by (intros X; apply G; now apply (rg_nil _ _ Ws Wne)). cbn [negb andb].
      destruct (Nat.leb_spec (st_i (hd st_none (ht_ops h))) (S m)), (Nat.ltb_spec (S m) (st_i (hd st_none (ht_ops h)) + (S (st_i (last (ht_ops h) st_none)) - st_i (hd st_none (ht_ops h))))); cbn; try lia; destruct (qeqb _ q); reflexivity. }
  rewrite E. destruct (crossing m h && qeqb (qlf (S m) h) q)%bool; reflexivity.
Qed.
End Part.
