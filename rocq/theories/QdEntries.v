(** Which pairs of blocks are contracted, and the blocks of the result. *)
From Coq Require Import List ZArith Lia Bool Arith Permutation Sorted.
From Verif Require Import Util RangeModel RangeSpec RangeProofs TensorModel TensorSpec TensorProofs SemProofs
  ContractModel DenseModel DenseProofs LabelProofs QnModel QdModel QdSpec QdProofs QdAdd.
Import ListNotations.
Open Scope outcome_scope.
Local Arguments Nat.sub : simpl never.

Section Entries.
Context {I : Type} (ieq : I -> I -> bool) (ieq_spec : forall a b, ieq a b = true <-> a = b) (bs : I -> list nat).
Context (srt : forall X : Type, (X -> X -> bool) -> list X -> list X) (Hsrt : sorts srt).
Notation nblocks := (nblocks bs).
Notation sz := (sz bs).
Notation filled := (filled bs).
Notation stored := (stored bs).
Notation mem := (mem ieq).
Notation idx := (idx ieq).
Variables (L Rr : list I).
Hypothesis NL : NoDup L.
Hypothesis NR : NoDup Rr.
Let U := only ieq L Rr.
Let V := only ieq Rr L.
Let N := U ++ V.

Lemma in_N x : In x N <-> (In x L /\ ~ In x Rr) \/ (In x Rr /\ ~ In x L).
Proof. unfold N, U, V. rewrite in_app_iff, !(in_only ieq ieq_spec). tauto. Qed.
Lemma nodup_N : NoDup N.
Proof.
  unfold N. apply NoDup_app_intro; [now apply NoDup_filter|now apply NoDup_filter|].
  intros x H1 H2. apply (in_only ieq ieq_spec) in H1, H2. tauto.
Qed.
Definition aval (a : block) (x : I) : nat := nth (idx L x) a 0.
Definition bval (b : block) (x : I) : nat := nth (idx Rr x) b 0.
(** the block of every index, given a block of A and a block of B *)
Definition joinb (a b : block) (x : I) : nat := if mem x L then aval a x else bval b x.
Definition matches (a b : block) : bool := forallb (fun x => negb (mem x Rr) || (aval a x =? bval b x)) L.

Lemma nth_idx_map (f : I -> nat) l x : In x l -> nth (idx l x) (map f l) 0 = f x.
Proof.
  intros H. destruct (idx_in ieq ieq_spec l x H x) as [K1 K2].
  rewrite (nth_indep _ 0 (f x)) by (rewrite map_length; auto). rewrite map_nth. rewrite K2. reflexivity.
Qed.
Lemma map_idx l (a : block) : NoDup l -> length a = length l -> map (fun x => nth (idx l x) a 0) l = a.
Proof.
  intros HN HL. destruct l as [|x0 l']; [destruct a; [reflexivity|discriminate]|]. remember (x0 :: l') as l. apply (nth_ext _ _ 0 0); [now rewrite map_length|].
  rewrite map_length. intros n Hn.
  rewrite (nth_indep _ 0 ((fun x => nth (idx l x) a 0) x0)) by (rewrite map_length; auto).
  rewrite (map_nth (fun x => nth (idx l x) a 0)).
  f_equal. destruct (idx_in ieq ieq_spec l (nth n l x0) (nth_In _ _ Hn) x0) as [K1 K2].
  apply (proj1 (NoDup_nth l x0) HN); auto.
Qed.
Lemma aval_map (f : I -> nat) x : In x L -> aval (map f L) x = f x.
Proof. apply nth_idx_map. Qed.
Lemma bval_map (f : I -> nat) x : In x Rr -> bval (map f Rr) x = f x.
Proof. apply nth_idx_map. Qed.
Lemma a_back a : length a = length L -> map (aval a) L = a.
Proof. apply map_idx, NL. Qed.
Lemma b_back b : length b = length Rr -> map (bval b) Rr = b.
Proof. apply map_idx, NR. Qed.
Lemma join_L a b : length a = length L -> map (joinb a b) L = a.
Proof.
  intros H. rewrite <- (a_back a H) at 2. apply map_ext_in. intros x Hx. unfold joinb. rewrite (proj2 (mem_In' ieq ieq_spec x L) Hx). reflexivity.
Qed.
Lemma join_R a b : length b = length Rr -> matches a b = true -> map (joinb a b) Rr = b.
Proof.
  intros H HM. rewrite <- (b_back b H) at 2. apply map_ext_in. intros x Hx. unfold joinb. destruct (mem x L) eqn:E; auto.
  apply (mem_In' ieq ieq_spec) in E. unfold matches in HM. rewrite forallb_forall in HM. specialize (HM x E).
  rewrite (proj2 (mem_In' ieq ieq_spec x Rr) Hx) in HM. cbn in HM. now apply Nat.eqb_eq in HM.
Qed.
Lemma matches_iff a b : length a = length L -> length b = length Rr ->
  (matches a b = true <-> exists beta, a = map beta L /\ b = map beta Rr).
Proof.
  intros Ha Hb. split.
  - intros HM. exists (joinb a b). rewrite join_L, join_R by auto. auto.
  - intros (beta & -> & ->). unfold matches. apply forallb_forall. intros x Hx. destruct (mem x Rr) eqn:E; auto. cbn.
    apply (mem_In' ieq ieq_spec) in E. rewrite aval_map, bval_map by auto. apply Nat.eqb_refl.
Qed.
Lemma join_beta beta x : In x L \/ In x Rr -> joinb (map beta L) (map beta Rr) x = beta x.
Proof.
  intros H. unfold joinb. destruct (mem x L) eqn:E.
  - apply (mem_In' ieq ieq_spec) in E. now apply aval_map.
  - apply (mem_not ieq ieq_spec) in E. destruct H; [contradiction|]. now apply bval_map.
Qed.

(** ** the maps AtoC, BtoC, AtoB *)
Definition AtoC := map (fun x => if mem x Rr then None else Some (idx N x)) L.
Definition BtoC := map (fun x => if mem x L then None else Some (idx N x)) Rr.
Lemma find_pos_idx l x : In x l -> find_pos ieq x l = Some (idx l x).
Proof.
  intros H. unfold LabelProofs.idx. destruct (find_pos ieq x l) eqn:E; auto. apply (find_pos_none ieq ieq_spec) in E. contradiction.
Qed.
Lemma find_pos_not l x : ~ In x l -> find_pos ieq x l = None.
Proof.
  intros H. destruct (find_pos ieq x l) eqn:E; auto. apply (find_pos_some ieq ieq_spec x l n x) in E as [K1 K2].
  exfalso. apply H. rewrite <- K2. apply nth_In. exact K1.
Qed.
Lemma cmaps_loop : forall rest pre, N = pre ++ rest ->
  cmaps ieq L Rr rest (length pre)
    (map (fun x => if mem x pre then Some (idx N x) else None) L)
    (map (fun x => if mem x pre && negb (mem x L) then Some (idx N x) else None) Rr) =
  Ok (AtoC, BtoC).
Proof.
  induction rest as [|c rest IH]; intros pre EN; cbn [cmaps].
  - rewrite app_nil_r in EN. subst pre. f_equal. f_equal.
    + apply map_ext_in. intros x Hx. destruct (mem x Rr) eqn:E.
      * rewrite (proj2 (mem_not ieq ieq_spec x N)); auto. rewrite in_N. apply (mem_In' ieq ieq_spec) in E. tauto.
      * rewrite (proj2 (mem_In' ieq ieq_spec x N)); auto. rewrite in_N. apply (mem_not ieq ieq_spec) in E. tauto.
    + apply map_ext_in. intros x Hx. destruct (mem x L) eqn:E; [rewrite andb_false_r; auto|].
      rewrite (proj2 (mem_In' ieq ieq_spec x N)); auto. rewrite in_N. apply (mem_not ieq ieq_spec) in E. tauto.
  - assert (HcN : In c N) by (rewrite EN; apply in_app_iff; right; left; auto).
    assert (Hcp : ~ In c pre).
    { pose proof nodup_N as ND. rewrite EN in ND. apply NoDup_remove_2 in ND. intros Q. apply ND. apply in_app_iff. auto. }
    assert (Hic : idx N c = length pre).
    { rewrite EN, (idx_app_r ieq ieq_spec) by (auto; left; auto). rewrite (idx_cons_same ieq ieq_spec). lia. }
    assert (EN' : N = (pre ++ [c]) ++ rest) by (rewrite <- app_assoc; exact EN).
    specialize (IH (pre ++ [c]) EN'). rewrite app_length in IH. cbn [length] in IH. rewrite Nat.add_1_r in IH.
    assert (HM : forall y, mem y (pre ++ [c]) = (mem y pre || ieq c y)%bool).
    { intros y. unfold TensorSpec.mem. rewrite existsb_app. cbn [existsb]. rewrite orb_false_r. f_equal.
      destruct (ieq y c) eqn:E1, (ieq c y) eqn:E2; auto; apply ieq_spec in E1 || apply ieq_spec in E2; subst; [|]; rewrite (proj2 (ieq_spec _ _) eq_refl) in *; congruence. }
    destruct (in_dec (ieq_dec ieq ieq_spec) c L) as [HL|HL].
    + rewrite find_pos_idx by auto. destruct (idx_in ieq ieq_spec L c HL c) as [K1 K2].
      unfold oupd. rewrite map_length. destruct (Nat.ltb_spec (idx L c) (length L)); [|lia]. cbn [obind].
      rewrite (upd_map_one ieq ieq_spec _ _ L (idx L c) c NL K1 K2).
      rewrite <- IH. f_equal.
      * apply map_ext_in. intros y Hy. rewrite HM. destruct (ieq c y) eqn:E; [apply ieq_spec in E; subst y; rewrite orb_true_r, Hic; auto|rewrite orb_false_r; auto].
      * apply map_ext_in. intros y Hy. rewrite HM. destruct (ieq c y) eqn:E; [|rewrite orb_false_r; auto].
        apply ieq_spec in E. subst y. rewrite (proj2 (mem_In' ieq ieq_spec c L) HL). rewrite !andb_false_r. reflexivity.
    + rewrite find_pos_not by auto. assert (HR : In c Rr) by (apply in_N in HcN; tauto).
      rewrite find_pos_idx by auto. destruct (idx_in ieq ieq_spec Rr c HR c) as [K1 K2].
      unfold oupd. rewrite map_length. destruct (Nat.ltb_spec (idx Rr c) (length Rr)); [|lia]. cbn [obind].
      rewrite (upd_map_one ieq ieq_spec _ _ Rr (idx Rr c) c NR K1 K2).
      rewrite <- IH. f_equal.
      * apply map_ext_in. intros y Hy. rewrite HM. destruct (ieq c y) eqn:E; [apply ieq_spec in E; subst y; contradiction|rewrite orb_false_r; auto].
      * apply map_ext_in. intros y Hy. rewrite HM. destruct (ieq c y) eqn:E; [|rewrite orb_false_r; auto].
        apply ieq_spec in E. subst y. rewrite (proj2 (mem_not ieq ieq_spec c L) HL), orb_true_r, Hic. reflexivity.
Qed.
Lemma cmaps_spec : cmaps ieq L Rr N 0 (repeat None (length L)) (repeat None (length Rr)) = Ok (AtoC, BtoC).
Proof.
  rewrite <- (cmaps_loop N [] eq_refl). cbn [length]. f_equal.
  - generalize L as l. induction l as [|y l IH]; cbn [map length repeat]; [reflexivity|]. rewrite IH. reflexivity.
  - generalize L as k. generalize Rr as l. induction l as [|y l IH]; intros k; cbn [map length repeat]; [reflexivity|]. rewrite (IH k). reflexivity.
Qed.

Lemma bmatch_loop (b : block) : length b = length Rr -> forall l (f : I -> nat),
  bmatch (map (fun x => find_pos ieq x Rr) l) (map f l) b = Ok (forallb (fun x => negb (mem x Rr) || (f x =? bval b x)) l).
Proof.
  intros Hb l f. induction l as [|x l IH]; cbn [bmatch map forallb]; auto.
  destruct (mem x Rr) eqn:E.
  - apply (mem_In' ieq ieq_spec) in E. rewrite find_pos_idx by auto. cbn [bmatch]. destruct (idx_in ieq ieq_spec Rr x E x) as [K1 K2].
    rewrite (oget_ok 0) by lia. cbn [obind]. fold (bval b x). cbn [negb orb]. destruct (f x =? bval b x); cbn [andb]; auto.
  - apply (mem_not ieq ieq_spec) in E. rewrite find_pos_not by auto. cbn [bmatch negb orb andb]. exact IH.
Qed.
Lemma bmatch_spec a b : length a = length L -> length b = length Rr -> bmatch (abmap ieq L Rr) a b = Ok (matches a b).
Proof.
  intros Ha Hb. unfold abmap. rewrite <- (a_back a Ha) at 1. apply bmatch_loop. exact Hb.
Qed.

Lemma scatter_spec (m : I -> option nat) : forall l (f : I -> nat) c,
  (forall x p, In x l -> m x = Some p -> p < length c) -> NoDup l ->
  (forall x y p, In x l -> In y l -> m x = Some p -> m y = Some p -> x = y) ->
  exists c', scatter (map m l) (map f l) c = Ok c' /\ length c' = length c /\
    (forall x p, In x l -> m x = Some p -> nth p c' 0 = f x) /\
    (forall p, (forall x, In x l -> m x <> Some p) -> nth p c' 0 = nth p c 0).
Proof.
  induction l as [|x l IH]; intros f c HB HN HI; cbn [scatter map].
  - exists c. repeat split; auto. intros x p [].
  - inversion HN as [|? ? Hx HN']; subst. destruct (m x) as [p|] eqn:E.
    + assert (Hp : p < length c) by (apply (HB x p); cbn; auto).
      unfold oupd. destruct (Nat.ltb_spec p (length c)); [|lia]. cbn [obind].
      destruct (IH f (upd p (f x) c)) as (c' & E' & LC & H1 & H2); auto.
      { intros y q Hy Hq. rewrite upd_length. apply (HB y q); cbn; auto. }
      { intros y z q Hy Hz. apply HI; cbn; auto. }
      exists c'. split; [exact E'|]. split; [rewrite LC; apply upd_length|]. split.
      * intros y q [<-|Hy] Hq; [|now apply H1]. rewrite E in Hq. injection Hq as <-.
        rewrite H2. { rewrite nth_upd_eq by auto. reflexivity. }
        intros y Hy Hq. apply Hx. rewrite (HI x y p); cbn; auto.
      * intros q Hq. rewrite H2 by (intros y Hy; apply Hq; cbn; auto). apply nth_upd_neq. intros ->. apply (Hq x); cbn; auto.
    + destruct (IH f c) as (c' & E' & LC & H1 & H2); auto.
      { intros y q Hy Hq. apply (HB y q); cbn; auto. } { intros y z q Hy Hz. apply HI; cbn; auto. }
      exists c'. split; [exact E'|]. split; [exact LC|]. split.
      * intros y q [<-|Hy] Hq; [congruence|now apply H1].
      * intros q Hq. apply H2. intros y Hy. apply Hq. cbn; auto.
Qed.

(** ** the list of contractions *)
Definition cblock (a b : block) : block := map (joinb a b) N.
Definition mkentry (a b : block) : entry := (a, b, cblock a b, sz N (cblock a b)).
Definition row_of (a : block) (bl : list block) : list entry := map (mkentry a) (filter (matches a) bl).
Definition entries_of (al bl : list block) : list entry := flat_map (fun a => row_of a bl) al.

Lemma valid_ind is (f : I -> nat) : valid (map nblocks is) (map f is) <-> forall x, In x is -> f x < nblocks x.
Proof. rewrite <- (inrange_valid nblocks is f). reflexivity. Qed.
Lemma aval_lt a x : valid (map nblocks L) a -> In x L -> aval a x < nblocks x.
Proof.
  intros Va Hx. assert (La : length a = length L) by (rewrite (valid_length _ _ Va), map_length; auto).
  rewrite <- (a_back a La) in Va. rewrite valid_ind in Va. auto.
Qed.
Lemma bval_lt b x : valid (map nblocks Rr) b -> In x Rr -> bval b x < nblocks x.
Proof.
  intros Vb Hx. assert (Lb : length b = length Rr) by (rewrite (valid_length _ _ Vb), map_length; auto).
  rewrite <- (b_back b Lb) in Vb. rewrite valid_ind in Vb. auto.
Qed.
Lemma join_lt a b x : valid (map nblocks L) a -> valid (map nblocks Rr) b -> In x L \/ In x Rr -> joinb a b x < nblocks x.
Proof.
  intros Va Vb Hx. unfold joinb. destruct (mem x L) eqn:E.
  - apply (mem_In' ieq ieq_spec) in E. now apply aval_lt.
  - apply (mem_not ieq ieq_spec) in E. destruct Hx; [contradiction|]. now apply bval_lt.
Qed.
Lemma cblock_valid a b : valid (map nblocks L) a -> valid (map nblocks Rr) b -> valid (map nblocks N) (cblock a b).
Proof.
  intros Va Vb. unfold cblock. apply valid_ind. intros x Hx. apply in_N in Hx. apply join_lt; auto. tauto.
Qed.
Lemma idx_N_lt x : In x N -> idx N x < length N.
Proof. intros H. apply (idx_in ieq ieq_spec N x H x). Qed.

Lemma vlen is b : valid (map nblocks is) b -> length b = length is.
Proof. intros H. rewrite (valid_length _ _ H), map_length. reflexivity. Qed.

Lemma scatter_A a cb : valid (map nblocks L) a -> length cb = length N ->
  exists cb', scatter AtoC a cb = Ok cb' /\ length cb' = length N /\ forall x, In x U -> nth (idx N x) cb' 0 = aval a x.
Proof.
  intros Va Hc. destruct (scatter_spec (fun x => if mem x Rr then None else Some (idx N x)) L (aval a) cb) as (c' & E & LC & H1 & H2); auto.
  - intros x p Hx. destruct (mem x Rr) eqn:E; [discriminate|]. intros K. injection K as <-. rewrite Hc. apply idx_N_lt. apply in_N.
    apply (mem_not ieq ieq_spec) in E. tauto.
  - intros x y p Hx Hy. destruct (mem x Rr) eqn:E1; [discriminate|]. destruct (mem y Rr) eqn:E2; [discriminate|].
    intros K1 K2. injection K1 as <-. injection K2 as K2. apply (mem_not ieq ieq_spec) in E1, E2. symmetry. apply (idx_inj ieq ieq_spec N); auto; apply in_N; tauto.
  - exists c'. rewrite (a_back a (vlen L a Va)) in E. split; [exact E|]. split; [congruence|].
    intros x Hx. apply (in_only ieq ieq_spec) in Hx as [Hx1 Hx2]. apply H1; auto. rewrite (proj2 (mem_not ieq ieq_spec x Rr)); auto.
Qed.
Lemma scatter_B a b cb : valid (map nblocks Rr) b -> length cb = length N -> (forall x, In x U -> nth (idx N x) cb 0 = aval a x) ->
  scatter BtoC b cb = Ok (cblock a b).
Proof.
  intros Vb Hc HU. destruct (scatter_spec (fun x => if mem x L then None else Some (idx N x)) Rr (bval b) cb) as (c' & E & LC & H1 & H2); auto.
  - intros x p Hx. destruct (mem x L) eqn:E; [discriminate|]. intros K. injection K as <-. rewrite Hc. apply idx_N_lt. apply in_N.
    apply (mem_not ieq ieq_spec) in E. tauto.
  - intros x y p Hx Hy. destruct (mem x L) eqn:E1; [discriminate|]. destruct (mem y L) eqn:E2; [discriminate|].
    intros K1 K2. injection K1 as <-. injection K2 as K2. apply (mem_not ieq ieq_spec) in E1, E2. symmetry. apply (idx_inj ieq ieq_spec N); auto; apply in_N; tauto.
  - rewrite (b_back b (vlen Rr b Vb)) in E. fold BtoC in E. rewrite E. f_equal.
    rewrite <- (map_idx N c' nodup_N) by congruence. unfold cblock. apply map_ext_in. intros x Hx. unfold joinb. apply in_N in Hx as [[K1 K2]|[K1 K2]].
    + rewrite (proj2 (mem_In' ieq ieq_spec x L) K1). rewrite H2; [apply HU; apply (in_only ieq ieq_spec); auto|].
      intros y Hy. destruct (mem y L) eqn:EL; [discriminate|]. intros Q. injection Q as Q. apply (mem_not ieq ieq_spec) in EL.
      apply (idx_inj ieq ieq_spec N) in Q; [subst; contradiction|apply in_N; tauto|apply in_N; tauto].
    + rewrite (proj2 (mem_not ieq ieq_spec x L) K2). apply H1; auto. rewrite (proj2 (mem_not ieq ieq_spec x L) K2). reflexivity.
Qed.
Lemma cblock_U a b : forall x, In x U -> nth (idx N x) (cblock a b) 0 = aval a x.
Proof.
  intros x Hx. unfold cblock. rewrite nth_idx_map by (apply in_app_iff; auto). unfold joinb.
  apply (in_only ieq ieq_spec) in Hx as [K1 _]. rewrite (proj2 (mem_In' ieq ieq_spec x L) K1). reflexivity.
Qed.

Lemma row_spec a : valid (map nblocks L) a -> forall boffs cb, Forall (fun x => valid (map nblocks Rr) (fst x)) boffs ->
  length cb = length N -> (forall x, In x U -> nth (idx N x) cb 0 = aval a x) ->
  exists cb', row bs (abmap ieq L Rr) BtoC N a boffs cb = Ok (row_of a (map fst boffs), cb') /\ length cb' = length N.
Proof.
  intros Va. induction boffs as [|[b o] boffs IH]; intros cb HV Hc HU; cbn [row].
  - exists cb. auto.
  - inversion HV as [|? ? Vb HV']; subst. cbn [fst] in Vb.
    rewrite bmatch_spec by (apply vlen; auto). cbn [obind]. unfold row_of. cbn [map fst filter]. destruct (matches a b) eqn:EM.
    + rewrite (scatter_B a b cb) by auto. cbn [obind]. rewrite bsize_spec by (apply cblock_valid; auto). cbn [obind].
      destruct (IH (cblock a b) HV') as (cb' & E & LC); [unfold cblock; apply map_length|apply cblock_U|].
      rewrite E. cbn [obind]. exists cb'. auto.
    + destruct (IH cb HV' Hc HU) as (cb' & E & LC). exists cb'. auto.
Qed.
Lemma rows_spec boffs : Forall (fun x => valid (map nblocks Rr) (fst x)) boffs -> forall aoffs cb,
  Forall (fun x => valid (map nblocks L) (fst x)) aoffs -> length cb = length N ->
  rows bs (abmap ieq L Rr) AtoC BtoC N aoffs boffs cb = Ok (entries_of (map fst aoffs) (map fst boffs)).
Proof.
  intros HB. induction aoffs as [|[a o] aoffs IH]; intros cb HV Hc; cbn [rows map fst]; auto.
  inversion HV as [|? ? Va HV']; subst. cbn [fst] in Va.
  destruct (scatter_A a cb Va Hc) as (cb1 & E1 & L1 & H1). rewrite E1. cbn [obind].
  destruct (row_spec a Va boffs cb1 HB L1 H1) as (cb2 & E2 & L2). rewrite E2. cbn [obind]. rewrite (IH cb2 HV' L2). reflexivity.
Qed.
Lemma contracted_serial_spec {R} (A B : qd R) : stored L A -> stored Rr B ->
  contracted_serial ieq bs L Rr N A B = Ok (entries_of (map fst (offs A)) (map fst (offs B))).
Proof.
  intros HA HB. unfold contracted_serial. rewrite cmaps_spec. cbn [obind]. apply rows_spec; [apply (stored_valid bs); auto|apply (stored_valid bs); auto|apply repeat_length].
Qed.

Lemma select_spec {A} (d : A) (l : list A) : forall is, (forall i, In i is -> i < length l) -> select l is = Ok (map (fun i => nth i l d) is).
Proof.
  induction is as [|i is IH]; intros H; cbn [select map]; auto. rewrite (oget_ok d) by (apply H; left; auto). cbn [obind].
  rewrite IH by (intros; apply H; right; auto). reflexivity.
Qed.
Lemma entries_app al al' bl : entries_of (al ++ al') bl = entries_of al bl ++ entries_of al' bl.
Proof. unfold entries_of. now rewrite flat_map_app. Qed.
Lemma threads_spec {R} (A B : qd R) : stored L A -> stored Rr B -> forall sched, (forall i, In i (concat sched) -> i < length (offs A)) ->
  threads bs (abmap ieq L Rr) AtoC BtoC N A B sched =
  Ok (entries_of (map (fun i => fst (nth i (offs A) ([], 0))) (concat sched)) (map fst (offs B))).
Proof.
  intros HA HB. induction sched as [|th sched IH]; intros H; cbn [threads concat map]; auto.
  cbn [concat] in H. rewrite (select_spec (([], 0) : blof)) by (intros; apply H, in_app_iff; auto). cbn [obind].
  rewrite rows_spec; [|apply (stored_valid bs); auto| |apply repeat_length].
  - cbn [obind]. rewrite IH by (intros; apply H, in_app_iff; auto). cbn [obind]. rewrite map_app, entries_app. rewrite map_map. reflexivity.
  - pose proof (stored_valid bs L A HA) as SV. rewrite Forall_forall in *. intros x Hx. apply in_map_iff in Hx as (i & <- & Hi).
    apply SV. apply nth_In. apply H, in_app_iff. auto.
Qed.
Lemma map_nth_fst (l : list blof) : map (fun i => fst (nth i l ([], 0))) (seq 0 (length l)) = map fst l.
Proof. rewrite <- (map_map (fun i => nth i l ([], 0)) fst). now rewrite map_nth_seq. Qed.
Lemma entries_perm al al' bl : Permutation al al' -> Permutation (entries_of al bl) (entries_of al' bl).
Proof. intros H. unfold entries_of. now apply Permutation_flat_map. Qed.
Lemma contracted_omp_spec {R} (A B : qd R) sched : stored L A -> stored Rr B -> Permutation (concat sched) (seq 0 (length (offs A))) ->
  exists es, contracted_omp ieq bs sched L Rr N A B = Ok es /\ Permutation es (entries_of (map fst (offs A)) (map fst (offs B))).
Proof.
  intros HA HB HP. unfold contracted_omp. rewrite cmaps_spec. cbn [obind].
  eexists. split; [apply threads_spec; auto|].
  - intros i Hi. eapply Permutation_in in Hi; [|exact HP]. apply in_seq in Hi. lia.
  - apply entries_perm. rewrite <- (map_nth_fst (offs A)). now apply Permutation_map.
Qed.

Lemma in_entries al bl e : In e (entries_of al bl) <-> exists a b, In a al /\ In b bl /\ matches a b = true /\ e = mkentry a b.
Proof.
  unfold entries_of, row_of. rewrite in_flat_map. split.
  - intros (a & Ha & He). apply in_map_iff in He as (b & <- & Hb). apply filter_In in Hb as [Hb HM]. eauto 8.
  - intros (a & b & Ha & Hb & HM & ->). exists a. split; auto. apply in_map_iff. exists b. split; auto. apply filter_In. auto.
Qed.
Lemma entries_nodup al bl : NoDup al -> NoDup bl -> NoDup (entries_of al bl).
Proof.
  intros Ha Hb. unfold entries_of. induction Ha as [|a al Hn Ha IH]; cbn [flat_map]; [constructor|].
  apply NoDup_app_intro; auto.
  - unfold row_of. apply FinFun.Injective_map_NoDup; [|now apply NoDup_filter]. intros b b' E. unfold mkentry in E. congruence.
  - intros e H1 H2. unfold row_of in H1. apply in_map_iff in H1 as (b & <- & _). fold (entries_of al bl) in H2. apply in_entries in H2 as (a' & b' & Ha' & _ & _ & E).
    unfold mkentry in E. injection E as <- _ _ _. contradiction.
Qed.

(** ** the blocks of the result *)
Notation blt := (fun a b : blof => block_lt (fst a) (fst b)).
Lemma uniq_spec e : forall (l : list blof) (p : blof), valid e (fst p) -> Forall (fun x => valid e (fst x)) l ->
  StronglySorted (fun a b : blof => block_lt (fst b) (fst a) = false) (p :: l) ->
  StronglySorted (fun a b : blof => colmajor e (fst a) < colmajor e (fst b)) (uniq_from p l) /\
  (forall c, In c (map fst (uniq_from p l)) <-> In c (map fst (p :: l))) /\ incl (uniq_from p l) (p :: l) /\ exists t, uniq_from p l = p :: t.
Proof.
  induction l as [|x l IH]; intros p Vp HV HS; cbn [uniq_from].
  - split; [repeat constructor|]. split; [tauto|]. split; [apply incl_refl|eauto].
  - inversion HV as [|? ? Vx HV']; subst. apply StronglySorted_inv in HS as [HS HF]. inversion HF as [|? ? Hpx HF']; subst.
    destruct (block_eqb (fst p) (fst x)) eqn:E.
    + apply block_eqb_spec in E. apply StronglySorted_inv in HS as [HS' _].
      destruct (IH p Vp HV') as (S' & I' & J & K). { constructor; auto. }
      split; auto. split; [|split; auto].
      * intros c. rewrite I'. cbn [map In]. rewrite E. tauto.
      * intros y Hy. apply J in Hy as [<-|Hy]; [left; auto|right; right; auto].
    + destruct (IH x Vx HV' HS) as (S' & I' & J & t & K).
      assert (LT : forall y, In y (uniq_from x l) -> colmajor e (fst p) < colmajor e (fst y)).
      { assert (PX : colmajor e (fst p) < colmajor e (fst x)).
        { rewrite (block_lt_key e) in Hpx by auto. apply Nat.ltb_ge in Hpx. destruct (Nat.eq_dec (colmajor e (fst p)) (colmajor e (fst x))) as [Q|Q]; [|lia].
          apply key_inj in Q; auto. rewrite <- Q in E. rewrite (proj2 (block_eqb_spec _ _) eq_refl) in E. discriminate. }
        intros y Hy. rewrite K in S', Hy. apply StronglySorted_inv in S' as [_ F']. destruct Hy as [<-|Hy]; auto. rewrite Forall_forall in F'. specialize (F' y Hy). lia. }
      split; [constructor; auto; now apply Forall_forall|]. split; [|split; eauto].
      * intros c. cbn [map In]. rewrite I'. cbn [map In]. tauto.
      * intros y [<-|Hy]; [left; auto|right; auto].
Qed.
Lemma accum_spec is : forall l o, Forall (fun x => valid (map nblocks is) (fst x) /\ snd x = sz is (fst x)) l ->
  let (r, n) := accum o l in filled is o r n /\ map fst r = map fst l.
Proof.
  induction l as [|[b m] l IH]; intros o H; cbn [accum]; [split; reflexivity|].
  inversion H as [|? ? [Vb Sb] H']; subst. cbn [fst snd] in *. subst m. specialize (IH (o + sz is b) H'). destruct (accum (o + sz is b) l) as [r t].
  destruct IH as [F M]. cbn [QdSpec.filled map fst]. rewrite M. auto.
Qed.
Lemma coffsets_spec {R} (es : list entry) (st : list R) : Forall (fun e => valid (map nblocks N) (snd (fst e)) /\ snd e = sz N (snd (fst e))) es ->
  let (co, n) := coffsets srt es in
  filled N 0 co n /\ StronglySorted (keyed bs N) co /\ (forall c, In c (map fst co) <-> In c (map (fun e => snd (fst e)) es)).
Proof.
  intros HE. unfold coffsets. set (l0 := entry_bs es).
  destruct (Hsrt blof blt l0) as [HP HS].
  { intros a. apply block_lt_irr. } { intros a b c. apply block_lt_trans. } { intros a b c. apply block_lt_neg. }
  set (l := srt blof blt l0) in *.
  assert (HV0 : Forall (fun x => valid (map nblocks N) (fst x) /\ snd x = sz N (fst x)) l0).
  { unfold l0, entry_bs. rewrite Forall_forall in *. intros x Hx. apply in_map_iff in Hx as (e & <- & He). cbn [fst snd]. apply HE. exact He. }
  assert (HV : Forall (fun x => valid (map nblocks N) (fst x) /\ snd x = sz N (fst x)) l) by (eapply Permutation_Forall; eauto).
  assert (HI : forall c, In c (map fst l) <-> In c (map (fun e => snd (fst e)) es)).
  { intros c. transitivity (In c (map fst l0)).
    - split; apply Permutation_in; apply Permutation_map; [symmetry; auto|auto].
    - unfold l0, entry_bs. rewrite map_map. cbn [fst]. tauto. }
  destruct l as [|p l'] eqn:El.
  { cbn [uniq accum]. split; [reflexivity|]. split; [constructor|]. exact HI. }
  cbn [uniq]. inversion HV as [|? ? [Vp Sp] HV']; subst.
  destruct (uniq_spec (map nblocks N) l' p Vp) as (S' & I' & J & _).
  { rewrite Forall_forall in *. intros x Hx. apply HV'. exact Hx. } { exact HS. }
  pose proof (accum_spec N (uniq_from p l') 0) as AC. destruct (accum 0 (uniq_from p l')) as [co n].
  destruct AC as [F M]. { rewrite Forall_forall in *. intros x Hx. apply HV. apply J. exact Hx. }
  split; [exact F|]. split.
  - apply (sorted_to_map (fun x : blof => fst x) (bless (map nblocks N))) in S'. apply (sorted_of_map' (fun x : blof => fst x) (bless (map nblocks N))).
    change (map (fun x : blof => fst x) co) with (map fst co). rewrite M. exact S'.
  - intros c. rewrite M, I'. apply HI.
Qed.
End Entries.
