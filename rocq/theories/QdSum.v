(** A sum over index values, split into blocks. *)
From Coq Require Import List ZArith Lia Bool Arith Permutation Sorted Ring.
From Verif Require Import Util RangeModel RangeSpec RangeProofs TensorModel TensorSpec TensorProofs SemProofs
  ContractModel DenseModel DenseProofs LabelProofs QnModel QdModel QdSpec QdProofs QdAdd QdKernel QdEntries QdLoop.
Import ListNotations.
Open Scope outcome_scope.
Local Arguments Nat.sub : simpl never.

(** the first value of block i *)
Definition start (l : list nat) (i : nat) : nat := list_sum (firstn i l).
Lemma start_cons n l i : start (n :: l) (S i) = n + start l i.
Proof. reflexivity. Qed.
Lemma glue_blk : forall l v, v = start l (blk l v) + pos l v.
Proof.
  induction l as [|n l IH]; intros v; [reflexivity|]. cbn [blk pos]. destruct (Nat.ltb_spec v n).
  - reflexivity.
  - rewrite start_cons. specialize (IH (v - n)). lia.
Qed.
Lemma blk_glue : forall l i q, i < length l -> q < nth i l 0 -> blk l (start l i + q) = i /\ pos l (start l i + q) = q /\ start l i + q < list_sum l.
Proof.
  induction l as [|n l IH]; intros i q Hi Hq; [cbn in Hi; lia|]. change (list_sum (n :: l)) with (n + list_sum l). destruct i as [|i].
  - cbn [nth] in Hq. change (start (n :: l) 0) with 0. cbn [Nat.add blk pos]. destruct (Nat.ltb_spec q n); lia.
  - rewrite start_cons. cbn [nth length] in *. destruct (IH i q ltac:(lia) Hq) as (H1 & H2 & H3). cbn [blk pos].
    destruct (Nat.ltb_spec (n + start l i + q) n); [lia|]. replace (n + start l i + q - n) with (start l i + q) by lia. rewrite H1, H2. repeat split; lia.
Qed.

Lemma nodup_map_in {X Y} (f : X -> Y) : forall l, NoDup l -> (forall a b, In a l -> In b l -> f a = f b -> a = b) -> NoDup (map f l).
Proof.
  induction l as [|x l IH]; intros ND INJ; cbn [map]; [constructor|]. apply NoDup_cons_iff in ND as [Hx ND]. constructor.
  - intros K. apply in_map_iff in K as (y & E & Hy). apply Hx. rewrite (INJ x y); auto; [left|right]; auto.
  - apply IH; auto. intros. apply INJ; auto; right; auto.
Qed.

Section Sum.
Context {R : Type} (r0 r1 : R) (radd rmul : R -> R -> R).
Context (SR : semi_ring_theory r0 r1 radd rmul (@eq R)).
Add Ring RRqs : SR.
Context {I : Type} (ieq : I -> I -> bool) (ieq_spec : forall a b, ieq a b = true <-> a = b) (bs : I -> list nat).
Notation nblocks := (nblocks bs).
Notation ranged := (ranged bs).
Notation blockof := (blockof bs).
Notation qval := (qval r0 bs).
Notation total := (total bs).
Notation stored := (stored bs).
Notation proper := (proper bs).
Notation bdim := (bdim bs).
Notation inpos := (inpos bs).
Notation inblk := (inblk bs).
Notation sumn := (sumn r0 radd).
Notation sum_over := (sum_over r0 radd ieq).
Notation override := (override ieq).

Definition glue (g p : I -> nat) (x : I) : nat := start (bs x) (g x) + p x.

Lemma sumn_blocks : forall l (G : nat -> R), sumn (list_sum l) G = sumn (length l) (fun i => sumn (nth i l 0) (fun q => G (start l i + q))).
Proof.
  induction l as [|n l IH]; intros G; [reflexivity|].
  change (list_sum (n :: l)) with (n + list_sum l). rewrite (sumn_plus r0 r1 radd rmul SR). rewrite IH.
  change (length (n :: l)) with (1 + length l). rewrite (sumn_plus r0 r1 radd rmul SR 1).
  f_equal.
  - match goal with |- _ = sumn 1 ?f => change (sumn 1 f) with (radd r0 (f 0)) end. cbn [nth].
    rewrite (SRadd_0_l SR). reflexivity.
  - apply sumn_ext. intros i _. cbn [Nat.add nth]. rewrite start_cons. apply sumn_ext. intros q _. f_equal. lia.
Qed.

Lemma so_cons d x xs f s : sum_over d (x :: xs) f s = sumn (d x) (fun v => sum_over d xs f (override s x v)).
Proof. reflexivity. Qed.

Lemma so_ext_in d xs : forall F G s,
  (forall t, (forall y, ~ In y xs -> t y = s y) -> (forall y, In y xs -> t y < d y) -> F t = G t) ->
  sum_over d xs F s = sum_over d xs G s.
Proof.
  induction xs as [|x xs IH]; intros F G s H.
  - apply H; intros; auto. contradiction.
  - rewrite !so_cons. apply sumn_ext. intros v Hv. apply IH. intros t H1 H2. apply H.
    + intros y Hy. simpl in Hy. rewrite H1 by tauto. unfold TensorSpec.override.
      destruct (ieq x y) eqn:E; auto. apply ieq_spec in E. tauto.
    + intros y [<-|Hy]; auto. destruct (in_dec (ieq_dec ieq ieq_spec) x xs) as [K|K]; auto.
      rewrite H1 by auto. unfold TensorSpec.override. now rewrite (proj2 (ieq_spec x x)).
Qed.
Lemma so_dim d d' xs f : (forall x, In x xs -> d x = d' x) -> forall s, sum_over d xs f s = sum_over d' xs f s.
Proof.
  induction xs as [|x xs IH]; intros H s; auto. rewrite !so_cons, (H x) by (left; auto). apply sumn_ext. intros. apply IH. intros; apply H; right; auto.
Qed.
Lemma so_zero d xs : forall s, sum_over d xs (fun _ => r0) s = r0.
Proof. induction xs as [|x xs IH]; intros s; auto. rewrite so_cons. apply (sumn_zero r0 r1 radd rmul SR). intros; apply IH. Qed.
Lemma so_sumn d xs n : forall (h : (I -> nat) -> nat -> R) s,
  sum_over d xs (fun t => sumn n (h t)) s = sumn n (fun q => sum_over d xs (fun t => h t q) s).
Proof.
  induction xs as [|x xs IH]; intros h s; auto. rewrite so_cons. erewrite sumn_ext; [|intros; apply IH]. cbn beta.
  apply (sumn_exchange r0 r1 radd rmul SR).
Qed.

(** the sum over all values is the sum over the blocks of the sums inside the blocks *)
Lemma sum_split xs : forall f, respects f -> NoDup xs -> forall s g0 p0, (forall y, s y = glue g0 p0 y) ->
  sum_over total xs f s = sum_over nblocks xs (fun g => sum_over (bdim g) xs (fun p => f (glue g p)) p0) g0.
Proof.
  induction xs as [|x xs IH]; intros f Hf HN s g0 p0 Hs.
  - apply Hf. exact Hs.
  - apply NoDup_cons_iff in HN as [Hx HN]. rewrite !so_cons. unfold QdSpec.total at 1. rewrite sumn_blocks. apply sumn_ext. intros i Hi.
    transitivity (sum_over nblocks xs (fun g => sumn (nth i (bs x) 0) (fun v => sum_over (bdim g) xs (fun p => f (glue g p)) (override p0 x v))) (override g0 x i)).
    + rewrite so_sumn. apply sumn_ext. intros q Hq. apply (IH f Hf HN). intros y. unfold glue, TensorSpec.override.
      destruct (ieq x y) eqn:E; [apply ieq_spec in E; subst y; reflexivity|apply Hs].
    + apply so_ext_in. intros t H1 _. rewrite so_cons. unfold QdAdd.bdim at 2. rewrite H1 by exact Hx. unfold TensorSpec.override at 2.
      rewrite (proj2 (ieq_spec x x) eq_refl). reflexivity.
Qed.

Section Two.
Variables (L Rr : list I).
Hypothesis PL : proper L.
Hypothesis PR : proper Rr.
Variables (A B : qd R).
Hypothesis HA : stored L A.
Hypothesis HB : stored Rr B.
Let NL : NoDup L := proj1 PL.
Let NR : NoDup Rr := proj1 PR.
Let N := only ieq L Rr ++ only ieq Rr L.
Let com := common ieq L Rr.
Notation joinb := (joinb ieq L Rr).
Notation matches := (matches ieq L Rr).
Notation cblock := (cblock ieq L Rr).
Notation term := (term r0 radd rmul ieq bs L Rr A B).
Notation tterm := (tterm r0 radd rmul ieq bs L Rr A B).

Lemma qval_resp is (d : qd R) : respects (qval is d).
Proof.
  intros s s' E. unfold QdSpec.qval.
  assert (E1 : blockof is s = blockof is s') by (unfold QdSpec.blockof; apply map_ext; intros; now rewrite E).
  assert (E2 : placeof bs is s = placeof bs is s').
  { unfold placeof, dimsof. f_equal; apply map_ext; intros; now rewrite E. }
  rewrite E1, E2. reflexivity.
Qed.

Definition hasb (d : qd R) (b : block) : bool := if in_dec (list_eq_dec Nat.eq_dec) b (map fst (offs d)) then true else false.
Lemma hasb_iff d b : hasb d b = true <-> In b (map fst (offs d)).
Proof. unfold hasb. destruct (in_dec _ _ _); split; auto; congruence. Qed.

Lemma in_com x : In x com <-> In x L /\ In x Rr.
Proof. apply (in_common ieq ieq_spec). Qed.
Lemma N_of x : In x L \/ In x Rr -> ~ In x com -> In x N.
Proof.
  intros H K. rewrite in_com in K. apply (in_N ieq ieq_spec bs).
  destruct (in_dec (ieq_dec ieq ieq_spec) x L), (in_dec (ieq_dec ieq ieq_spec) x Rr); tauto.
Qed.
Lemma nodup_com : NoDup com.
Proof. apply NoDup_filter. exact NL. Qed.

(** one block of the sum *)
Lemma block_term g s : (forall x, In x L \/ In x Rr -> g x < nblocks x) -> ranged N s -> (forall x, ~ In x com -> g x = inblk s x) ->
  sum_over (bdim g) com (fun p => rmul (qval L A (glue g p)) (qval Rr B (glue g p))) (inpos s) =
  if hasb A (map g L) && hasb B (map g Rr) then term (map g L) (map g Rr) s else r0.
Proof.
  intros Hg Hs Hgs.
  assert (HP : forall p, (forall y, ~ In y com -> p y = inpos s y) -> (forall y, In y com -> p y < bdim g y) ->
    forall x, In x L \/ In x Rr -> blk (bs x) (glue g p x) = g x /\ pos (bs x) (glue g p x) = p x /\ glue g p x < total x).
  { intros p H1 H2 x Hx. apply blk_glue. { apply Hg. exact Hx. }
    destruct (in_dec (ieq_dec ieq ieq_spec) x com) as [K|K]; [apply H2; exact K|]. rewrite H1, Hgs by exact K. unfold QdAdd.inpos, QdAdd.inblk. apply blk_lt. apply Hs.
    apply N_of; auto. }
  destruct (hasb A (map g L) && hasb B (map g Rr)) eqn:E.
  - apply andb_true_iff in E as [E1 E2]. rewrite hasb_iff in E1, E2.
    pose proof (ofs_in bs L A _ HA E1) as O1. pose proof (ofs_in bs Rr B _ HB E2) as O2.
    assert (J : forall x, In x L \/ In x Rr -> bdim (joinb (map g L) (map g Rr)) x = bdim g x).
    { intros x Hx. unfold QdAdd.bdim. f_equal. apply (join_beta ieq ieq_spec); auto. }
    unfold QdLoop.term. fold com. rewrite (so_dim (bdim (joinb (map g L) (map g Rr))) (bdim g)).
    2:{ intros x Hx. apply J. left. now apply in_com in Hx. }
    apply so_ext_in. intros p H1 H2. pose proof (HP p H1 H2) as HX. f_equal.
    + rewrite (qval_seg r0 bs L A g _ (glue g p) HA O1).
      * unfold elt. f_equal. f_equal; apply map_ext_in; intros x Hx; [symmetry; apply J; auto|]. apply HX; auto.
      * intros x Hx. apply HX; auto.
      * apply map_ext_in. intros x Hx. apply HX; auto.
    + rewrite (qval_seg r0 bs Rr B g _ (glue g p) HB O2).
      * unfold elt. f_equal. f_equal; apply map_ext_in; intros x Hx; [symmetry; apply J; auto|]. apply HX; auto.
      * intros x Hx. apply HX; auto.
      * apply map_ext_in. intros x Hx. apply HX; auto.
  - transitivity (sum_over (bdim g) com (fun _ => r0) (inpos s)); [|apply so_zero]. apply so_ext_in. intros p H1 H2. pose proof (HP p H1 H2) as HX.
    assert (EL : blockof L (glue g p) = map g L) by (apply map_ext_in; intros x Hx; apply HX; auto).
    assert (ER : blockof Rr (glue g p) = map g Rr) by (apply map_ext_in; intros x Hx; apply HX; auto).
    apply andb_false_iff in E as [E|E].
    + rewrite qval_notin; [ring|]. rewrite EL. intros K. apply hasb_iff in K. congruence.
    + rewrite (qval_notin r0 bs Rr); [ring|]. rewrite ER. intros K. apply hasb_iff in K. congruence.
Qed.

Lemma sumn_lsm n f : sumn n f = lsm r0 radd (seq 0 n) f.
Proof.
  induction n as [|n IH]; [reflexivity|]. rewrite seq_S. rewrite (lsm_app r0 r1 radd rmul SR). cbn [TensorModel.sumn]. rewrite IH. unfold lsm at 3. cbn [fold_right Nat.add]. ring.
Qed.

(** the product of the whole tensors is the sum of the pairs of matching blocks *)
Lemma product_sum s : ranged N s ->
  sum_over total com (fun t => rmul (qval L A t) (qval Rr B t)) s =
  lsm r0 radd (filter (sameC (blockof N s)) (map fst (entries_of ieq bs L Rr (map fst (offs A)) (map fst (offs B))))) (tterm s).
Proof.
  intros Hs.
  assert (PC : forall x, In x com -> 0 < nblocks x).
  { intros x Hx. apply in_com in Hx. destruct (proj2 PL x (proj1 Hx)) as [K _]. unfold QdSpec.nblocks. destruct (bs x); [congruence|cbn; lia]. }
  rewrite (sum_split com _) with (g0 := inblk s) (p0 := inpos s).
  2:{ intros t t' E. f_equal; apply qval_resp; exact E. } 2:{ apply nodup_com. } 2:{ intros y. apply glue_blk. }
  set (F := fun g => if hasb A (map g L) && hasb B (map g Rr) then term (map g L) (map g Rr) s else r0).
  transitivity (sum_over nblocks com F (inblk s)).
  { apply so_ext_in. intros g H1 H2. unfold F. apply block_term; auto.
    intros x Hx. destruct (in_dec (ieq_dec ieq ieq_spec) x com) as [K|K]; [apply H2; exact K|]. rewrite H1 by exact K.
    unfold QdAdd.inblk. apply blk_lt. apply Hs. apply N_of; auto. }
  rewrite <- (sum_over_assign r0 r1 radd rmul SR ieq nblocks com F (inblk s) PC). rewrite sumn_lsm.
  set (gm := fun k => assign ieq com (decode (map nblocks com) k) (inblk s)).
  set (n := size (map nblocks com)).
  set (P := fun k => hasb A (map (gm k) L) && hasb B (map (gm k) Rr)).
  transitivity (lsm r0 radd (map (fun k => (map (gm k) L, map (gm k) Rr, map (gm k) N)) (filter P (seq 0 n))) (tterm s)).
  { rewrite lsm_map. rewrite (lsm_filter r0 r1 radd rmul SR). reflexivity. }
  apply (lsm_perm r0 r1 radd rmul SR).
  assert (Hgm : forall k, In k (seq 0 n) -> map (gm k) com = decode (map nblocks com) k).
  { intros k Hk. unfold gm. apply (assign_map ieq nblocks ieq_spec); [apply nodup_com|]. rewrite decode_length, map_length. reflexivity. }
  assert (Hgo : forall k x, ~ In x com -> gm k x = inblk s x) by (intros k x Hx; apply (assign_other ieq nblocks ieq_spec); auto).
  apply NoDup_Permutation.
  - assert (ND : NoDup (filter P (seq 0 n))) by (apply NoDup_filter, seq_NoDup).
    assert (INJ : forall k k', In k (filter P (seq 0 n)) -> In k' (filter P (seq 0 n)) -> map (gm k) L = map (gm k') L -> k = k').
    { intros k k' Hk Hk' E. apply filter_In in Hk as [Hk _]. apply filter_In in Hk' as [Hk' _].
      assert (E2 : decode (map nblocks com) k = decode (map nblocks com) k').
      { rewrite <- !Hgm by auto. apply map_ext_in. intros x Hx. apply (map_eq_in _ _ _ E). now apply in_com in Hx. }
      apply in_seq in Hk, Hk'. rewrite <- (enc_decode (map nblocks com) k), <- (enc_decode (map nblocks com) k') by (unfold n in *; lia). now rewrite E2. }
    apply nodup_map_in; auto. intros k k' Hk Hk' E. injection E as E1 E2 E3. apply INJ; auto.
  - apply NoDup_filter. apply nodup_map_in; [|intros e e' He He' E].
    2:{ apply in_entries in He as (a & b & _ & _ & _ & ->). apply in_entries in He' as (a' & b' & _ & _ & _ & ->).
      unfold mkentry in *. cbn [fst] in E. injection E as -> -> _. reflexivity. }
    apply entries_nodup; [apply (stored_nodup bs L); auto|apply (stored_nodup bs Rr); auto].
  - intros t. rewrite in_map_iff, filter_In, in_map_iff. split.
    + intros (k & <- & Hk). apply filter_In in Hk as [Hk HP]. unfold P in HP. apply andb_true_iff in HP as [E1 E2]. rewrite hasb_iff in E1, E2.
      assert (EC : cblock (map (gm k) L) (map (gm k) Rr) = map (gm k) N).
      { unfold QdEntries.cblock. apply map_ext_in. intros x Hx. apply (join_beta ieq ieq_spec). apply (in_N ieq ieq_spec bs) in Hx. tauto. }
      split.
      * exists (mkentry ieq bs L Rr (map (gm k) L) (map (gm k) Rr)). split; [unfold mkentry; cbn [fst]; rewrite EC; reflexivity|].
        apply in_entries. exists (map (gm k) L), (map (gm k) Rr). repeat split; auto.
        apply (matches_iff ieq ieq_spec L Rr NL NR); [now rewrite map_length|now rewrite map_length|eauto].
      * apply sameC_iff. cbn [snd]. unfold QdSpec.blockof. apply map_ext_in. intros x Hx. apply Hgo. rewrite in_com. apply (in_N ieq ieq_spec bs) in Hx. tauto.
    + intros [(e & <- & He) HC]. apply in_entries in He as (a & b & Ha & Hb & HM & ->). unfold mkentry in *. cbn [fst snd] in *. apply sameC_iff in HC. cbn [snd] in HC.
      assert (Va : valid (map nblocks L) a) by (apply in_fst in Ha as (o & Ha); apply (stored_bound bs _ _ _ _ HA Ha)).
      assert (Vb : valid (map nblocks Rr) b) by (apply in_fst in Hb as (o & Hb); apply (stored_bound bs _ _ _ _ HB Hb)).
      pose proof (vlen bs L a Va) as La. pose proof (vlen bs Rr b Vb) as Lb.
      set (j := joinb a b).
      assert (Ea : map j L = a) by (apply (join_L ieq ieq_spec L Rr NL); auto).
      assert (Eb : map j Rr = b) by (apply (join_R ieq ieq_spec L Rr NR); auto).
      assert (Vj : valid (map nblocks com) (map j com)).
      { apply valid_ind. intros x Hx. apply in_com in Hx. apply (join_lt ieq ieq_spec bs L Rr NL NR a b); tauto. }
      set (k := enc (map nblocks com) (map j com)).
      assert (Hk : In k (seq 0 n)) by (apply in_seq; split; [lia|]; cbn [Nat.add]; apply enc_lt; exact Vj).
      assert (EG : forall x, In x L \/ In x Rr -> gm k x = j x).
      { intros x Hx. destruct (in_dec (ieq_dec ieq ieq_spec) x com) as [K|K].
        - pose proof (Hgm k Hk) as E. unfold k in E at 2. rewrite decode_enc in E by exact Vj. apply (map_eq_in _ _ _ E x K).
        - rewrite Hgo by exact K. unfold QdEntries.cblock, QdSpec.blockof in HC. symmetry. fold j in HC.
          apply (map_eq_in _ _ _ HC x). apply N_of; auto. }
      assert (GL : map (gm k) L = a) by (rewrite <- Ea; apply map_ext_in; auto).
      assert (GR : map (gm k) Rr = b) by (rewrite <- Eb; apply map_ext_in; auto).
      assert (GN : map (gm k) N = cblock a b) by (apply map_ext_in; intros x Hx; apply EG; apply (in_N ieq ieq_spec bs) in Hx; tauto).
      exists k. split; [rewrite GL, GR, GN; reflexivity|]. apply filter_In. split; auto. unfold P. rewrite GL, GR. apply andb_true_iff. rewrite !hasb_iff. auto.
Qed.
End Two.
End Sum.
