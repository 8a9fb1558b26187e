(** A product of tensors, multiplied from left to right, is the sum over all shared indices of the
    product of their elements. *)
From Coq Require Import List Arith Bool Lia Permutation Ring.
From Verif Require Import Util RangeModel RangeSpec RangeProofs TensorModel TensorSpec TensorProofs SemProofs BigSum InnerModel InnerSpec.
Import ListNotations.

Lemma ix_eqb_spec a b : ix_eqb a b = true <-> a = b.
Proof.
  unfold ix_eqb. rewrite !andb_true_iff, !Nat.eqb_eq. destruct a, b; cbn. split; [intros [[-> ->] ->]; reflexivity|intros E; inversion E; auto].
Qed.
Definition ix_dec (a b : ix) : {a = b} + {a <> b}.
Proof. destruct (ix_eqb a b) eqn:E; [left|right]. - now apply ix_eqb_spec. - intros H. apply ix_eqb_spec in H. congruence. Defined.
Lemma has_In l x : has l x = true <-> In x l.
Proof.
  unfold has. rewrite existsb_exists. split. - intros (y & H & E). apply ix_eqb_spec in E. now subst.
  - intros H. exists x. split; auto. now apply ix_eqb_spec.
Qed.
Lemma mem_In l x : mem ix_eqb x l = true <-> In x l.
Proof. exact (has_In l x). Qed.
Lemma common_In A B x : In x (common ix_eqb A B) <-> In x A /\ In x B.
Proof. unfold common. rewrite filter_In, mem_In. tauto. Qed.
Lemma only_In A B x : In x (only ix_eqb A B) <-> In x A /\ ~ In x B.
Proof. unfold only. rewrite filter_In, negb_true_iff, <- not_true_iff_false, mem_In. tauto. Qed.

Section Net.
Context {R : Type} (r0 r1 : R) (radd rmul rsub : R -> R -> R) (ropp : R -> R).
Context (RT : ring_theory r0 r1 radd rmul rsub ropp eq).
Add Ring RRnt : RT.
Notation nt := (nt R).
Notation sum_over := (sum_over r0 radd ix_eqb ixdim).
Notation tmul := (tmul r0 radd rmul).
Notation tmuls := (tmuls r0 radd rmul).
Notation prod := (prod r1 rmul).
Notation "x + y" := (radd x y). Notation "x * y" := (rmul x y).

Lemma SRT : semi_ring_theory r0 r1 radd rmul eq.
Proof. constructor; intros; ring. Qed.

(** g depends only on the values at D. *)
Definition dep (D : list ix) (g : (ix -> nat) -> R) : Prop := forall s t, (forall x, In x D -> s x = t x) -> g s = g t.
Lemma dep_respects D g : dep D g -> respects g.
Proof. intros H s t E. apply H. auto. Qed.
Lemma dep_incl D D' g : incl D D' -> dep D g -> dep D' g.
Proof. intros I H s t E. apply H. auto. Qed.
Lemma dep_mul D g h : dep D g -> dep D h -> dep D (fun s => g s * h s).
Proof. intros H1 H2 s t E. rewrite (H1 s t E), (H2 s t E). reflexivity. Qed.

Lemma sb_ext n f g : (forall i, i < n -> f i = g i) -> sum_below r0 radd n f = sum_below r0 radd n g.
Proof. induction n as [|n IH]; intros H; cbn [sum_below]; auto. rewrite IH by (intros; apply H; lia). now rewrite H by lia. Qed.
Lemma sb_mul_r n f k : sum_below r0 radd n f * k = sum_below r0 radd n (fun i => f i * k).
Proof. induction n as [|n IH]; cbn [sum_below]; [ring|]. rewrite <- IH. ring. Qed.
Lemma sb_bsum n f : sum_below r0 radd n f = bsum r0 radd n f.
Proof. induction n as [|n IH]; cbn; [reflexivity|]. now rewrite ?IH. Qed.

Lemma ov_same s x v : override ix_eqb s x v x = v.
Proof. unfold override. now rewrite (proj2 (ix_eqb_spec x x) eq_refl). Qed.
Lemma ov_other s x v y : x <> y -> override ix_eqb s x v y = s y.
Proof. intros H. unfold override. destruct (ix_eqb x y) eqn:E; auto. apply ix_eqb_spec in E. contradiction. Qed.

Lemma dep_sum xs : forall D D' g, dep D g -> (forall x, In x D -> In x xs \/ In x D') -> dep D' (sum_over xs g).
Proof.
  induction xs as [|x xs IH]; intros D D' g H I s t E; cbn [TensorSpec.sum_over].
  - apply H. intros y Hy. apply E. destruct (I y Hy) as [[]|]; auto.
  - apply sb_ext. intros v _. apply (IH D (x :: D') g H).
    + intros y Hy. destruct (I y Hy) as [[->|?]|?]; [right; left; auto|left; auto|right; right; auto].
    + intros y [->|Hy]; [now rewrite !ov_same|]. unfold override. destruct (ix_eqb x y); auto.
Qed.
Lemma sum_ext_in xs : forall g h s, (forall t, (forall y, ~ In y xs -> t y = s y) -> (forall y, In y xs -> t y < ixdim y) -> g t = h t) ->
  sum_over xs g s = sum_over xs h s.
Proof.
  induction xs as [|x xs IH]; intros g h s H; cbn [TensorSpec.sum_over]; [apply H; intros; [reflexivity|easy]|].
  apply sb_ext. intros v Hv. apply IH. intros t H1 H2. apply H.
  - intros y Hy. rewrite H1 by (intros K; apply Hy; right; auto). apply ov_other. intros ->. apply Hy. left; auto.
  - intros y [->|Hy]; [|auto]. destruct (in_dec ix_dec y xs) as [K|K]; [auto|]. rewrite (H1 y K), ov_same. exact Hv.
Qed.
Lemma sum_mul_r xs : forall E g h s, dep E h -> (forall x, In x xs -> ~ In x E) ->
  sum_over xs (fun t => g t * h t) s = sum_over xs g s * h s.
Proof.
  induction xs as [|x xs IH]; intros E g h s H D; cbn [TensorSpec.sum_over]; auto.
  rewrite sb_mul_r. apply sb_ext. intros v _. rewrite (IH E) by (auto; intros; apply D; right; auto). f_equal.
  apply H. intros y Hy. apply ov_other. intros ->. apply (D y); [left|]; auto.
Qed.
Lemma sum_mul_l xs E g h s : dep E h -> (forall x, In x xs -> ~ In x E) ->
  sum_over xs (fun t => h t * g t) s = h s * sum_over xs g s.
Proof.
  intros H D. transitivity (sum_over xs (fun t => g t * h t) s).
  - apply sum_ext_in. intros. ring. - rewrite (sum_mul_r xs E) by auto. ring.
Qed.
Lemma sum_perm xs ys D g s : dep D g -> Permutation xs ys -> NoDup xs -> sum_over xs g s = sum_over ys g s.
Proof. intros H P N. apply (sum_over_perm r0 r1 radd rmul SRT ix_eqb ixdim ix_eqb_spec); auto. now apply (dep_respects D). Qed.
Lemma sum_app xs ys g s : sum_over (xs ++ ys) g s = sum_over xs (sum_over ys g) s.
Proof. revert s; induction xs as [|x xs IH]; intros s; cbn [TensorSpec.sum_over app]; auto. apply sb_ext. intros; apply IH. Qed.

(** ** Products of tensors *)
Definition cnt (ts : list nt) (x : ix) : nat := count_occ ix_dec (concat (map nis ts)) x.
Lemma cnt_snoc ts t x : cnt (ts ++ [t]) x = (cnt ts x + count_occ ix_dec (nis t) x)%nat.
Proof. unfold cnt. rewrite map_app, concat_app, count_occ_app. cbn. now rewrite app_nil_r. Qed.
Lemma count_nodup l x : NoDup l -> count_occ ix_dec l x = if in_dec ix_dec x l then 1 else 0.
Proof.
  intros H. destruct (in_dec ix_dec x l) as [K|K]. - now apply (proj1 (NoDup_count_occ' ix_dec l) H). - now apply count_occ_not_In.
Qed.
Lemma prod_nil s : prod [] s = r1.
Proof. reflexivity. Qed.
Lemma prod_cons t a s : prod (t :: a) s = nel t s * prod a s.
Proof. reflexivity. Qed.
Lemma prod_app a b s : prod (a ++ b) s = prod a s * prod b s.
Proof. induction a as [|t a IH]; cbn [app]. - rewrite prod_nil. ring. - rewrite !prod_cons, IH. ring. Qed.
Lemma prod_dep ts D : (forall t, In t ts -> proper t) -> (forall t x, In t ts -> In x (nis t) -> In x D) -> dep D (prod ts).
Proof.
  intros H1 H2 s t E. induction ts as [|a ts IH]; [reflexivity|]. rewrite !prod_cons. f_equal.
  - apply H1; [left; auto|]. intros x Hx. apply E. apply (H2 a); [left|]; auto.
  - apply IH; intros; [apply H1|eapply H2]; eauto; right; auto.
Qed.

Lemma tmul_proper A B : proper A -> proper B -> proper (tmul A B).
Proof.
  intros HA HB. unfold proper. change (dep (nis (tmul A B)) (nel (tmul A B))). cbn [nel nis tmul].
  apply (dep_sum _ (nis A ++ nis B)).
  - intros s t E. cbn beta. f_equal; [apply HA|apply HB]; intros; apply E; apply in_or_app; auto.
  - intros x Hx. rewrite common_In, in_app_iff, !only_In. apply in_app_or in Hx.
    destruct (in_dec ix_dec x (nis A)), (in_dec ix_dec x (nis B)); tauto.
Qed.
Lemma NoDup_app_iff {A} (l m : list A) : NoDup (l ++ m) <-> NoDup l /\ NoDup m /\ (forall x, In x l -> ~ In x m).
Proof.
  induction l as [|a l IH]; cbn.
  - split; [intros H; repeat split; auto; constructor|tauto].
  - rewrite !NoDup_cons_iff, IH, in_app_iff. split.
    + intros (H1 & H2 & H3 & H4). repeat split; auto. intros x [<-|Hx]; auto.
    + intros ((H1 & H2) & H3 & H4). repeat split; auto. intros [K|K]; [auto|]. apply (H4 a); auto.
Qed.

Lemma net_step ts t0 : (forall t, In t (t0 :: ts) -> proper t /\ NoDup (nis t)) -> (forall x, cnt (t0 :: ts) x <= 2) ->
  let T := tmuls t0 ts in
  proper T /\ NoDup (nis T) /\ (forall x, In x (nis T) <-> cnt (t0 :: ts) x = 1) /\
  exists D, NoDup D /\ (forall x, In x D <-> cnt (t0 :: ts) x = 2) /\ forall s, nel T s = sum_over D (prod (t0 :: ts)) s.
Proof.
  induction ts as [|t ts IH] using rev_ind; intros HP HC; cbv zeta.
  - cbn [InnerModel.tmuls fold_left]. destruct (HP t0 ltac:(left; auto)) as [P0 N0]. split; [exact P0|]. split; [exact N0|].
    assert (C : forall x, cnt [t0] x = if in_dec ix_dec x (nis t0) then 1 else 0).
    { intros x. unfold cnt. cbn. rewrite app_nil_r. now apply count_nodup. }
    split; [intros x; rewrite C; destruct (in_dec ix_dec x (nis t0)); split; intros; try easy|].
    exists []. split; [constructor|]. split; [intros x; rewrite C; destruct (in_dec ix_dec x (nis t0)); split; intros; try easy|].
    intros s. cbn [TensorSpec.sum_over]. rewrite prod_cons, prod_nil. ring.
  - assert (HP' : forall t', In t' (t0 :: ts) -> proper t' /\ NoDup (nis t')).
    { intros t' Ht. apply HP. rewrite app_comm_cons. apply in_or_app; auto. }
    destruct (HP t ltac:(rewrite app_comm_cons; apply in_or_app; right; left; auto)) as [Pt Nt].
    assert (C : forall x, cnt (t0 :: ts ++ [t]) x = (cnt (t0 :: ts) x + if in_dec ix_dec x (nis t) then 1 else 0)%nat).
    { intros x. rewrite app_comm_cons, cnt_snoc. now rewrite count_nodup. }
    assert (HC' : forall x, cnt (t0 :: ts) x <= 2) by (intros x; specialize (HC x); rewrite C in HC; lia).
    destruct (IH HP' HC') as (P & N & O & D & ND & HD & V). clear IH.
    unfold InnerModel.tmuls in *. rewrite fold_left_app. cbn [fold_left]. set (L := fold_left tmul ts t0) in *.
    split; [now apply tmul_proper|].
    split; [|split].
    + cbn [nis tmul]. apply NoDup_app_iff. split; [now apply NoDup_filter|]. split; [now apply NoDup_filter|].
      intros x. rewrite !only_In. tauto.
    + intros x. cbn [nis tmul]. rewrite in_app_iff, !only_In, C. specialize (HC x). rewrite C in HC. specialize (O x).
      destruct (in_dec ix_dec x (nis t)) as [K|K].
      * split; [intros [[? ?]|[_ ?]]; [contradiction|]|intros; right; split; auto; rewrite O; lia].
        assert (cnt (t0 :: ts) x <> 1) by (rewrite <- O; auto). lia.
      * rewrite Nat.add_0_r, <- O. tauto.
    + exists (common ix_eqb (nis L) (nis t) ++ D). split; [|split].
      * apply NoDup_app_iff. split; [now apply NoDup_filter|]. split; [exact ND|].
        intros x Hx. apply common_In in Hx. destruct Hx as [Hx _]. apply O in Hx. rewrite HD. lia.
      * intros x. rewrite in_app_iff, common_In, HD, C. specialize (HC x). rewrite C in HC. specialize (O x).
        destruct (in_dec ix_dec x (nis t)) as [K|K]; rewrite O; split.
        -- intros [[? _]|?]; lia. -- intros; left; split; [lia|auto]. -- intros [[_ ?]|?]; [contradiction|lia]. -- intros; right; lia.
      * intros s. cbn [nel tmul]. rewrite sum_app. apply sum_ext_in. intros u _ _. rewrite V.
        rewrite app_comm_cons.
        transitivity (sum_over D (fun u => prod (t0 :: ts) u * nel t u) u).
        -- symmetry. apply (sum_mul_r D (nis t)); [exact Pt|]. intros x Hx K. apply HD in Hx. specialize (HC x). rewrite C in HC.
           destruct (in_dec ix_dec x (nis t)); [lia|contradiction].
        -- apply sum_ext_in. intros w _ _. rewrite prod_app, (prod_cons t), prod_nil. ring.
Qed.

(** Every index of the tensors occurs once (in O) or twice (in D). *)
Theorem net_product t0 ts D O : (forall t, In t (t0 :: ts) -> proper t /\ NoDup (nis t)) ->
  Permutation (concat (map nis (t0 :: ts))) (D ++ D ++ O) -> NoDup (D ++ O) ->
  Permutation (nis (tmuls t0 ts)) O /\ forall s, nel (tmuls t0 ts) s = sum_over D (prod (t0 :: ts)) s.
Proof.
  intros HP HC HN. apply NoDup_app_iff in HN. destruct HN as (ND & NO & DO).
  assert (C : forall x, cnt (t0 :: ts) x = ((if in_dec ix_dec x D then 2 else 0) + if in_dec ix_dec x O then 1 else 0)%nat).
  { intros x. unfold cnt. rewrite (proj1 (Permutation_count_occ ix_dec _ _) HC), !count_occ_app, !count_nodup by auto.
    destruct (in_dec ix_dec x D); lia. }
  destruct (net_step ts t0 HP) as (P & N & HO & D' & ND' & HD & V).
  { intros x. rewrite C. specialize (DO x). destruct (in_dec ix_dec x D), (in_dec ix_dec x O); lia || tauto. }
  split.
  - apply NoDup_Permutation; auto. intros x. rewrite HO, C. specialize (DO x). destruct (in_dec ix_dec x D), (in_dec ix_dec x O); split; intros; try easy; tauto.
  - intros s. rewrite V. apply (sum_perm _ _ (D ++ O)).
    + apply prod_dep. { intros t Ht. now apply HP. } intros t x Ht Hx.
      assert (I : In x (D ++ D ++ O)) by (eapply Permutation_in; [exact HC|]; apply in_concat; exists (nis t); split; auto; now apply in_map).
      rewrite !in_app_iff in *. tauto.
    + apply NoDup_Permutation; auto. intros x. rewrite HD, C. specialize (DO x). destruct (in_dec ix_dec x D), (in_dec ix_dec x O); split; intros; try easy; tauto.
    + exact ND'.
Qed.

(** ** Renaming *)
Lemma sum_rename f xs : forall E h s, dep E h -> incl xs E -> (forall x y, In x E -> In y E -> f x = f y -> x = y) ->
  (forall x, In x xs -> ixdim (f x) = ixdim x) ->
  sum_over (map f xs) (fun u => h (fun x => u (f x))) s = sum_over xs h (fun x => s (f x)).
Proof.
  induction xs as [|x xs IH]; intros E h s H I J K; cbn [TensorSpec.sum_over map]; auto.
  rewrite K by (left; auto). apply sb_ext. intros v _.
  assert (I' : incl xs E) by (intros y Hy; apply I; right; auto).
  assert (K' : forall y, In y xs -> ixdim (f y) = ixdim y) by (intros y Hy; apply K; right; auto).
  rewrite (IH E h _ H I' J K').
  apply (dep_sum xs E E h H); [auto|]. intros y Hy. unfold override.
  destruct (ix_eqb x y) eqn:E1.
  - apply ix_eqb_spec in E1. subst. now rewrite (proj2 (ix_eqb_spec _ _) eq_refl).
  - destruct (ix_eqb (f x) (f y)) eqn:E2; auto. apply ix_eqb_spec in E2. apply J in E2; [|apply I; left; auto|auto].
    subst. rewrite (proj2 (ix_eqb_spec _ _) eq_refl) in E1. discriminate.
Qed.

(** ** Configurations *)
Lemma sum_csum xs : forall g s, sum_over xs g s = csum r0 radd (map ixdim xs) (fun c => g (assign ix_eqb xs c s)).
Proof.
  induction xs as [|x xs IH]; intros g s; cbn [TensorSpec.sum_over map csum]; auto. rewrite sb_bsum.
  apply (bsum_ext r0 radd). intros v _. rewrite IH. reflexivity.
Qed.
Lemma values_nth xs : forall c i d, NoDup xs -> i < length xs -> length c = length xs -> values xs c (nth i xs d) = nth i c 0.
Proof.
  induction xs as [|x xs IH]; intros c i d N Hi L; cbn in *; [lia|]. destruct c as [|v c]; [discriminate|]. inversion N; subst. destruct i as [|i].
  - now rewrite (proj2 (ix_eqb_spec x x) eq_refl).
  - cbn [nth]. destruct (ix_eqb x (nth i xs d)) eqn:E.
    + exfalso. apply ix_eqb_spec in E. apply H1. rewrite E. apply nth_In. lia.
    + apply IH; auto; lia.
Qed.
Lemma values_assign xs c s x : NoDup xs -> length c = length xs -> In x xs -> assign ix_eqb xs c s x = values xs c x.
Proof.
  intros N L Hx. apply (In_nth _ _ x) in Hx. destruct Hx as (i & Hi & E). rewrite <- E at 2. rewrite values_nth by auto.
  pose proof (assign_map ix_eqb ixdim ix_eqb_spec xs c s N L) as M. apply (f_equal (fun l => nth i l 0)) in M.
  rewrite (nth_indep _ 0 (assign ix_eqb xs c s x)) in M by now rewrite map_length. rewrite map_nth, E in M. exact M.
Qed.
Lemma conf_length c dims : Forall2 lt c dims -> length c = length dims.
Proof. intros H. induction H; cbn; auto. Qed.
Lemma over_sum xs g s : NoDup xs -> dep xs g -> over r0 radd xs (fun c => g (values xs c)) = sum_over xs g s.
Proof.
  intros N H. rewrite sum_csum. unfold over. apply (csum_ext r0 radd). intros c Hc. apply H. intros x Hx. symmetry. apply values_assign; auto.
  apply conf_length in Hc. now rewrite map_length in Hc.
Qed.
End Net.
