(** Element-level meaning of permuted copies, matrix products and sums. *)
From Coq Require Import List ZArith Lia Bool Arith Permutation Ring Setoid.
From Verif Require Import Util RangeModel RangeSpec RangeProofs TensorModel TensorSpec TensorProofs.
Import ListNotations.

Local Arguments Nat.sub : simpl never.
Local Arguments Nat.div : simpl never.
Local Arguments Nat.modulo : simpl never.

Lemma colmajor_enc e t : colmajor e t = enc e t.
Proof. revert t; induction e as [|d e IH]; intros [|i t]; simpl; auto. Qed.

Lemma enc_app e1 t1 e2 t2 : length t1 = length e1 -> enc (e1 ++ e2) (t1 ++ t2) = enc e1 t1 + size e1 * enc e2 t2.
Proof.
  revert t1; induction e1 as [|d e1 IH]; intros [|i t1] H; simpl in *; try lia.
  rewrite IH by lia. nia.
Qed.

Lemma size_app e1 e2 : size (e1 ++ e2) = size e1 * size e2.
Proof. induction e1 as [|d e1 IH]; simpl; [lia|]. rewrite IH. nia. Qed.

Lemma size_fold e : size e = fold_right Nat.mul 1 e.
Proof. induction e; simpl; auto. Qed.

Lemma valid_app e1 e2 t1 t2 : valid e1 t1 -> valid e2 t2 -> valid (e1 ++ e2) (t1 ++ t2).
Proof. intros H1 H2; induction H1; simpl; auto. constructor; auto. Qed.

Lemma dot_range_init e t : length t = length e -> dot (range_init e) t = enc e t.
Proof. intros H. unfold range_init. rewrite dot_with_strides by auto. lia. Qed.

(** ** permuting positions *)
Lemma map_nth_seq {T} (d : T) l : map (fun j => nth j l d) (seq 0 (length l)) = l.
Proof.
  induction l as [|x l IH]; simpl; auto. f_equal. rewrite <- seq_shift, map_map. exact IH.
Qed.

Lemma is_perm_Permutation n P : is_perm n P -> Permutation P (seq 0 n).
Proof.
  intros HP. apply NoDup_Permutation; [now apply (is_perm_nodup n)|apply seq_NoDup|].
  destruct HP as (HL & HB & HI). intros x. rewrite in_seq. split.
  - intros H. apply (In_nth _ _ 0) in H as (i & Hi & <-). specialize (HB i ltac:(lia)). lia.
  - intros H. destruct (is_perm_surj n P x (conj HL (conj HB HI)) ltac:(lia)) as (i & Hi & <-).
    apply nth_In. lia.
Qed.

(** [X] is [Y] read through [P]: X[i] = Y[P i]. *)
Definition through {T} (P : list nat) (d : T) (Y : list T) : list T := map (fun j => nth j Y d) P.

Lemma nth_through {T} P (d d' : T) Y i : i < length P -> nth i (through P d Y) d' = nth (nth i P 0) Y d.
Proof.
  unfold through. revert i; induction P as [|p P IH]; intros [|i] H; simpl in *; try lia; auto. apply IH; lia.
Qed.

Lemma through_perm {T} (d : T) n P Y : is_perm n P -> length Y = n -> Permutation (through P d Y) Y.
Proof.
  intros HP HL. unfold through. transitivity (map (fun j => nth j Y d) (seq 0 n)).
  - apply Permutation_map. now apply is_perm_Permutation.
  - rewrite <- HL, map_nth_seq. reflexivity.
Qed.

Lemma combine_through {A B} (a : A) (b : B) n P X Y : is_perm n P -> length X = n -> length Y = n ->
  combine (through P a X) (through P b Y) = through P (a, b) (combine X Y).
Proof.
  intros (HL & HB & _) HX HY. unfold through.
  assert (K : forall Q, (forall j, In j Q -> j < n) ->
     combine (map (fun j => nth j X a) Q) (map (fun j => nth j Y b) Q) = map (fun j => nth j (combine X Y) (a, b)) Q).
  { induction Q as [|j Q IH]; intros HQ; simpl; auto. f_equal.
    - rewrite combine_nth by lia. reflexivity.
    - apply IH. intros; apply HQ; simpl; auto. }
  apply K. intros j Hj. apply (In_nth _ _ 0) in Hj as (i & Hi & <-). apply HB; lia.
Qed.

Definition dsum (l : list (indstr * nat)) : nat := fold_right (fun p a => str (fst p) * snd p + a) 0 l.

Lemma dot_dsum r t : dot r t = dsum (combine r t).
Proof. revert t; induction r as [|x r IH]; intros [|i t]; simpl; auto. Qed.

Lemma dsum_perm l l' : Permutation l l' -> dsum l = dsum l'.
Proof. unfold dsum. intros H; induction H; simpl; lia. Qed.

Lemma dot_through n P (r : range) t : is_perm n P -> length r = n -> length t = n ->
  dot (through P (IS 0 0) r) (through P 0 t) = dot r t.
Proof.
  intros HP Hr Ht. rewrite !dot_dsum. apply dsum_perm. rewrite (combine_through _ _ n) by auto.
  apply (through_perm _ n); auto. rewrite combine_length. lia.
Qed.

Lemma permute_loop_through {T} (d : T) n P (from init : list T) : is_perm n P -> length from = n -> length init = n ->
  exists to, permute_loop P from init = Ok to /\ length to = n /\ from = through P d to.
Proof.
  intros HP HF HI0. pose proof (is_perm_nodup n P HP) as HN. destruct HP as (HL & HB & HI).
  destruct (permute_loop_spec d P from init) as (to & E & HLt & HA & _); auto; try lia.
  { intros x Hx. apply (In_nth _ _ 0) in Hx as (i & Hi & <-). specialize (HB i ltac:(lia)). lia. }
  exists to. split; [exact E|]. split; [lia|].
  apply (nth_ext _ _ d d).
  { unfold through. rewrite map_length. lia. }
  intros i Hi. rewrite nth_through by lia. symmetry. apply HA. lia.
Qed.

Lemma through_length {T} P (d : T) Y : length (through P d Y) = length P.
Proof. apply map_length. Qed.

Lemma through_map {A B} (f : A -> B) P a b n X : is_perm n P -> length X = n ->
  map f (through P a X) = through P b (map f X).
Proof.
  intros (HL & HB & _) HX. unfold through. rewrite map_map. apply map_ext_in. intros j Hj.
  apply (In_nth _ _ 0) in Hj as (i & Hi & <-).
  rewrite (nth_indep _ b (f a)) by (rewrite map_length, HX; apply HB; lia). symmetry. apply map_nth.
Qed.

Lemma through_inj {T} (d : T) n P X Y : is_perm n P -> length X = n -> length Y = n ->
  through P d X = through P d Y -> X = Y.
Proof.
  intros HP HX HY E. apply (nth_ext _ _ d d); [lia|]. intros j Hj.
  destruct (is_perm_surj n P j HP ltac:(lia)) as (i & Hi & <-). destruct HP as (HL & _).
  assert (K := f_equal (fun l => nth i l d) E). simpl in K. rewrite !nth_through in K by lia. auto.
Qed.

(** ** Assignments *)
Section Assign.
Context {I : Type} (ieq : I -> I -> bool) (d : I -> nat).
Hypothesis ieq_spec : forall a b, ieq a b = true <-> a = b.

Lemma ieq_refl a : ieq a a = true.
Proof. now apply ieq_spec. Qed.
Lemma ieq_neq a b : a <> b -> ieq a b = false.
Proof. intros H. destruct (ieq a b) eqn:E; auto. apply ieq_spec in E. contradiction. Qed.

Fixpoint assign (xs : list I) (t : list nat) (s : I -> nat) : I -> nat :=
  match xs, t with
  | x :: xs', v :: t' => assign xs' t' (override ieq s x v)
  | _, _ => s
  end.

Lemma assign_other xs : forall t s y, ~ In y xs -> assign xs t s y = s y.
Proof.
  induction xs as [|x xs IH]; intros [|v t] s y H; simpl in *; auto.
  rewrite IH by tauto. unfold override. rewrite ieq_neq; auto.
Qed.

Lemma assign_map xs : forall t s, NoDup xs -> length t = length xs -> map (assign xs t s) xs = t.
Proof.
  induction xs as [|x xs IH]; intros [|v t] s HN HL; simpl in *; try lia; auto.
  inversion HN; subst. f_equal; [|apply IH; auto].
  rewrite assign_other by auto. unfold override. now rewrite ieq_refl.
Qed.

Lemma tuple_assign (xs : list I) (t : list nat) : NoDup xs -> length t = length xs -> exists s, map s xs = t.
Proof. intros. exists (assign xs t (fun _ => 0)). now apply assign_map. Qed.

Lemma inrange_valid xs s : inrange d xs s <-> valid (map d xs) (map s xs).
Proof.
  unfold inrange, valid. induction xs as [|x xs IH]; simpl.
  - split; auto. intros _ x [].
  - split.
    + intros H. constructor; [apply H; auto|]. apply IH. auto.
    + intros H. inversion H; subst. intros y [<-|Hy]; auto. now apply IH.
Qed.

(** ** copying through a permuted view *)
Lemma permuteRange_relabel P (l l' : list I) (dI : I) : is_perm (length l') P -> l = through P dI l' ->
  exists vr, permuteRange (range_init (map d l)) P = Ok vr /\ map ext vr = map d l' /\
    forall s, dot vr (map s l') = enc (map d l) (map s l).
Proof.
  intros HP Hl. assert (LP : length P = length l') by exact (proj1 HP).
  assert (LL : length l = length l') by (subst l; now rewrite through_length).
  unfold permuteRange.
  assert (Lr : length (range_init (map d l)) = length l').
  { unfold range_init. rewrite with_strides_length, map_length. lia. }
  destruct (permute_loop_through (IS 0 0) (length l') P (range_init (map d l)) (repeat (IS 0 0) (length (range_init (map d l)))))
    as (vr & E & HL & HT); auto.
  { now rewrite repeat_length. }
  exists vr. split; [exact E|]. split.
  - apply (through_inj 0 (length l') P); auto; rewrite ?map_length; auto.
    rewrite <- (through_map ext P (IS 0 0) 0 (length l')) by auto. rewrite <- HT.
    unfold range_init. rewrite map_ext_range_init.
    rewrite <- (through_map d P dI 0 (length l')) by auto. now rewrite <- Hl.
  - intros s. rewrite <- (dot_through (length l') P vr (map s l')) by (rewrite ?map_length; auto).
    rewrite <- HT. rewrite <- (through_map s P dI 0 (length l')) by auto. rewrite <- Hl.
    apply dot_range_init. now rewrite !map_length.
Qed.

Lemma transform_relabel {T1 T2} (op : T1 -> T2 -> T2) (d1 : T1) (d2 : T2) P (l l' : list I) (dI : I) A to vr :
  NoDup l' -> is_perm (length l') P -> l = through P dI l' -> (forall x, In x l' -> 0 < d x) ->
  permuteRange (range_init (map d l)) P = Ok vr ->
  full d l A -> full d l' to ->
  exists A', transform op vr A (range_init (map d l')) to = Ok A' /\ length A' = length to /\
    forall s, inrange d l' s -> elt d2 d l' A' s = op (elt d1 d l A s) (elt d2 d l' to s).
Proof.
  intros HN HP Hl Hpos EV FA FT.
  destruct (permuteRange_relabel P l l' dI HP Hl) as (vr' & EV' & Eext & Hdot).
  rewrite EV in EV'. injection EV' as <-.
  assert (HPm : Permutation l l') by (rewrite Hl; apply (through_perm _ (length l')); auto).
  unfold full in *. rewrite <- size_fold in FA, FT.
  assert (Hin : forall s, inrange d l' s -> inrange d l s).
  { intros s H x Hx. apply H. eapply Permutation_in; eauto. }
  destruct (transform_spec op d1 d2 (map d l') vr A (range_init (map d l')) to) as (A' & E & HL & HA & _); auto.
  - apply map_ext_range_init.
  - intros x Hx. apply in_map_iff in Hx as (y & <- & Hy). auto.
  - intros t Ht. destruct (tuple_assign l' t HN) as (s & <-).
    { apply valid_length in Ht. now rewrite map_length in Ht. }
    rewrite Hdot, FA. apply enc_lt. apply inrange_valid, Hin, inrange_valid; auto.
  - intros t Ht. rewrite dot_range_init by (apply valid_length in Ht; auto). rewrite FT. now apply enc_lt.
  - intros t t' Ht Ht'. rewrite !dot_range_init by (apply valid_length; auto). now apply enc_inj.
  - exists A'. split; [exact E|]. split; [auto|]. intros s Hs. unfold elt. rewrite !colmajor_enc.
    specialize (HA (map s l') ltac:(now apply inrange_valid)).
    rewrite dot_range_init in HA by now rewrite !map_length. rewrite Hdot in HA. exact HA.
Qed.
End Assign.

(** ** sums in a commutative semiring *)
Section Sums.
Context {R : Type} (r0 r1 : R) (radd rmul : R -> R -> R).
Context (SR : semi_ring_theory r0 r1 radd rmul (@eq R)).
Add Ring RR : SR.
Declare Scope sr_scope.
Local Notation "x + y" := (radd x y) : sr_scope.
Local Notation "x * y" := (rmul x y) : sr_scope.
Local Open Scope sr_scope.
Notation sumn := (sumn r0 radd).

Lemma sum_below_sumn n f : sum_below r0 radd n f = sumn n f.
Proof. induction n; simpl; congruence. Qed.

Lemma sumn_ext n f g : (forall i, (i < n)%nat -> f i = g i) -> sumn n f = sumn n g.
Proof. induction n as [|n IH]; intros H; simpl; auto. rewrite IH, H; auto. Qed.

Lemma sumn_add n f g : sumn n (fun i => f i + g i) = sumn n f + sumn n g.
Proof. induction n as [|n IH]; simpl; [ring|]. rewrite IH. ring. Qed.

Lemma sumn_mul_l n a f : sumn n (fun i => a * f i) = a * sumn n f.
Proof. induction n as [|n IH]; simpl; [ring|]. rewrite IH. ring. Qed.

Lemma sumn_zero n f : (forall i, (i < n)%nat -> f i = r0) -> sumn n f = r0.
Proof. induction n as [|n IH]; intros H; simpl; auto. rewrite IH, H by auto. ring. Qed.

Lemma sumn_exchange m n f : sumn m (fun i => sumn n (fun j => f i j)) = sumn n (fun j => sumn m (fun i => f i j)).
Proof.
  induction m as [|m IH]; simpl.
  - symmetry. now apply sumn_zero.
  - rewrite IH. rewrite <- sumn_add. reflexivity.
Qed.

Lemma sumn_plus a b f : sumn (a + b)%nat f = sumn a f + sumn b (fun i => f (a + i)%nat).
Proof.
  induction b as [|b IH]; simpl.
  - rewrite Nat.add_0_r. ring.
  - rewrite Nat.add_succ_r. simpl. rewrite IH. ring.
Qed.

Lemma sumn_mul a b f : sumn (a * b)%nat f = sumn b (fun j => sumn a (fun i => f (i + a * j)%nat)).
Proof.
  induction b as [|b IH]; simpl.
  - now rewrite Nat.mul_0_r.
  - rewrite Nat.mul_succ_r, sumn_plus, IH. f_equal. apply sumn_ext. intros i _. f_equal. lia.
Qed.

Section Over.
Context {I : Type} (ieq : I -> I -> bool) (d : I -> nat).
Hypothesis ieq_spec : forall a b, ieq a b = true <-> a = b.
Notation sum_over := (sum_over r0 radd ieq d).

Lemma override_ext s s' x v : (forall y, s y = s' y) -> forall y, override ieq s x v y = override ieq s' x v y.
Proof. intros H y. unfold override. destruct (ieq x y); auto. Qed.

Definition respects (f : (I -> nat) -> R) : Prop := forall s s', (forall y, s y = s' y) -> f s = f s'.

Lemma sum_over_ext xs : forall f g, (forall s, f s = g s) -> forall s, sum_over xs f s = sum_over xs g s.
Proof.
  induction xs as [|x xs IH]; intros f g H s; simpl; auto.
  rewrite !sum_below_sumn. apply sumn_ext. intros; now apply IH.
Qed.

Lemma sum_over_respects xs : forall f, respects f -> respects (sum_over xs f).
Proof.
  induction xs as [|x xs IH]; intros f H s s' E; simpl; auto.
  rewrite !sum_below_sumn. apply sumn_ext. intros i _. apply IH; auto. now apply override_ext.
Qed.

Lemma sum_over_assign xs : forall f s, (forall x, In x xs -> (0 < d x)%nat) ->
  sumn (size (map d xs)) (fun k => f (assign ieq xs (decode (map d xs) k) s)) = sum_over xs f s.
Proof.
  induction xs as [|x xs IH]; intros f s Hp; simpl.
  - ring.
  - rewrite sumn_mul. rewrite sumn_exchange. apply sumn_ext. intros v Hv.
    rewrite <- IH by (intros; apply Hp; simpl; auto). apply sumn_ext. intros k Hk.
    assert (Hd : (0 < d x)%nat) by (apply Hp; simpl; auto).
    rewrite (Nat.mul_comm (d x)), Nat.mod_add, Nat.div_add, Nat.mod_small, Nat.div_small by lia.
    reflexivity.
Qed.

Lemma sum_over_perm xs ys f : respects f -> Permutation xs ys -> NoDup xs -> forall s, sum_over xs f s = sum_over ys f s.
Proof.
  intros Hf HP; induction HP as [|x xs ys HP IH|x y xs|xs ys zs H1 IH1 H2 IH2]; intros HN s; simpl; auto.
  - inversion HN; subst. rewrite !sum_below_sumn. apply sumn_ext. intros; now apply IH.
  - rewrite !sum_below_sumn.
    rewrite (sumn_ext (d y) _ (fun i => sumn (d x) (fun v => sum_over xs f (override ieq (override ieq s y i) x v))))
      by (intros; apply sum_below_sumn).
    rewrite (sumn_ext (d x) _ (fun i => sumn (d y) (fun v => sum_over xs f (override ieq (override ieq s x i) y v))))
      by (intros; apply sum_below_sumn).
    rewrite sumn_exchange. apply sumn_ext. intros v _. apply sumn_ext. intros w _.
    apply sum_over_respects; auto. intros z. unfold override.
    destruct (ieq x z) eqn:E1, (ieq y z) eqn:E2; auto.
    apply ieq_spec in E1. apply ieq_spec in E2. subst. inversion HN; subst. exfalso. apply H1. simpl; auto.
  - rewrite IH1 by auto. apply IH2. eapply Permutation_NoDup; eauto.
Qed.

Lemma sum_over_add xs : forall f g s, sum_over xs (fun t => f t + g t) s = sum_over xs f s + sum_over xs g s.
Proof.
  induction xs as [|x xs IH]; intros f g s; simpl; auto. rewrite !sum_below_sumn.
  erewrite sumn_ext; [|intros; apply IH]. now rewrite sumn_add.
Qed.

Lemma sum_over_mul_l xs : forall a f s, sum_over xs (fun t => a * f t) s = a * sum_over xs f s.
Proof.
  induction xs as [|x xs IH]; intros a f s; simpl; auto. rewrite !sum_below_sumn.
  erewrite sumn_ext; [|intros; apply IH]. now rewrite sumn_mul_l.
Qed.

Lemma sum_over_app xs ys : forall f s, sum_over (xs ++ ys) f s = sum_over xs (sum_over ys f) s.
Proof.
  induction xs as [|x xs IH]; intros f s; simpl; auto. rewrite !sum_below_sumn. apply sumn_ext. intros; apply IH.
Qed.

Lemma elt_ext is dat s s' : (forall x, In x is -> s x = s' x) -> elt r0 d is dat s = elt r0 d is dat s'.
Proof. intros H. unfold elt. f_equal. f_equal. now apply map_ext_in. Qed.

Lemma elt_respects is dat : respects (elt r0 d is dat).
Proof. intros s s' H. apply elt_ext. auto. Qed.
End Over.

(** ** gemm *)
Definition mrange (tr : bool) (r c : nat) : matrange := if tr then mtranspose (mat_range c r) else mat_range r c.
Definition mpos (tr : bool) (r c i j : nat) : nat := if tr then (j + c * i)%nat else (i + r * j)%nat.

Lemma isTransposed_pos tr r c i j : (i < r)%nat -> (j < c)%nat ->
  (if isTransposed (mrange tr r c) then (j + c * i)%nat else (i + r * j)%nat) = mpos tr r c i j.
Proof.
  intros Hi Hj. unfold mrange, isTransposed, mpos. destruct tr; cbn [mat_range mtranspose rs cn cs rn].
  - rewrite Nat.eqb_refl. reflexivity.
  - destruct (Nat.eqb_spec 1 c) as [E|E]; [|reflexivity].
    destruct (Nat.eqb_spec r 1) as [E'|E']; [|reflexivity]. cbn [andb]. assert (i = 0)%nat by lia. assert (j = 0)%nat by lia. subst. lia.
Qed.

Lemma dgemm_spec ta tb m n k alpha A B beta C :
  (0 < m)%nat -> length A = (m * k)%nat -> length B = (k * n)%nat -> length C = (m * n)%nat ->
  exists C', dgemm r0 radd rmul ta tb m n k alpha A B beta C = Ok C' /\ length C' = length C /\
    forall i j, (i < m)%nat -> (j < n)%nat ->
      nth (i + m * j) C' r0 =
        alpha * sumn k (fun l => nth (if ta then (l + k * i)%nat else (i + m * l)%nat) A r0 *
                                 nth (if tb then (j + n * l)%nat else (l + k * j)%nat) B r0)
        + beta * nth (i + m * j) C r0.
Proof.
  intros Hm HA HB HC. unfold dgemm. rewrite HA, HB, HC, !Nat.ltb_irrefl. cbn [orb].
  eexists; split; [reflexivity|]. split.
  - rewrite app_length, map_length, seq_length, skipn_length. lia.
  - intros i j Hi Hj. assert ((i + m * j < m * n)%nat) by nia.
    rewrite app_nth1 by (rewrite map_length, seq_length; lia).
    match goal with |- nth _ (map ?F _) _ = _ => rewrite (nth_indep _ r0 (F 0%nat)) by (rewrite map_length, seq_length; lia);
      rewrite (map_nth F) end.
    rewrite seq_nth by lia. cbn [Nat.add].
    rewrite (Nat.mul_comm m j), Nat.mod_add, Nat.div_add, Nat.mod_small, Nat.div_small by lia. reflexivity.
Qed.

Lemma gemm_spec tA tB tC m n k alpha A B beta C :
  (0 < m)%nat -> (0 < n)%nat -> (0 < k)%nat ->
  length A = (m * k)%nat -> length B = (k * n)%nat -> length C = (m * n)%nat ->
  exists C', gemm r0 radd rmul (mrange tA m k) A (mrange tB k n) B (mrange tC m n) C alpha beta = Ok C' /\
    length C' = length C /\
    forall i j, (i < m)%nat -> (j < n)%nat ->
      nth (mpos tC m n i j) C' r0 =
        alpha * sumn k (fun l => nth (mpos tA m k i l) A r0 * nth (mpos tB k n l j) B r0)
        + beta * nth (mpos tC m n i j) C r0.
Proof.
  intros Hm Hn Hk HA HB HC. unfold gemm.
  assert (MT : forall t r c, mtranspose (mrange t r c) = mrange (negb t) c r) by (intros [] r c; reflexivity).
  assert (Rn : forall t r c, rn (mrange t r c) = r) by (intros [] r c; reflexivity).
  assert (Cn : forall t r c, cn (mrange t r c) = c) by (intros [] r c; reflexivity).
  destruct (isTransposed (mrange tC m n)) eqn:EC.
  - rewrite !MT. unfold gemm_impl. rewrite Rn, !Cn.
    destruct (dgemm_spec (isTransposed (mrange (negb tB) n k)) (isTransposed (mrange (negb tA) k m)) n m k alpha B A beta C)
      as (C' & E & HL & HE); auto; try lia.
    exists C'. split; [exact E|]. split; auto. intros i j Hi Hj.
    pose proof (isTransposed_pos tC m n i j Hi Hj) as X. rewrite EC in X. rewrite <- X.
    rewrite HE by auto. f_equal. f_equal. apply sumn_ext. intros l Hl.
    rewrite !isTransposed_pos by auto. rewrite (SRmul_comm SR). f_equal; f_equal; destruct tA, tB; reflexivity.
  - unfold gemm_impl. rewrite Rn, !Cn.
    destruct (dgemm_spec (isTransposed (mrange tA m k)) (isTransposed (mrange tB k n)) m n k alpha A B beta C)
      as (C' & E & HL & HE); auto.
    exists C'. split; [exact E|]. split; auto. intros i j Hi Hj.
    pose proof (isTransposed_pos tC m n i j Hi Hj) as X. rewrite EC in X. rewrite <- X.
    rewrite HE by auto. f_equal. f_equal. apply sumn_ext. intros l Hl.
    rewrite !isTransposed_pos by auto. reflexivity.
Qed.
End Sums.
