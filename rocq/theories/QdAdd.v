(** Addition of tensors with quantum numbers. *)
From Coq Require Import List ZArith Lia Bool Arith Permutation Sorted Ring.
From Verif Require Import Util RangeModel RangeSpec RangeProofs RangeProps TensorModel TensorSpec TensorProofs SemProofs
  ContractModel DenseModel DenseProofs QnModel QdModel QdSpec QdProofs.
Import ListNotations.
Open Scope outcome_scope.
Local Arguments Nat.sub : simpl never.

(** ** the order of blocks *)
Lemma lexlt_trans : forall a b c, lexlt a b = true -> lexlt b c = true -> lexlt a c = true.
Proof.
  induction a as [|x a IH]; intros [|y b] [|z c]; cbn [lexlt]; try discriminate; auto.
  destruct (Nat.ltb_spec x y), (Nat.ltb_spec y x), (Nat.ltb_spec y z), (Nat.ltb_spec z y), (Nat.ltb_spec x z), (Nat.ltb_spec z x);
    try discriminate; try lia; auto. apply IH.
Qed.
Lemma lexlt_tot : forall a b, lexlt a b = false -> lexlt b a = false -> a = b.
Proof.
  induction a as [|x a IH]; intros [|y b]; cbn [lexlt]; try discriminate; auto.
  destruct (Nat.ltb_spec x y), (Nat.ltb_spec y x); try discriminate; try lia. intros. assert (x = y) by lia. subst. f_equal. auto.
Qed.
Lemma lexlt_neg a b c : lexlt a b = false -> lexlt b c = false -> lexlt a c = false.
Proof.
  intros H1 H2. destruct (lexlt b a) eqn:E1.
  - destruct (lexlt a c) eqn:E2; auto. rewrite (lexlt_trans _ _ _ E1 E2) in H2. discriminate.
  - rewrite (lexlt_tot _ _ H1 E1). exact H2.
Qed.
Lemma block_lt_irr a : block_lt a a = false.
Proof. apply lexlt_irr. Qed.
Lemma block_lt_trans a b c : block_lt a b = true -> block_lt b c = true -> block_lt a c = true.
Proof. apply lexlt_trans. Qed.
Lemma block_lt_neg a b c : block_lt a b = false -> block_lt b c = false -> block_lt a c = false.
Proof. apply lexlt_neg. Qed.

Lemma sorts_blocks srt : sorts srt -> forall l, Permutation l (srt _ block_lt l) /\ StronglySorted (fun a b => block_lt b a = false) (srt _ block_lt l).
Proof. intros H l. apply H; [apply block_lt_irr|apply block_lt_trans|apply block_lt_neg]. Qed.

(** sorted lists of blocks without repetition *)
Definition bless (e : list nat) (a b : block) := colmajor e a < colmajor e b.
Lemma sorted_strict e l : Forall (valid e) l -> NoDup l -> StronglySorted (fun a b => block_lt b a = false) l -> StronglySorted (bless e) l.
Proof.
  intros HV HN HS. induction HS as [|x l HS IH HF]; constructor; inversion HV; inversion HN; subst; auto.
  rewrite Forall_forall in *. intros y Hy. specialize (HF y Hy). rewrite (block_lt_key e) in HF by auto.
  apply Nat.ltb_ge in HF. unfold bless. destruct (Nat.eq_dec (colmajor e x) (colmajor e y)) as [E|E]; [|lia].
  apply key_inj in E; auto. subst y. contradiction.
Qed.

Lemma bmerge_cons x a y b : bmerge (x :: a) (y :: b) =
  if block_lt y x then y :: bmerge (x :: a) b else if block_lt x y then x :: bmerge a (y :: b) else x :: bmerge a b.
Proof. reflexivity. Qed.
Lemma bmerge_in : forall a b c, In c (bmerge a b) <-> In c a \/ In c b.
Proof.
  induction a as [|x a IHa]; [cbn; tauto|]. induction b as [|y b IHb]; intros c.
  - cbn. tauto.
  - rewrite bmerge_cons. destruct (block_lt y x) eqn:E1; [|destruct (block_lt x y) eqn:E2].
    + cbn [In].
      rewrite IHb. cbn [In]. tauto.
    + cbn [In]. rewrite IHa. cbn [In]. tauto.
    + assert (x = y). { apply lexlt_tot in E2; [|exact E1]. apply (f_equal (@rev nat)) in E2. now rewrite !rev_involutive in E2. }
      subst y. cbn [In]. rewrite IHa. tauto.
Qed.
Lemma bmerge_sorted e : forall a b, Forall (valid e) a -> Forall (valid e) b -> StronglySorted (bless e) a -> StronglySorted (bless e) b ->
  StronglySorted (bless e) (bmerge a b).
Proof.
  induction a as [|x a IHa]; [cbn; auto|]. induction b as [|y b IHb]; intros Va Vb Sa Sb; [exact Sa|].
  rewrite bmerge_cons.
 
  inversion Va as [|? ? Vx Va']; subst. inversion Vb as [|? ? Vy Vb']; subst.
  apply StronglySorted_inv in Sa as Sa'. destruct Sa' as [Sa' Fa]. apply StronglySorted_inv in Sb as Sb'. destruct Sb' as [Sb' Fb].
  rewrite !(block_lt_key e) by auto.
  rewrite Forall_forall in Fa, Fb. unfold bless in Fa, Fb |- *.
  destruct (Nat.ltb_spec (colmajor e y) (colmajor e x)) as [K|K]; [|destruct (Nat.ltb_spec (colmajor e x) (colmajor e y)) as [K'|K']].
  - constructor; [apply IHb; auto|]. apply Forall_forall. intros z Hz. apply bmerge_in in Hz as [[<-|Hz]|Hz]; auto. specialize (Fa z Hz). lia.
  - constructor; [apply IHa; auto|]. apply Forall_forall. intros z Hz. apply bmerge_in in Hz as [Hz|[<-|Hz]]; auto. specialize (Fb z Hz). lia.
  - constructor; [apply IHa; auto|]. apply Forall_forall. intros z Hz. apply bmerge_in in Hz as [Hz|Hz]; auto.
    specialize (Fb z Hz). lia.
Qed.

(** ** segments *)
Lemma segment_ok {A} o n (l : list A) : o + n <= length l -> segment o n l = Ok (firstn n (skipn o l)).
Proof. intros H. unfold segment. destruct (Nat.leb_spec (o + n) (length l)); [reflexivity|lia]. Qed.
Lemma seg_length {A} o n (l : list A) : o + n <= length l -> length (firstn n (skipn o l)) = n.
Proof. intros H. rewrite firstn_length, skipn_length. lia. Qed.
Lemma put_seg_length {A} o (s l : list A) : o + length s <= length l -> length (put_seg o s l) = length l.
Proof. intros H. unfold put_seg. rewrite !app_length, firstn_length, skipn_length. lia. Qed.
Lemma put_seg_nth {A} o (s l : list A) d k : o + length s <= length l ->
  nth k (put_seg o s l) d = if (o <=? k) && (k <? o + length s) then nth (k - o) s d else nth k l d.
Proof.
  intros H. unfold put_seg. assert (LF : length (firstn o l) = o) by (rewrite firstn_length; lia).
  destruct (Nat.leb_spec o k) as [K|K]; cbn [andb].
  - rewrite app_nth2 by lia. rewrite LF. destruct (Nat.ltb_spec k (o + length s)) as [K2|K2].
    + rewrite app_nth1 by lia. reflexivity.
    + rewrite app_nth2 by lia. rewrite nth_skipn. f_equal. lia.
  - rewrite app_nth1 by lia. apply nth_firstn_lt. lia.
Qed.

(** ** one block *)
Section Block.
Context {R : Type} (r0 : R) {I : Type} (bs : I -> list nat).
Notation nblocks := (nblocks bs).
Notation total := (total bs).
Notation proper := (proper bs).
Notation ranged := (ranged bs).
Notation blockof := (blockof bs).
Notation dimsof := (dimsof bs).
Notation placeof := (placeof bs).
Notation qval := (qval r0 bs).
Notation sz := (sz bs).
Notation stored := (stored bs).

(** the dimension of x inside the block chosen by beta *)
Definition bdim (beta : I -> nat) (x : I) : nat := nth (beta x) (bs x) 0.
(** the position inside its block *)
Definition inpos (s : I -> nat) (x : I) : nat := pos (bs x) (s x).
Definition inblk (s : I -> nat) (x : I) : nat := blk (bs x) (s x).

Lemma bdims_beta is beta : valid (map nblocks is) (map beta is) -> bdims bs is (map beta is) = Ok (map (bdim beta) is).
Proof.
  intros H. rewrite bdims_spec by auto. f_equal. clear H. induction is as [|x is IH]; auto. cbn [map combine fst snd]. rewrite IH. reflexivity.
Qed.
Lemma sz_beta is beta : sz is (map beta is) = fold_right Nat.mul 1 (map (bdim beta) is).
Proof. induction is as [|x is IH]; auto. cbn [map QdSpec.sz fold_right]. rewrite IH. reflexivity. Qed.
Lemma blockof_inblk is s : blockof is s = map (inblk s) is.
Proof. reflexivity. Qed.
Lemma dimsof_inblk is s : dimsof is s = map (bdim (inblk s)) is.
Proof. reflexivity. Qed.
Lemma place_beta is beta s : blockof is s = map beta is -> placeof is s = colmajor (map (bdim beta) is) (map (inpos s) is).
Proof.
  intros E. unfold QdSpec.placeof. f_equal. unfold QdSpec.dimsof. rewrite blockof_inblk in E.
  apply map_ext_in. intros x Hx. unfold bdim. rewrite <- (map_eq_in _ _ _ E x Hx). reflexivity.
Qed.
Lemma inpos_range is beta s : ranged is s -> blockof is s = map beta is -> inrange (bdim beta) is (inpos s).
Proof.
  intros H E x Hx. rewrite blockof_inblk in E. unfold bdim. rewrite <- (map_eq_in _ _ _ E x Hx). unfold inpos, inblk. apply blk_lt. apply H. exact Hx.
Qed.
Definition seg_of is (d : qd R) (b : block) (o : nat) : list R := firstn (sz is b) (skipn o (store d)).
Lemma seg_full is (d : qd R) beta o : stored is d -> In (map beta is, o) (offs d) -> full (bdim beta) is (seg_of is d (map beta is) o).
Proof.
  intros H Hin. destruct (stored_bound _ _ _ _ _ H Hin) as [V L]. unfold full, seg_of. rewrite seg_length by exact L. apply sz_beta.
Qed.
Lemma qval_seg is (d : qd R) beta o s : stored is d -> In (map beta is, o) (offs d) -> ranged is s -> blockof is s = map beta is ->
  qval is d s = elt r0 (bdim beta) is (seg_of is d (map beta is) o) (inpos s).
Proof.
  intros H Hin Hr E. rewrite (qval_in r0 bs is d s o); [|apply (stored_nodup bs is); auto|rewrite E; auto].
  unfold elt, seg_of. pose proof (placeof_lt bs is s Hr) as L. rewrite E in L. rewrite (place_beta is beta s E) in *.
  rewrite nth_firstn_lt by exact L. rewrite nth_skipn. reflexivity.
Qed.

Lemma qval_put is (d : qd R) beta o seg : stored is d -> In (map beta is, o) (offs d) -> length seg = sz is (map beta is) ->
  let d' := mkQD (offs d) (put_seg o seg (store d)) in
  stored is d' /\ (forall s, ranged is s -> blockof is s = map beta is -> qval is d' s = elt r0 (bdim beta) is seg (inpos s)) /\
  (forall s, ranged is s -> blockof is s <> map beta is -> qval is d' s = qval is d s).
Proof.
  intros H Hin L d'. destruct (stored_bound _ _ _ _ _ H Hin) as [V LB].
  assert (LP : length (put_seg o seg (store d)) = length (store d)) by (apply put_seg_length; lia).
  assert (H' : stored is d').
  { destruct H as [HF HS]. split; cbn [offs store d']; auto. rewrite LP. exact HF. }
  split; [exact H'|]. split; intros s Hr E.
  - rewrite (qval_in r0 bs is d' s o); [|apply (stored_nodup bs is); auto|cbn [offs d']; rewrite E; exact Hin].
    cbn [store d']. rewrite put_seg_nth by lia. pose proof (placeof_lt bs is s Hr) as K. rewrite E in K.
    destruct (Nat.leb_spec o (o + placeof is s)); [|lia]. destruct (Nat.ltb_spec (o + placeof is s) (o + length seg)); [|lia]. cbn [andb].
    replace (o + placeof is s - o) with (placeof is s) by lia. rewrite (place_beta is beta s E). reflexivity.
  - destruct (block_dec (blockof is s) (offs d)) as [Hb|Hb].
    + apply in_fst in Hb as (o2 & Hb).
      rewrite (qval_in r0 bs is d' s o2); [|apply (stored_nodup bs is); auto|exact Hb].
      rewrite (qval_in r0 bs is d s o2); [|apply (stored_nodup bs is); auto|exact Hb].
      cbn [store d']. rewrite put_seg_nth by lia. pose proof (placeof_lt bs is s Hr) as K.
      destruct (blocks_disjoint bs is (offs d) 0 (length (store d)) _ _ _ _ (proj1 H) Hin Hb) as [D|D]; [congruence| |].
      * destruct (Nat.leb_spec o (o2 + placeof is s)); cbn [andb]; auto. destruct (Nat.ltb_spec (o2 + placeof is s) (o + length seg)); auto. lia.
      * destruct (Nat.leb_spec o (o2 + placeof is s)); cbn [andb]; auto. lia.
    + rewrite !qval_notin by exact Hb. reflexivity.
Qed.

Lemma gather_ok : forall P (b : block), (forall p, In p P -> p < length b) -> gather P b = Ok (through P 0 b).
Proof.
  induction P as [|p P IH]; intros b H; cbn [gather]; auto.
  rewrite (oget_ok 0) by (apply H; left; auto). cbn [obind]. rewrite IH by (intros q Hq; apply H; right; auto). reflexivity.
Qed.
Lemma is_perm_bound n P p : is_perm n P -> In p P -> p < n.
Proof. intros (L & B & _) Hp. destruct (In_nth P p 0 Hp) as (k & Hk & <-). apply B. lia. Qed.
Lemma through_map {A B} (f : A -> B) P dA dB l : (forall p, In p P -> p < length l) -> through P dB (map f l) = map f (through P dA l).
Proof.
  intros H. unfold through. rewrite map_map. apply map_ext_in. intros p Hp. rewrite (nth_indep _ dB (f dA)) by (rewrite map_length; auto). apply map_nth.
Qed.
Lemma gather_beta P is1 is2 (x0 : I) (beta : I -> nat) : is_perm (length is1) P -> is2 = through P x0 is1 ->
  gather P (map beta is1) = Ok (map beta is2).
Proof.
  intros HP ->. rewrite gather_ok by (intros p Hp; rewrite map_length; apply (is_perm_bound _ P); auto).
  f_equal. apply through_map. intros p Hp. apply (is_perm_bound _ P); auto.
Qed.
Lemma beta_of (ieq : I -> I -> bool) (ieq_spec : forall a b, ieq a b = true <-> a = b) is b :
  NoDup is -> valid (map nblocks is) b -> exists beta, b = map beta is.
Proof.
  intros HN V. destruct (tuple_assign ieq (fun _ => 0) ieq_spec is b HN) as (beta & E); [|eauto].
  rewrite (valid_length _ _ V), map_length. reflexivity.
Qed.
End Block.

(** ** addition *)
Section Add.
Context {R : Type} (r0 r1 : R) (radd rmul rsub : R -> R -> R) (ropp : R -> R).
Context (RT : ring_theory r0 r1 radd rmul rsub ropp (@eq R)).
Add Ring RRqa : RT.
Context {I : Type} (ieq : I -> I -> bool) (ieq_spec : forall a b, ieq a b = true <-> a = b) (bs : I -> list nat).
Context (srt : forall X : Type, (X -> X -> bool) -> list X -> list X) (Hsrt : sorts srt).
Notation nblocks := (nblocks bs).
Notation total := (total bs).
Notation proper := (proper bs).
Notation ranged := (ranged bs).
Notation blockof := (blockof bs).
Notation qval := (qval r0 bs).
Notation sz := (sz bs).
Notation stored := (stored bs).
Notation filled := (filled bs).

Lemma getBlock_in is (d : qd R) b o : stored is d -> In (b, o) (offs d) -> is <> [] -> getBlock d b = Ok (Some o).
Proof.
  intros H Hin Hn. unfold getBlock. destruct (stored_bound _ _ _ _ _ H Hin) as [V _].
  destruct b as [|i b]; [apply valid_length in V; destruct is; [congruence|discriminate]|]. apply (lookup_in bs is); auto.
Qed.
Lemma getBlock_notin is (d : qd R) b : stored is d -> valid (map nblocks is) b -> ~ In b (map fst (offs d)) -> is <> [] -> getBlock d b = Ok None.
Proof.
  intros H V Hin Hn. unfold getBlock. 
  destruct b as [|i b]; [apply valid_length in V; destruct is; [congruence|discriminate]|]. apply (lookup_notin bs is); auto.
Qed.

Lemma valid_beta_perm is1 is2 (beta : I -> nat) : Permutation is1 is2 -> valid (map nblocks is1) (map beta is1) -> valid (map nblocks is2) (map beta is2).
Proof.
  intros HP H. apply inrange_valid. apply inrange_valid in H. intros x Hx. apply H. eapply Permutation_in; [symmetry; exact HP|exact Hx].
Qed.
Lemma ranged_perm is1 is2 s : Permutation is1 is2 -> ranged is1 s -> ranged is2 s.
Proof. intros HP H x Hx. apply H. eapply Permutation_in; [symmetry; exact HP|exact Hx]. Qed.
Lemma blockof_beta is1 is2 s (beta : I -> nat) : Permutation is1 is2 -> blockof is1 s = map beta is1 -> blockof is2 s = map beta is2.
Proof.
  intros HP E. rewrite blockof_inblk in *. apply map_ext_in. intros x Hx. apply (map_eq_in _ _ _ E). eapply Permutation_in; [symmetry; exact HP|exact Hx].
Qed.

Section Pair.
Context (is1 is2 : list I) (x0 : I) (P : perm).
Hypothesis Hp : proper is1.
Hypothesis HP : is_perm (length is1) P.
Hypothesis E2 : is2 = through P x0 is1.
Hypothesis Hne : is1 <> [].
Lemma pair_perm : Permutation is2 is1.
Proof. rewrite E2. apply (through_perm x0 (length is1)); auto. Qed.
Lemma is2_ne : is2 <> [].
Proof. intros E. pose proof pair_perm as H. rewrite E in H. apply Permutation_nil in H. auto. Qed.

Lemma add_blocks_spec alpha (B : qd R) : stored is2 B -> forall aoffs (A : qd R),
  stored is1 A -> incl aoffs (offs A) -> NoDup (map fst aoffs) ->
  exists S', add_blocks radd rmul bs P alpha is1 is2 B aoffs (store A) = Ok S' /\ stored is1 (mkQD (offs A) S') /\
    forall s, ranged is1 s -> qval is1 (mkQD (offs A) S') s =
      if in_dec (list_eq_dec Nat.eq_dec) (blockof is1 s) (map fst aoffs) then radd (qval is1 A s) (rmul alpha (qval is2 B s)) else qval is1 A s.
Proof.
  intros HB. destruct Hp as [HN Hpos]. pose proof pair_perm as PP.
  induction aoffs as [|[ab ao] aoffs IH]; intros A HA HI HD; cbn [add_blocks].
  - exists (store A). split; [reflexivity|]. destruct A as [oA sA]. split; [exact HA|]. intros s Hs. reflexivity.
  - assert (Hin : In (ab, ao) (offs A)) by (apply HI; left; auto).
    destruct (stored_bound _ _ _ _ _ HA Hin) as [V L].
    destruct (beta_of bs ieq ieq_spec is1 ab HN V) as (beta & ->).
    rewrite (gather_beta P is1 is2 x0 beta HP E2). cbn [obind].
    pose proof (valid_beta_perm is1 is2 beta (Permutation_sym PP) V) as V2.
    cbn [map fst] in HD. inversion HD as [|? ? Hnin HD']; subst x l.
    destruct (block_dec (map beta is2) (offs B)) as [Hb|Hb].
    + apply in_fst in Hb as (bo & Hb). rewrite (getBlock_in is2 B _ bo HB Hb is2_ne). cbn [obind].
      rewrite !bdims_beta by auto. cbn [obind].
      destruct (stored_bound _ _ _ _ _ HB Hb) as [_ LB].
      assert (PA : prod (map (bdim bs beta) is1) = sz is1 (map beta is1)) by (rewrite sz_beta; reflexivity).
      assert (PB : prod (map (bdim bs beta) is2) = sz is2 (map beta is2)) by (rewrite sz_beta; reflexivity).
      rewrite PA, PB, !segment_ok by auto. cbn [obind].
      destruct (permuteRange_relabel (bdim bs beta) P is2 is1 x0 HP E2) as (vr & EV & _). rewrite EV. cbn [obind].
      assert (Hdp : forall x, In x is1 -> 0 < bdim bs beta x).
      { intros x Hx. unfold bdim. destruct (Hpos x Hx) as [_ F]. rewrite Forall_forall in F. apply F. apply nth_In.
        apply inrange_valid in V. apply V. exact Hx. }
      destruct (transform_relabel ieq (bdim bs beta) ieq_spec (fun v2 v1 : R => radd v1 (rmul alpha v2)) r0 r0 P is2 is1 x0
                  (seg_of bs is2 B (map beta is2) bo) (seg_of bs is1 A (map beta is1) ao) vr) as (A' & E' & HL & HE); auto.
      { apply seg_full; auto. } { apply seg_full; auto. }
      unfold seg_of in E'. rewrite E'. cbn [obind].
      assert (LA' : length A' = sz is1 (map beta is1)) by (rewrite HL; unfold seg_of; apply seg_length; auto).
      destruct (qval_put r0 bs is1 A beta ao A' HA Hin LA') as (HA' & Q1 & Q2).
      set (d' := mkQD (offs A) (put_seg ao A' (store A)) : qd R) in *.
      destruct (IH d' HA') as (S' & E & HS' & HV); auto.
      { intros y Hy. apply HI. right. exact Hy. }
      exists S'. cbn [store offs d'] in E, HS', HV. split; [exact E|]. split; [exact HS'|]. intros s Hs. rewrite HV by auto. cbn [map fst].
      match goal with |- (if ?c then _ else _) = (if ?c2 then _ else _) => destruct c as [K|K]; destruct c2 as [K2|K2] end.
      * rewrite Q2; auto. intros Q. rewrite Q in K. contradiction.
      * exfalso. apply K2. right. exact K.
      * destruct K2 as [K2|K2]; [|contradiction]. symmetry in K2. rewrite Q1 by auto.
        rewrite HE by (apply inpos_range; auto).
        rewrite (qval_seg r0 bs is1 A beta ao s HA Hin Hs K2).
        rewrite (qval_seg r0 bs is2 B beta bo s HB Hb (ranged_perm is1 is2 s (Permutation_sym PP) Hs) (blockof_beta is1 is2 s beta (Permutation_sym PP) K2)). reflexivity.
      * rewrite Q2; auto. intros Q. apply K2. left. auto.
    + rewrite (getBlock_notin is2 B _ HB V2 Hb is2_ne). cbn [obind].
      destruct (IH A HA) as (S' & E & HS' & HV); auto.
      { intros y Hy. apply HI. right. exact Hy. }
      exists S'. split; [exact E|]. split; [exact HS'|]. intros s Hs. rewrite HV by auto. cbn [map fst].
      match goal with |- (if ?c then _ else _) = (if ?c2 then _ else _) => destruct c as [K|K]; destruct c2 as [K2|K2] end; auto.
      * exfalso. apply K2. right. exact K.
      * destruct K2 as [K2|K2]; [|contradiction]. symmetry in K2.
        assert (Z : qval is2 B s = r0).
        { apply qval_notin. rewrite (blockof_beta is1 is2 s beta (Permutation_sym PP) K2). exact Hb. }
        rewrite Z. ring.
Qed.
Lemma qadd_spec alpha (A B : qd R) : stored is1 A -> stored is2 B ->
  exists C, qadd radd rmul bs P alpha is1 is2 A B = Ok C /\ stored is1 C /\ offs C = offs A /\
    forall s, ranged is1 s -> qval is1 C s =
      if in_dec (list_eq_dec Nat.eq_dec) (blockof is1 s) (map fst (offs A)) then radd (qval is1 A s) (rmul alpha (qval is2 B s)) else qval is1 A s.
Proof.
  intros HA HB. unfold qadd. destruct (add_blocks_spec alpha B HB (offs A) A HA) as (S' & E & HS & HV).
  - apply incl_refl.
  - apply (stored_nodup bs is1); auto.
  - remember (mkQD (offs A) S' : qd R) as C eqn:EC. exists C. split; [destruct is1; [congruence|]; rewrite E; cbn; rewrite EC; reflexivity|].
    split; auto. split; auto. rewrite EC. reflexivity.
Qed.
End Pair.

Lemma updateOffsets_spec is : forall bl t, Forall (valid (map nblocks is)) bl ->
  exists l n, updateOffsets_loop bs is bl t = Ok (l, n) /\ filled is t l n /\ map fst l = bl.
Proof.
  induction bl as [|b bl IH]; intros t HV; cbn [updateOffsets_loop].
  - exists [], t. repeat split; auto.
  - inversion HV; subst. rewrite bsize_spec by auto. cbn [obind]. destruct (IH (t + sz is b) H2) as (l & n & E & F & M). rewrite E. cbn [obind].
    exists ((b, t) :: l), n. cbn [map fst QdSpec.filled]. rewrite M. auto.
Qed.
Lemma sorted_of_map' {A B} (f : A -> B) (P : B -> B -> Prop) l : StronglySorted P (map f l) -> StronglySorted (fun a b => P (f a) (f b)) l.
Proof.
  induction l as [|x l IH]; intros H; constructor; cbn [map] in H; apply StronglySorted_inv in H as [HS HF]; auto.
  rewrite Forall_forall in *. intros y Hy. apply HF. apply in_map. exact Hy.
Qed.
Lemma sorted_to_map {A B} (f : A -> B) (P : B -> B -> Prop) l : StronglySorted (fun a b => P (f a) (f b)) l -> StronglySorted P (map f l).
Proof.
  induction 1 as [|x l HS IH HF]; cbn [map]; constructor; auto.
  rewrite Forall_forall in *. intros y Hy. apply in_map_iff in Hy as (z & <- & Hz). auto.
Qed.
Lemma qval_zeros is l n s : qval is (mkQD l (repeat r0 n)) s = r0.
Proof.
  unfold QdSpec.qval. cbn [offs store]. match goal with |- match ?f with _ => _ end = _ => destruct f; auto end. 
  match goal with |- nth ?k _ _ = _ => destruct (Nat.lt_ge_cases k n) end; [apply nth_repeat|apply nth_overflow; rewrite repeat_length; auto].
Qed.
Lemma qmake_blocks_spec is bl : is <> [] -> Forall (valid (map nblocks is)) bl -> StronglySorted (bless (map nblocks is)) bl ->
  exists d, qmake_blocks r0 bs is bl = Ok d /\ stored is d /\ map fst (offs d) = bl /\ forall s, qval is d s = r0.
Proof.
  intros Hn HV HS. unfold qmake_blocks. destruct (updateOffsets_spec is bl 0 HV) as (l & n & E & F & M).
  set (d := mkQD l (repeat r0 n) : qd R). exists d.
  split; [destruct is; [congruence|]; rewrite E; reflexivity|]. split; [|split; [exact M|intros s; apply qval_zeros]].
  split; cbn [offs store d]; [rewrite repeat_length; exact F|]. rewrite <- M in HS. apply sorted_of_map' in HS. exact HS.
Qed.

Lemma gather_all_ok P (l : list blof) f : (forall b, In b (map fst l) -> gather P b = Ok (f b)) -> gather_all P l = Ok (map f (map fst l)).
Proof.
  induction l as [|x l IH]; intros H; cbn [gather_all map]; auto. rewrite H by (left; auto). cbn [obind].
  rewrite IH by (intros; apply H; right; auto). reflexivity.
Qed.

Lemma perm_id_is n : is_perm n (perm_id n).
Proof.
  unfold perm_id. split; [apply seq_length|]. split; intros; rewrite !seq_nth in * by auto; lia.
Qed.
Lemma through_id (l : list I) x0 : through (perm_id (length l)) x0 l = l.
Proof. unfold through, perm_id. apply map_nth_seq. Qed.

(** The inverse permutation takes is2 back to is1. *)
Lemma through_inv P Q (is1 : list I) x0 : is_perm (length is1) P -> is_perm (length is1) Q ->
  (forall j, j < length is1 -> nth (nth j Q 0) P 0 = j) -> is1 = through Q x0 (through P x0 is1).
Proof.
  intros HP HQ H. apply (nth_ext _ _ x0 x0).
  - unfold through. rewrite map_length. symmetry. exact (proj1 HQ).
  - intros n Hn. rewrite nth_through by (rewrite (proj1 HQ); auto). rewrite nth_through.
    + rewrite H by auto. reflexivity.
    + rewrite (proj1 HP). apply (proj1 (proj2 HQ)). exact Hn.
Qed.

Theorem plusEq_spec is1 is2 x0 P alpha (A B : qd R) : proper is1 -> is1 <> [] -> is_perm (length is1) P -> is2 = through P x0 is1 ->
  stored is1 A -> stored is2 B ->
  exists C, plusEq r0 r1 radd rmul bs srt P alpha is1 is2 A B = Ok C /\ stored is1 C /\
    (forall b, In b (map fst (offs C)) -> In b (map fst (offs A)) \/
       exists beta, b = map beta is1 /\ In (map beta is2) (map fst (offs B))) /\
    (forall b, In b (map fst (offs A)) -> In b (map fst (offs C))) /\
    forall s, ranged is1 s -> qval is1 C s = radd (qval is1 A s) (rmul alpha (qval is2 B s)).
Proof.
  intros Hp Hne HP E2 HA HB. pose proof Hp as [HN Hpos].
  pose proof (pair_perm is1 is2 x0 P HP E2) as PP. pose proof (is2_ne is1 is2 x0 P HP E2 Hne) as Hne2.
  assert (HN2 : NoDup is2) by (eapply Permutation_NoDup; [symmetry; exact PP|auto]).
  unfold plusEq. destruct (store B) as [|v0 st0] eqn:ESB.
  { assert (OB : offs B = []).
    { destruct HB as [HF _]. rewrite ESB in HF. destruct (offs B) as [|[b o] l]; auto. cbn [QdSpec.filled length] in HF. destruct HF as (-> & V & HF).
      apply filled_tot in HF. assert (0 < sz is2 b); [|lia]. apply sz_pos; auto. intros x Hx. apply Hpos. eapply Permutation_in; eauto. }
    exists A. split; [reflexivity|]. split; [exact HA|]. split; [auto|]. split; [auto|]. intros s Hs.
    rewrite (qval_notin r0 bs is2 B s) by (rewrite OB; intros []). ring. }
  destruct (C12_inverse _ P HP) as (Q & EQ & HQ & Q1 & Q2).
  pose proof (through_inv P Q is1 x0 HP HQ Q2) as E1. rewrite <- E2 in E1.
  assert (L12 : length is2 = length is1) by (apply Permutation_length; auto).
  assert (HG : forall b, valid (map nblocks is2) b -> exists beta, b = map beta is2 /\ gather Q b = Ok (map beta is1) /\ valid (map nblocks is1) (map beta is1)).
  { intros b V. destruct (beta_of bs ieq ieq_spec is2 b HN2 V) as (beta & ->). exists beta. split; auto. split.
    - apply (gather_beta Q is2 is1 x0 beta); [rewrite L12; auto|auto].
    - apply (valid_beta_perm is2 is1 beta PP V). }
  assert (SVB : forall b, In b (map fst (offs B)) -> valid (map nblocks is2) b).
  { intros b Hb. pose proof (stored_valid bs is2 B HB) as SV. rewrite Forall_forall in SV. apply in_map_iff in Hb as (x & <- & Hx). auto. }
  pose (f := fun b : block => match gather Q b with Ok c => c | _ => [] end).
  assert (EG : gather_all Q (offs B) = Ok (map f (map fst (offs B)))).
  { apply gather_all_ok. intros b Hb. destruct (HG b (SVB b Hb)) as (beta & -> & E & _). unfold f. rewrite E. reflexivity. }
  assert (FB : forall beta, valid (map nblocks is2) (map beta is2) -> f (map beta is2) = map beta is1).
  { intros beta V. unfold f. rewrite (gather_beta Q is2 is1 x0 beta) by (rewrite ?L12; auto). reflexivity. }
  set (bp0 := map f (map fst (offs B))) in *.
  assert (SVA : Forall (valid (map nblocks is1)) (map fst (offs A))).
  { apply Forall_forall. intros b Hb. pose proof (stored_valid bs is1 A HA) as SV. rewrite Forall_forall in SV. apply in_map_iff in Hb as (x & <- & Hx). auto. }
  assert (VB : Forall (valid (map nblocks is1)) bp0).
  { apply Forall_forall. intros b Hb. apply in_map_iff in Hb as (c & <- & Hc). destruct (HG c (SVB c Hc)) as (beta & -> & E & V). rewrite FB; auto. }
  assert (NB : NoDup bp0).
  { unfold bp0. pose proof (stored_nodup bs is2 B HB) as ND. revert SVB ND. generalize (map fst (offs B)) as l. induction l as [|c l IHl]; intros SV ND; cbn [map]; constructor; apply NoDup_cons_iff in ND as [H1 H2].
    - intros Hc. apply in_map_iff in Hc as (c' & E & Hc'). destruct (HG c (SV c (or_introl eq_refl))) as (beta & -> & _ & _).
      destruct (HG c' (SV c' (or_intror Hc'))) as (beta' & -> & _ & _). rewrite !FB in E by (apply SV; cbn; auto).
      apply H1. replace (map beta is2) with (map beta' is2); auto.
      apply map_ext_in. intros x Hx. apply (map_eq_in _ _ _ E). eapply Permutation_in; eauto.
    - apply IHl; auto. intros; apply SV; right; auto. }
  destruct (sorts_blocks srt Hsrt bp0) as [PB SB]. set (bp := srt block block_lt bp0) in *.
  assert (VBp : Forall (valid (map nblocks is1)) bp) by (eapply Permutation_Forall; [exact PB|auto]).
  assert (SBp : StronglySorted (bless (map nblocks is1)) bp) by (apply sorted_strict; auto; eapply Permutation_NoDup; eauto).
  assert (SA : StronglySorted (bless (map nblocks is1)) (map fst (offs A))) by (apply sorted_to_map; apply HA).
  set (cb := bmerge (map fst (offs A)) bp).
  assert (CS : StronglySorted (bless (map nblocks is1)) cb) by (apply bmerge_sorted; auto).
  assert (CI : forall b, In b cb <-> In b (map fst (offs A)) \/ In b bp0).
  { intros b. unfold cb. rewrite bmerge_in. split; (intros [H|H]; [left; auto|right]); [eapply Permutation_in; [symmetry; exact PB|auto]|eapply Permutation_in; [exact PB|auto]]. }
  assert (CV : Forall (valid (map nblocks is1)) cb).
  { rewrite Forall_forall in *. intros b Hb. apply CI in Hb as [Hb|Hb]; auto. }
  assert (BI : forall s, In (blockof is2 s) (map fst (offs B)) -> In (blockof is1 s) bp0).
  { intros s Hs. unfold bp0. apply in_map_iff. exists (blockof is2 s). split; auto. rewrite !blockof_inblk in *. apply FB. auto. }
  assert (CB : forall b, In b cb -> In b (map fst (offs A)) \/ exists beta, b = map beta is1 /\ In (map beta is2) (map fst (offs B))).
  { intros b Hb. apply CI in Hb as [Hb|Hb]; auto. right. unfold bp0 in Hb. apply in_map_iff in Hb as (c & <- & Hc).
    destruct (HG c (SVB c Hc)) as (beta & -> & _ & _). exists beta. rewrite FB by auto. auto. }
  destruct is1 as [|y is1'] eqn:E1'; [congruence|]. rewrite <- E1' in *.
  rewrite EQ. cbn [obind]. rewrite EG. cbn [obind]. fold bp. fold cb.
  destruct (Nat.ltb_spec (length (offs A)) (length cb)) as [LT|GE].
  - destruct (qmake_blocks_spec is1 cb Hne CV CS) as (n0 & En & Sn & On & Zn). rewrite En. cbn [obind].
    destruct (qadd_spec is1 is1 x0 (perm_id (length is1)) Hp (perm_id_is _) (eq_sym (through_id is1 x0)) Hne r1 n0 A Sn HA) as (n1 & E1n & S1 & O1 & V1).
    rewrite E1n. cbn [obind].
    destruct (qadd_spec is1 is2 x0 P Hp HP E2 Hne alpha n1 B S1 HB) as (C & EC & SC & OC & VC).
    exists C. split; [exact EC|]. split; [exact SC|]. rewrite OC, O1, On. split; [exact CB|].
    split; [intros b Hb; apply CI; left; auto|].
    intros s Hs. rewrite VC, V1 by auto. rewrite O1, On, Zn.
    destruct (in_dec (list_eq_dec Nat.eq_dec) (blockof is1 s) cb) as [K|K]; [ring|].
    rewrite (qval_notin r0 bs is1 A s) by (intros Q'; apply K; apply CI; left; auto).
    rewrite (qval_notin r0 bs is2 B s) by (intros Q'; apply K; apply CI; right; auto). ring.
  - destruct (qadd_spec is1 is2 x0 P Hp HP E2 Hne alpha A B HA HB) as (C & EC & SC & OC & VC).
    exists C. split; [exact EC|]. split; [exact SC|]. rewrite OC. split; [auto|]. split; [auto|].
    assert (IC : incl cb (map fst (offs A))).
    { apply NoDup_length_incl; [apply (stored_nodup bs is1); auto|rewrite map_length; auto|intros b Hb; apply CI; left; auto]. }
    intros s Hs. rewrite VC by auto.
    destruct (in_dec (list_eq_dec Nat.eq_dec) (blockof is1 s) (map fst (offs A))) as [K|K]; [ring|].
    rewrite (qval_notin r0 bs is2 B s) by (intros Q'; apply K, IC, CI; right; auto). ring.
Qed.
End Add.

Section Arrows.
Context {I : Type} (ieq : I -> I -> bool) (ieq_spec : forall a b, ieq a b = true <-> a = b).
Lemma arrow_eqb_spec a b : arrow_eqb a b = true <-> a = b.
Proof. destruct a, b; cbn; split; congruence. Qed.
Lemma checkArrows_same dirL dirR Lis Ris : checkArrows ieq dirL dirR Lis Ris true = Ok tt <-> (forall x, In x Lis -> In x Ris -> dirL x = dirR x).
Proof.
  unfold checkArrows. destruct (existsb _ Lis) eqn:E; split; try discriminate; auto.
  - intros H. exfalso. apply existsb_exists in E as (x & Hx & E). apply existsb_exists in E as (y & Hy & E). apply andb_true_iff in E as [E1 E2].
    apply ieq_spec in E1. subst y. cbn [xorb] in E2. rewrite (proj2 (arrow_eqb_spec _ _) (H x Hx Hy)) in E2. discriminate.
  - intros _ x Hx Hy. apply arrow_eqb_spec. destruct (arrow_eqb (dirL x) (dirR x)) eqn:K; auto. exfalso.
    assert (T : existsb (fun x => existsb (fun y => ieq x y && xorb true (arrow_eqb (dirL x) (dirR y))) Ris) Lis = true).
    { apply existsb_exists. exists x. split; auto. apply existsb_exists. exists x. split; auto. rewrite K, (proj2 (ieq_spec x x) eq_refl). reflexivity. }
    congruence.
Qed.
Lemma checkArrows_opp dirL dirR Lis Ris : checkArrows ieq dirL dirR Lis Ris false = Ok tt <-> (forall x, In x Lis -> In x Ris -> dirL x <> dirR x).
Proof.
  unfold checkArrows. destruct (existsb _ Lis) eqn:E; split; try discriminate; auto.
  - intros H. exfalso. apply existsb_exists in E as (x & Hx & E). apply existsb_exists in E as (y & Hy & E). apply andb_true_iff in E as [E1 E2].
    apply ieq_spec in E1. subst y. cbn [xorb] in E2. apply (H x Hx Hy). apply arrow_eqb_spec. destruct (arrow_eqb (dirL x) (dirR x)); auto.
  - intros _ x Hx Hy Q. apply arrow_eqb_spec in Q.
    assert (T : existsb (fun x => existsb (fun y => ieq x y && xorb false (arrow_eqb (dirL x) (dirR y))) Ris) Lis = true).
    { apply existsb_exists. exists x. split; auto. apply existsb_exists. exists x. split; auto. rewrite Q, (proj2 (ieq_spec x x) eq_refl). reflexivity. }
    congruence.
Qed.
Lemma checkArrows_cases dirL dirR Lis Ris b : checkArrows ieq dirL dirR Lis Ris b = Ok tt \/ checkArrows ieq dirL dirR Lis Ris b = Err.
Proof. unfold checkArrows. destruct (existsb _ Lis); auto. Qed.
End Arrows.
