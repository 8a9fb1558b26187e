(** Properties C10 (offset bijection), C11 (loops visit every element once), C12 (permutations). *)
From Coq Require Import List ZArith Lia Bool Arith Permutation.
From Verif Require Import Util RangeModel RangeSpec RangeProofs.
Import ListNotations.

Local Arguments Nat.sub : simpl never.

(** ** C10 *)
(** For a range built from extents, the offset is a bijection from the valid multi-indices (counted from [start])
    onto 0..dim-1. *)
Theorem C10_offset_bijection : forall start e, let r := range_init e in
  dim r = size e /\
  (forall t, valid e t -> exists k, offset start r (shift start t) = Ok k /\ k < size e) /\
  (forall t t' k, valid e t -> valid e t' ->
     offset start r (shift start t) = Ok k -> offset start r (shift start t') = Ok k -> t = t') /\
  (forall k, k < size e -> exists t, valid e t /\ offset start r (shift start t) = Ok k).
Proof.
  intros start e r. unfold r, range_init.
  assert (HO : forall t, valid e t -> offset start (with_strides 1 e) (shift start t) = Ok (enc e t)).
  { intros t H. pose proof (valid_length e t H).
    rewrite offset_dot by (rewrite with_strides_length; lia). rewrite dot_with_strides by auto. f_equal. lia. }
  split; [|split; [|split]].
  - rewrite dim_size, map_ext_range_init. reflexivity.
  - intros t H. exists (enc e t). split; [now apply HO|now apply enc_lt].
  - intros t t' k H H' E E'. rewrite HO in E, E' by auto. apply (enc_inj e); auto. congruence.
  - intros k Hk. exists (decode e k). split; [now apply decode_valid|].
    rewrite HO by now apply decode_valid. now rewrite enc_decode.
Qed.

(** The order is column-major: the first index is the fastest. *)
Theorem C10_column_major : forall start e t k, valid e t ->
  offset start (range_init e) (shift start t) = Ok k ->
  k = fold_right (fun p acc => snd p + fst p * acc) 0 (combine e t).
Proof.
  intros start e t k H E. pose proof (valid_length e t H).
  unfold range_init in E. rewrite offset_dot in E by (rewrite with_strides_length; lia).
  rewrite dot_with_strides in E by auto. injection E as <-. rewrite ?Nat.mul_1_l, ?Nat.add_0_r.
  clear. revert t. induction e as [|d e IH]; intros [|i t]; simpl; auto.
Qed.

(** Reordering the indices of such a range, strides included, (as permuted tensor views do) keeps the bijection
    and is reported contiguous. *)
Theorem C10_reordered : forall start e r, (forall d, In d e -> 0 < d) -> Permutation (range_init e) r ->
  isContiguous r = true /\
  (forall t, valid (map ext r) t -> exists k, offset start r (shift start t) = Ok k /\ k < size e) /\
  (forall t t' k, valid (map ext r) t -> valid (map ext r) t' ->
     offset start r (shift start t) = Ok k -> offset start r (shift start t') = Ok k -> t = t') /\
  (forall k, k < size e -> exists t, valid (map ext r) t /\ offset start r (shift start t) = Ok k).
Proof.
  intros start e r Hpos HP.
  destruct (perm_tuples _ _ HP) as (f & g & A & B).
  unfold range_init in *. rewrite map_ext_range_init in *.
  assert (HO : forall t, valid (map ext r) t -> offset start r (shift start t) = Ok (enc e (g t))).
  { intros t H. pose proof (valid_length _ t H) as HL. rewrite map_length in HL.
    rewrite offset_dot by lia. destruct (B t H) as (B1 & B2 & B3). rewrite <- B2.
    rewrite dot_with_strides by now apply valid_length. f_equal. lia. }
  split; [|split; [|split]].
  - assert (HD : forall r1 r2, Permutation r1 r2 -> dim r1 = dim r2 /\ max_offset r1 = max_offset r2).
    { intros r1 r2 H; induction H; simpl; intuition; try nia; congruence. }
    destruct (HD _ _ HP) as [D1 D2]. unfold isContiguous. rewrite <- D1, <- D2.
    apply Nat.eqb_eq. rewrite dim_size, map_ext_range_init.
    assert (HM : forall e s, (forall d, In d e -> 0 < d) -> max_offset (with_strides s e) = s * (size e - 1)).
    { clear. induction e as [|d e IH]; intros s H; simpl; [lia|].
      rewrite IH by (intros; apply H; simpl; auto).
      assert (0 < d) by (apply H; simpl; auto). assert (0 < size e) by (apply size_pos; intros; apply H; simpl; auto).
      rewrite !Nat.mul_sub_distr_l. nia. }
    rewrite HM by auto. pose proof (size_pos e Hpos). lia.
  - intros t H. exists (enc e (g t)). split; [now apply HO|]. apply enc_lt. now apply B.
  - intros t t' k H H' E E'. rewrite HO in E, E' by auto.
    destruct (B t H) as (B1 & _ & B3), (B t' H') as (B1' & _ & B3').
    rewrite <- B3, <- B3'. f_equal. apply (enc_inj e); auto. congruence.
  - intros k Hk. exists (f (decode e k)). destruct (A (decode e k)) as (A1 & A2 & A3); [now apply decode_valid|].
    split; auto. rewrite HO by auto. rewrite A3. now rewrite enc_decode.
Qed.

(** isContiguous is right exactly for ranges whose offsets do not collide: then it holds
    iff the offsets fill 0..dim-1. *)
Theorem C10_isContiguous : forall r, (forall x, In x r -> 1 <= ext x) ->
  (forall t t', valid (map ext r) t -> valid (map ext r) t' -> offset 0 r t = offset 0 r t' -> t = t') ->
  (isContiguous r = true <-> forall k, k < dim r <-> exists t, valid (map ext r) t /\ offset 0 r t = Ok k).
Proof.
  intros r Hpos Hinj.
  assert (HO : forall t, valid (map ext r) t -> offset 0 r t = Ok (dot r t)).
  { intros t H. pose proof (valid_length _ t H) as HL. rewrite map_length in HL.
    rewrite <- (offset_dot 0 r t) by lia. f_equal. unfold shift. erewrite map_ext; [symmetry; apply map_id|]. intros; simpl; lia. }
  assert (HD : 0 < dim r).
  { rewrite dim_size. apply size_pos. intros d Hd. apply in_map_iff in Hd as (x & <- & Hx). now apply Hpos in Hx. }
  unfold isContiguous. rewrite Nat.eqb_eq. split.
  - intros HC k. split.
    + intros Hk.
      set (L := map (dot r) (all_tuples (map ext r))).
      assert (HN : NoDup L).
      { unfold L. assert (G : forall l, (forall t, In t l -> valid (map ext r) t) -> NoDup l -> NoDup (map (dot r) l)).
        { induction l as [|t l IH]; intros Hv Hn; simpl; constructor; inversion Hn; subst.
          - intros K. apply in_map_iff in K as (t' & E & Ht').
            assert (t' = t); [|subst; auto]. apply Hinj; try (apply Hv; simpl; auto).
            rewrite !HO by (apply Hv; simpl; auto). now rewrite E.
          - apply IH; auto. intros; apply Hv; simpl; auto. }
        apply G; [|apply all_tuples_nodup]. intros t Ht. now apply in_all_tuples. }
      assert (HI : incl (seq 0 (dim r)) L).
      { apply NoDup_length_incl; auto.
        - unfold L, all_tuples. rewrite !map_length, !seq_length, dim_size. lia.
        - intros x Hx. unfold L in Hx. apply in_map_iff in Hx as (t & <- & Ht). apply in_all_tuples in Ht.
          apply in_seq. pose proof (dot_le_max r t Ht). lia. }
      specialize (HI k ltac:(apply in_seq; lia)). unfold L in HI. apply in_map_iff in HI as (t & E & Ht).
      apply in_all_tuples in Ht. exists t. split; auto. rewrite HO by auto. congruence.
    + intros (t & Ht & E). rewrite HO in E by auto. injection E as <-. pose proof (dot_le_max r t Ht). lia.
  - intros H. destruct (valid_max r Hpos) as [V E].
    assert (X : max_offset r < dim r). { apply H. eexists; split; [exact V|]. rewrite HO by auto. congruence. }
    destruct (proj1 (H (dim r - 1)) ltac:(lia)) as (t & Ht & Et). rewrite HO in Et by auto. injection Et as Et.
    pose proof (dot_le_max r t Ht). lia.
Qed.

Example C10_nonvacuous : 
  offset 1 (range_init [3; 4; 2]) [2; 3; 2] = Ok 19 /\ valid [3; 4; 2] [1; 2; 1] /\
  isContiguous (range_build [(4, 3); (3, 1); (2, 12)]) = true /\
  isContiguous (range_build [(4, 3); (2, 1)]) = false.
Proof. repeat split; repeat constructor. Qed.

(** Finding: with colliding offsets isContiguous can say yes although offsets 1 and 2 are never reached
    (extents (2,2), strides (3,0)): the argument in the source comment is not valid. *)
Theorem C10_isContiguous_refuted : exists r, isContiguous r = true /\ dim r = 4 /\
  forall t, valid (map ext r) t -> offset 0 r t = Ok 0 \/ offset 0 r t = Ok 3.
Proof.
  exists (range_build [(2, 3); (2, 0)]). repeat split; auto.
  intros t H. cbn in H. inversion H as [|? i ? t' Hi HT]; subst. inversion HT as [|? j ? t'' Hj HT']; subst. inversion HT'; subst.
  destruct i as [|[|i]]; [left|right|exfalso; lia]; simpl; reflexivity.
Qed.

(** Finding: too many index values read past the stride array. *)
Theorem C10_too_many_refuted : forall e start i, 
  offset start (range_init e) (repeat start (length e) ++ [i]) = UB.
Proof.
  intros e start i. unfold range_init. generalize 1. induction e as [|d e IH]; intros s; simpl; auto. rewrite IH. reflexivity.
Qed.

(** ** C11 *)
(** A loop over a range visits every multi-index exactly once, in column-major order, with its offset, and ends. *)
Theorem C11_range_loop : forall start (r : range),
  r <> [] -> (forall x, In x r -> 0 < ext x) ->
  exists visits fuel, riter_loop fuel start r (riter_begin start r) = Ok (Some visits) /\
    NoDup (map fst visits) /\
    (forall t, valid (map ext r) t <-> In (shift start t) (map fst visits)) /\
    (forall i o, In (i, o) visits -> offset start r i = Ok o) /\
    length visits = dim r /\
    (forall n i, nth_error (map fst visits) n = Some i ->
        offset start (normalRange r) i = Ok n).
Proof.
  intros start r Hr Hpos.
  assert (Hpos' : forall d, In d (map ext r) -> 0 < d).
  { intros d Hd. apply in_map_iff in Hd as (x & <- & Hx). auto. }
  pose proof (size_pos _ Hpos') as HS.
  pose proof (riter_loop_spec start r Hr (size (map ext r)) 0 ltac:(lia) HS) as E. cbv zeta in E.
  rewrite decode_zero, dot_repeat0, map_length, shift_repeat0 in E by auto.
  eexists _, _. split; [exact E|].
  set (e := map ext r) in *.
  assert (HM : map fst (map (fun j => (shift start (decode e j), dot r (decode e j))) (seq 0 (size e)))
               = map (shift start) (all_tuples e)).
  { unfold all_tuples. rewrite !map_map. reflexivity. }
  assert (HSI : forall t t', shift start t = shift start t' -> t = t').
  { unfold shift. induction t as [|a t IH]; intros [|b t'] K; simpl in K; try discriminate; auto.
    injection K as K1 K2. f_equal; [lia|auto]. }
  rewrite HM. split; [|split; [|split; [|split]]].
  - pose proof (all_tuples_nodup e) as HN. clear HM. induction HN; simpl; constructor; auto.
    intros K. apply in_map_iff in K as (t' & K1 & K2). apply HSI in K1. subst; auto.
  - intros t. rewrite in_map_iff. split.
    + intros Ht. exists t. split; auto. now apply in_all_tuples.
    + intros (t' & K1 & K2). apply HSI in K1. subst. now apply in_all_tuples.
  - intros i o H. apply in_map_iff in H as (j & K & _). injection K as <- <-.
    apply offset_dot. unfold e. rewrite decode_length, map_length. lia.
  - rewrite map_length, seq_length. symmetry. apply dim_size.
  - intros n i H. unfold all_tuples in H. rewrite map_map in H.
    assert (Hn : n < size e). { (assert (X : nth_error (map (fun x : nat => shift start (decode e x)) (seq 0 (size e))) n <> None) by congruence; apply nth_error_Some in X; rewrite map_length, seq_length in X; exact X). }
    rewrite nth_error_map in H. rewrite (nth_error_nth' (seq 0 (size e)) 0) in H by (rewrite seq_length; auto).
    rewrite seq_nth in H by auto. injection H as <-. simpl.
    unfold normalRange, range_init. fold e.
    rewrite offset_dot by (rewrite with_strides_length, decode_length; lia).
    rewrite dot_with_strides by apply decode_length. rewrite enc_decode by auto. f_equal. lia.
Qed.

(** A GCounter loop visits every combination of values within its bounds exactly once, counting them. *)
Theorem C11_gcounter_loop : forall rs : list (Z * Z),
  rs <> [] -> (forall f l, In (f, l) rs -> (f <= l)%Z) ->
  exists visits fuel, gc_loop fuel (gc_make rs) = Ok (Some visits) /\
    NoDup (map fst visits) /\
    (forall v, valid_between rs v <-> In v (map fst visits)) /\
    map snd visits = seq 0 (length visits).
Proof.
  intros rs Hr Hpos.
  assert (Hpos' : forall d, In d (gext rs) -> 0 < d).
  { intros d Hd. apply in_map_iff in Hd as ([f l] & <- & Hx). simpl. specialize (Hpos f l Hx). lia. }
  pose proof (size_pos _ Hpos') as HS.
  pose proof (gc_loop_spec rs Hr (size (gext rs)) 0 ltac:(lia) HS) as E.
  rewrite decode_zero in E by auto. unfold gext in E at 2. rewrite map_length, gshift_zero in E.
  eexists _, _. split; [exact E|].
  assert (HM : map fst (map (fun j => (gshift rs (decode (gext rs) j), j)) (seq 0 (size (gext rs))))
               = map (gshift rs) (all_tuples (gext rs))).
  { unfold all_tuples. rewrite !map_map. reflexivity. }
  assert (HLn : forall t, In t (all_tuples (gext rs)) -> length t = length rs).
  { intros t Ht. apply in_all_tuples, valid_length in Ht. unfold gext in Ht. now rewrite map_length in Ht. }
  rewrite HM. split; [|split].
  - pose proof (all_tuples_nodup (gext rs)) as HN. clear HM. revert HLn. induction HN; simpl; intros HLn; constructor; auto.
    intros K. apply in_map_iff in K as (t' & K1 & K2). apply gshift_inj in K1; auto. subst; auto.
  - intros v. rewrite in_map_iff. split.
    + intros Hv. destruct (gshift_onto rs v Hv) as (t & A & B). exists t. split; auto. now apply in_all_tuples.
    + intros (t & <- & Ht). apply gshift_valid. now apply in_all_tuples.
  - rewrite map_map. cbn [snd]. rewrite map_id, map_length, seq_length. reflexivity.
Qed.

Example C11_nonvacuous :
  riter_loop 10 1 (range_build [(2, 2); (2, 1)]) (riter_begin 1 (range_build [(2, 2); (2, 1)]))
    = Ok (Some [([1; 1], 0); ([2; 1], 2); ([1; 2], 1); ([2; 2], 3)]) /\
  gc_loop 10 (gc_make [(0, 1); (5, 6)]%Z) = Ok (Some [([0; 5]%Z, 0); ([1; 5]%Z, 1); ([0; 6]%Z, 2); ([1; 6]%Z, 3)]).
Proof. split; reflexivity. Qed.

(** Finding: a range whose first extent is zero is looped over forever. *)
Theorem C11_zero_extent_refuted : forall fuel start s r,
  riter_loop fuel start (IS 0 s :: r) (riter_begin start (IS 0 s :: r)) = Ok None.
Proof.
  intros fuel start s r. unfold riter_begin. cbn [length repeat].
  assert (G : forall f i off ind, start <= i -> riter_loop f start (IS 0 s :: r) (RI (Some off) (i :: ind)) = Ok None).
  { induction f as [|f IH]; intros i off ind Hi; cbn [riter_loop it_off]; auto.
    unfold riter_next; cbn [it_ind it_off ext str].
    destruct (Nat.eqb_spec (i + 1 - start) 0); [lia|]. cbn [obind].
    rewrite IH by lia. reflexivity. }
  apply G. lia.
Qed.

(** Finding: a GCounter position with an empty range is still visited. *)
Theorem C11_gcounter_empty_refuted : exists f l visits, (l < f)%Z /\
  gc_loop 5 (gc_make [(f, l)]) = Ok (Some visits) /\ visits <> [].
Proof. exists 0%Z, (-1)%Z. eexists. split; [lia|]. split; [reflexivity|discriminate]. Qed.

(** Finding: counters over no position at all read and write outside their storage. *)
Theorem C11_order_zero_refuted : forall fuel start,
  riter_loop (S fuel) start [] (riter_begin start []) = UB /\ gc_loop (S fuel) (gc_make []) = UB.
Proof. intros; split; reflexivity. Qed.

(** Finding: the postfix increment leaves the iterator where it was (and returns the advanced copy). *)
Theorem C11_postfix_refuted : forall start r it a b, riter_postinc start r it = Ok (a, b) ->
  b = it /\ riter_next start r it = Ok a.
Proof. unfold riter_postinc. intros start r it a b H. destruct (riter_next start r it); try discriminate. injection H as <- <-. auto. Qed.

(** ** C12 *)
(** calcPerm succeeds on two arrangements of the same elements, and the result
    sends each position of the first to the position of the same element in the second. *)
Theorem C12_calcPerm : forall T (teq : T -> T -> bool) (d : T) s1 s2,
  (forall a b, teq a b = true <-> a = b) -> NoDup s1 -> Permutation s1 s2 ->
  exists P, calcPerm teq s1 s2 = Ok P /\ is_perm (length s1) P /\
    (forall i, i < length s1 -> nth (nth i P 0) s2 d = nth i s1 d).
Proof.
  intros T teq d s1 s2 Ht HN HP.
  assert (HN2 : NoDup s2) by (eapply Permutation_NoDup; eauto).
  assert (HL : length s1 = length s2) by now apply Permutation_length.
  destruct (calcPerm_loop_spec teq Ht d s1 HN s2 0 (perm_id (length s1)) HN2) as (P & E & L & A & _).
  - intros x Hx. eapply Permutation_in; [apply Permutation_sym; exact HP|auto].
  - apply seq_length.
  - exists P. split; [exact E|].
    assert (X : forall i, i < length s1 -> nth i P 0 < length s1 /\ nth (nth i P 0) s2 d = nth i s1 d).
    { intros i Hi. destruct (A i Hi) as (j & J1 & J2 & J3).
      - eapply Permutation_in; [exact HP|]. now apply nth_In.
      - rewrite J2. simpl. split; [lia|auto]. }
    split; [|intros i Hi; now apply X]. repeat split; auto.
    + intros i Hi. now apply X.
    + intros i j Hi Hj K. apply (NoDup_nth s1 d); auto.
      rewrite <- (proj2 (X i Hi)), <- (proj2 (X j Hj)). now rewrite K.
Qed.

(** calcPerm throws when the second has an element the first lacks. *)
Theorem C12_calcPerm_throws : forall T (teq : T -> T -> bool) s1 s2,
  (forall a b, teq a b = true <-> a = b) -> ~ incl s2 s1 -> calcPerm teq s1 s2 = Err.
Proof. intros T teq s1 s2 Ht H. apply calcPerm_loop_err; auto. apply seq_length. Qed.

(** inverse is a two-sided inverse. *)
Theorem C12_inverse : forall n P, is_perm n P ->
  exists Q, inverse P = Ok Q /\ is_perm n Q /\
    (forall i, i < n -> nth (nth i P 0) Q 0 = i) /\ (forall j, j < n -> nth (nth j Q 0) P 0 = j).
Proof.
  intros n P HP. pose proof (is_perm_nodup n P HP) as HN. pose proof HP as (HL & HB & HI).
  destruct (inverse_loop_spec P 0 (perm_id (length P)) HN) as (Q & E & L & A & _).
  { intros d Hd. unfold perm_id. rewrite seq_length. apply (In_nth _ _ 0) in Hd as (i & Hi & <-). rewrite HL. apply HB; lia. }
  exists Q. split; [exact E|].
  unfold perm_id in L. rewrite seq_length in L.
  assert (A' : forall i, i < n -> nth (nth i P 0) Q 0 = i) by (intros; apply A; lia).
  assert (B' : forall j, j < n -> nth (nth j Q 0) P 0 = j /\ nth j Q 0 < n).
  { intros j Hj. destruct (is_perm_surj n P j HP Hj) as (i & Hi & <-). rewrite A' by auto. auto. }
  split; [|split; auto; intros; now apply B'].
  repeat split; [lia| |].
  - intros i Hi. now apply B'.
  - intros i j Hi Hj K. rewrite <- (proj1 (B' i Hi)), <- (proj1 (B' j Hj)). now rewrite K.
Qed.

(** permute moves the i-th entry to position dest(i); permuting the first set with calcPerm gives the second. *)
Theorem C12_permute : forall T (d : T) n P (from to : list T), is_perm n P -> length from = n -> length to = n ->
  exists to', permute_loop P from to = Ok to' /\ length to' = n /\
    (forall i, i < n -> nth (nth i P 0) to' d = nth i from d).
Proof.
  intros T d n P from to HP HF HT. pose proof (is_perm_nodup n P HP) as HN. pose proof HP as (HL & HB & HI).
  destruct (permute_loop_spec d P from to) as (to' & E & L & A & _); auto; try lia.
  { intros x Hx. apply (In_nth _ _ 0) in Hx as (i & Hi & <-). rewrite HT. apply HB; lia. }
  exists to'. repeat split; auto; try lia. intros i Hi. apply A. lia.
Qed.

Theorem C12_permute_calcPerm : forall T (teq : T -> T -> bool) s1 s2,
  (forall a b, teq a b = true <-> a = b) -> NoDup s1 -> Permutation s1 s2 -> forall to, length to = length s1 ->
  exists P, calcPerm teq s1 s2 = Ok P /\ permute_loop P s1 to = Ok s2.
Proof.
  intros T teq s1 s2 Ht HN HP to HT. destruct s1 as [|d s1'] eqn:Es.
  - apply Permutation_nil in HP; subst. destruct to; [|discriminate]. exists []. split; reflexivity.
  - rewrite <- Es in *. destruct (C12_calcPerm T teq d s1 s2 Ht HN HP) as (P & E & HPm & A).
    exists P. split; auto.
    destruct (C12_permute T d (length s1) P s1 to HPm eq_refl HT) as (to' & E' & L & B).
    rewrite E'. f_equal. apply (nth_ext _ _ d d).
    + rewrite L. now apply Permutation_length.
    + intros j Hj. rewrite L in Hj. destruct (is_perm_surj _ P j HPm Hj) as (i & Hi & <-).
      rewrite B, A by auto. reflexivity.
Qed.

(** isTrivial recognises exactly the identity. *)
Theorem C12_isTrivial : forall n P, length P = n -> (isTrivial P = true <-> forall i, i < n -> nth i P 0 = i).
Proof.
  intros n P HL. unfold isTrivial. rewrite isTrivial_from_spec. rewrite HL. split.
  - intros -> i Hi. rewrite seq_nth by auto. lia.
  - intros H. apply (nth_ext _ _ 0 0); [now rewrite seq_length|]. intros i Hi.
    rewrite H, seq_nth by lia. lia.
Qed.

Example C12_nonvacuous :
  calcPerm Nat.eqb [10; 20; 30] [30; 10; 20] = Ok [1; 2; 0] /\
  inverse [1; 2; 0] = Ok [2; 0; 1] /\ is_perm 3 [1; 2; 0] /\
  permute_loop [1; 2; 0] [10; 20; 30] [0; 0; 0] = Ok [30; 10; 20].
Proof.
  repeat split; try reflexivity.
  - intros [|[|[|]]] H; simpl; lia.
  - intros [|[|[|]]] [|[|[|]]]; simpl; lia.
Qed.

(** Finding: when the second set is only part of the first, calcPerm returns something that is not a permutation. *)
Theorem C12_calcPerm_subset_refuted : exists s1 s2 P, NoDup s1 /\ ~ Permutation s1 s2 /\
  calcPerm Nat.eqb s1 s2 = Ok P /\ ~ is_perm (length s1) P.
Proof.
  exists [1; 2], [2], [0; 0]. repeat split.
  - repeat constructor; simpl; intuition lia.
  - intros H. apply Permutation_length in H. discriminate.
  - intros (_ & _ & H). specialize (H 0 1 ltac:(simpl; lia) ltac:(simpl; lia) eq_refl). discriminate.
Qed.

Print Assumptions C10_offset_bijection.
Print Assumptions C10_column_major.
Print Assumptions C10_reordered.
Print Assumptions C10_isContiguous.
Print Assumptions C10_isContiguous_refuted.
Print Assumptions C10_too_many_refuted.
Print Assumptions C11_range_loop.
Print Assumptions C11_gcounter_loop.
Print Assumptions C11_zero_extent_refuted.
Print Assumptions C11_gcounter_empty_refuted.
Print Assumptions C11_order_zero_refuted.
Print Assumptions C11_postfix_refuted.
Print Assumptions C12_calcPerm.
Print Assumptions C12_calcPerm_throws.
Print Assumptions C12_inverse.
Print Assumptions C12_permute.
Print Assumptions C12_permute_calcPerm.
Print Assumptions C12_isTrivial.
Print Assumptions C12_calcPerm_subset_refuted.
