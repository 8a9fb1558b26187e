(** Dropping the quantum numbers. *)
From Coq Require Import List ZArith Lia Bool Arith Permutation Sorted.
From Verif Require Import Util RangeModel RangeSpec RangeProofs TensorModel TensorSpec TensorProofs SemProofs
  ContractModel DenseModel DenseProofs LabelProofs QnModel QdModel QdSpec QdProofs QdAdd QdKernel QdEntries QdLoop QdSum.
Import ListNotations.
Open Scope outcome_scope.
Local Arguments Nat.sub : simpl never.

Section Dense.
Context {R : Type} (r0 : R) {I : Type} (ieq : I -> I -> bool) (ieq_spec : forall a b, ieq a b = true <-> a = b) (bs : I -> list nat).
Notation nblocks := (nblocks bs).
Notation ranged := (ranged bs).
Notation blockof := (blockof bs).
Notation placeof := (placeof bs).
Notation qval := (qval r0 bs).
Notation total := (total bs).
Notation stored := (stored bs).
Notation proper := (proper bs).
Notation sz := (sz bs).
Notation bdim := (bdim bs).
Notation inpos := (inpos bs).
Notation inblk := (inblk bs).
Notation glue := (glue bs).

Lemma select_firstn (l : list nat) i : i <= length l -> select l (seq 0 i) = Ok (firstn i l).
Proof.
  intros H. rewrite (select_spec 0) by (intros k Hk; apply in_seq in Hk; lia). f_equal.
  revert i H. induction l as [|n l IH]; intros [|i] H; cbn [length] in H; try lia; try reflexivity.
  cbn [firstn seq map]. f_equal. rewrite <- seq_shift, map_map. cbn [nth]. apply IH. lia.
Qed.
Definition bnds (beta : I -> nat) (x : I) : Z * Z :=
  (Z.of_nat (start (bs x) (beta x)), (Z.of_nat (start (bs x) (beta x)) + Z.of_nat (bdim beta x) - 1)%Z).
Lemma block_bounds_spec beta : forall is, (forall x, In x is -> beta x < nblocks x) -> block_bounds bs is (map beta is) = Ok (map (bnds beta) is).
Proof.
  induction is as [|x is IH]; intros H; cbn [block_bounds map]; auto. assert (Hx : beta x < nblocks x) by (apply H; left; auto). unfold QdSpec.nblocks in Hx.
  rewrite select_firstn by lia. cbn [obind]. rewrite (oget_ok 0) by exact Hx. cbn [obind]. rewrite IH by (intros; apply H; right; auto). reflexivity.
Qed.
Lemma gext_bnds beta is : gext (map (bnds beta) is) = map (bdim beta) is.
Proof. unfold gext. rewrite map_map. apply map_ext. intros x. unfold bnds. cbn [fst snd]. lia. Qed.
Lemma gshift_bnds beta p : forall is, gshift (map (bnds beta) is) (map p is) = map Z.of_nat (map (glue beta p) is).
Proof. induction is as [|x is IH]; cbn [map gshift bnds]; auto. rewrite IH. f_equal. unfold QdSum.glue. lia. Qed.

Lemma copy_elts_spec is beta (pd : list R) o : is <> [] -> NoDup is -> (forall x, In x is -> beta x < nblocks x) -> o + sz is (map beta is) <= length pd ->
  forall js pn, (forall j, In j js -> j < sz is (map beta is)) -> full total is pn ->
  exists pn', copy_elts bs is pd o (map (fun j => (gshift (map (bnds beta) is) (decode (gext (map (bnds beta) is)) j), j)) js) pn = Ok pn' /\ full total is pn' /\
    forall s, ranged is s -> elt r0 total is pn' s =
      if list_eq_dec Nat.eq_dec (blockof is s) (map beta is) then if in_dec Nat.eq_dec (placeof is s) js then nth (o + placeof is s) pd r0 else elt r0 total is pn s
      else elt r0 total is pn s.
Proof.
  intros Hne ND HB HL. induction js as [|j js IH]; intros pn Hj FP; cbn [copy_elts map].
  - exists pn. split; [reflexivity|]. split; [exact FP|]. intros s Hs. destruct (list_eq_dec Nat.eq_dec _ _); [destruct (in_dec _ _ _) as [[]|]|]; reflexivity.
  - set (p := assign ieq is (decode (map (bdim beta) is) j) (fun _ => 0)).
    assert (Hjs : j < size (map (bdim beta) is)) by (rewrite size_fold, <- sz_beta; apply Hj; left; auto).
    assert (Ep : map p is = decode (map (bdim beta) is) j) by (apply (assign_map ieq nblocks ieq_spec); [exact ND|rewrite decode_length, map_length; reflexivity]).
    assert (Rp : forall x, In x is -> p x < bdim beta x).
    { apply inrange_valid. rewrite Ep. apply decode_valid. exact Hjs. }
    rewrite gext_bnds, <- Ep, gshift_bnds.
    assert (HG : forall x, In x is -> blk (bs x) (glue beta p x) = beta x /\ pos (bs x) (glue beta p x) = p x /\ glue beta p x < total x).
    { intros x Hx. apply blk_glue; [apply HB; exact Hx|apply Rp; exact Hx]. }
    assert (Rg : inrange total is (glue beta p)) by (intros x Hx; apply HG; exact Hx).
    destruct (elt_pos total is (glue beta p) Rg) as [E1 E2].
    change (irange (idim bs) is) with (irange total is). rewrite E1. cbn [obind].
    assert (Lj : j < sz is (map beta is)) by (apply Hj; left; auto).
    rewrite (oget_ok r0) by lia. cbn [obind]. unfold zupd. replace (Z.of_nat _ <? 0)%Z with false by (symmetry; apply Z.ltb_ge; lia).
    rewrite Nat2Z.id. rewrite oupd_ok by (unfold full in FP; lia). cbn [obind]. rewrite <- gext_bnds.
    destruct (IH (upd (colmajor (map total is) (map (glue beta p) is)) (nth (o + j) pd r0) pn)) as (pn' & E & F' & HV).
    { intros; apply Hj; right; auto. } { unfold full in *. rewrite upd_length. exact FP. }
    exists pn'. split; [exact E|]. split; [exact F'|]. intros s Hs. rewrite HV by exact Hs.
    rewrite (elt_upd total r0 is pn (glue beta p) s) by (auto; exact Hs).
    assert (EQ : map (glue beta p) is = map s is <-> blockof is s = map beta is /\ placeof is s = j).
    { split.
      - intros E0. assert (B0 : blockof is s = map beta is).
        { apply map_ext_in. intros x Hx. rewrite <- (map_eq_in _ _ _ E0 x Hx). apply HG. exact Hx. }
        split; [exact B0|]. rewrite (place_beta bs is beta s B0), colmajor_enc.
        replace (map (inpos s) is) with (map p is).
        + rewrite Ep. apply enc_decode. exact Hjs.
        + apply map_ext_in. intros x Hx. unfold QdAdd.inpos. rewrite <- (map_eq_in _ _ _ E0 x Hx). symmetry. apply HG. exact Hx.
      - intros [B0 P0]. apply map_ext_in. intros x Hx.
        assert (Q : map (inpos s) is = map p is).
        { rewrite (place_beta bs is beta s B0), colmajor_enc in P0. rewrite Ep, <- P0. symmetry. apply decode_enc.
          apply inrange_valid. apply (inpos_range bs is beta s Hs B0). }
        unfold QdSum.glue. rewrite <- (map_eq_in _ _ _ Q x Hx). rewrite blockof_inblk in B0. rewrite <- (map_eq_in _ _ _ B0 x Hx). symmetry. apply glue_blk. }
    destruct (list_eq_dec Nat.eq_dec (blockof is s) (map beta is)) as [B0|B0]; destruct (list_eq_dec Nat.eq_dec (map (glue beta p) is) (map s is)) as [E0|E0].
    + apply EQ in E0 as [_ P0]. rewrite P0. destruct (in_dec Nat.eq_dec j js) as [K|K], (in_dec Nat.eq_dec j (j :: js)) as [K'|K']; auto; exfalso; apply K'; left; auto.
    + destruct (in_dec Nat.eq_dec (placeof is s) js) as [K|K], (in_dec Nat.eq_dec (placeof is s) (j :: js)) as [K'|K']; auto.
      * exfalso. apply K'. right; auto.
      * exfalso. destruct K' as [K'|K']; [|contradiction]. apply E0, EQ. auto.
    + exfalso. apply EQ in E0 as [K _]. contradiction.
    + reflexivity.
Qed.

Lemma copy_blocks_spec is (d : qd R) : is <> [] -> proper is -> stored is d -> forall l pn, incl l (offs d) -> full total is pn ->
  exists pn', copy_blocks bs is (store d) l pn = Ok (Some pn') /\ full total is pn' /\
    forall s, ranged is s -> elt r0 total is pn' s = if in_dec (list_eq_dec Nat.eq_dec) (blockof is s) (map fst l) then qval is d s else elt r0 total is pn s.
Proof.
  intros Hne HP HS. induction l as [|[b o] l IH]; intros pn HI FP; cbn [copy_blocks].
  - exists pn. split; [reflexivity|]. split; [exact FP|]. intros s Hs. cbn [map]. destruct (in_dec _ _ _) as [[]|]; reflexivity.
  - assert (Hin : In (b, o) (offs d)) by (apply HI; left; auto).
    destruct (stored_bound bs _ _ _ _ HS Hin) as [Vb Lb].
    destruct (tuple_assign ieq nblocks ieq_spec is b (proj1 HP)) as (beta & Eb). { apply (vlen bs is). exact Vb. }
    subst b. assert (HB : forall x, In x is -> beta x < nblocks x) by (apply valid_ind; exact Vb).
    rewrite block_bounds_spec by exact HB. cbn [obind]. rewrite bsize_spec by exact Vb. cbn [obind].
    assert (HPos : forall x, In x is -> 0 < bdim beta x).
    { intros x Hx. unfold QdAdd.bdim. destruct (proj2 HP x Hx) as [_ F]. rewrite Forall_forall in F. apply F, nth_In. apply HB. exact Hx. }
    assert (Hsz : size (gext (map (bnds beta) is)) = sz is (map beta is)) by (rewrite gext_bnds, size_fold, sz_beta; reflexivity).
    assert (Hsp : 0 < size (gext (map (bnds beta) is))).
    { rewrite gext_bnds. apply size_pos. intros n Hn. apply in_map_iff in Hn as (x & <- & Hx). auto. }
    assert (Hr : map (bnds beta) is <> []) by (destruct is; [congruence|discriminate]).
    pose proof (gc_loop_spec (map (bnds beta) is) Hr (sz is (map beta is)) 0 ltac:(lia) ltac:(lia)) as E.
    rewrite decode_zero in E. 2:{ rewrite gext_bnds. intros n Hn. apply in_map_iff in Hn as (x & <- & Hx). auto. }
    assert (LG : length (gext (map (bnds beta) is)) = length (map (bnds beta) is)) by (unfold gext; now rewrite map_length). rewrite LG in E.
    rewrite gshift_zero in E. unfold gc_make. rewrite E. cbn [obind].
    destruct (copy_elts_spec is beta (store d) o Hne (proj1 HP) HB Lb (seq 0 (sz is (map beta is))) pn) as (pn1 & E1 & F1 & V1).
    { intros j Hj. apply in_seq in Hj. lia. } { exact FP. }
    rewrite E1. cbn [obind]. destruct (IH pn1) as (pn2 & E2 & F2 & V2). { intros y Hy. apply HI. right; auto. } { exact F1. }
    exists pn2. split; [exact E2|]. split; [exact F2|]. intros s Hs. rewrite V2, V1 by exact Hs. cbn [map fst].
    destruct (in_dec (list_eq_dec Nat.eq_dec) (blockof is s) (map fst l)) as [K|K];
      match goal with |- _ = (if ?c then _ else _) => destruct c as [K'|K'] end; auto.
    + exfalso. apply K'. right; auto.
    + destruct (list_eq_dec Nat.eq_dec (blockof is s) (map beta is)) as [B0|B0].
      * pose proof (placeof_lt bs is s Hs) as LP. rewrite B0 in LP.
        destruct (in_dec Nat.eq_dec (placeof is s) (seq 0 (sz is (map beta is)))) as [J|J]; [|exfalso; apply J, in_seq; lia].
        symmetry. apply (qval_in r0 bs is d s o); [apply (stored_nodup bs is); auto|rewrite B0; auto].
      * exfalso. destruct K' as [K'|K']; [apply B0; auto|contradiction].
    + destruct (list_eq_dec Nat.eq_dec (blockof is s) (map beta is)) as [B0|B0]; auto. exfalso. apply K'. left; auto.
Qed.

Theorem removeQNs_spec is (d : qd R) : is <> [] -> proper is -> stored is d ->
  exists pn, removeQNs r0 bs is d = Ok (Some pn) /\ full total is pn /\ forall s, ranged is s -> elt r0 total is pn s = qval is d s.
Proof.
  intros Hne HP HS. unfold removeQNs.
  destruct (copy_blocks_spec is d Hne HP HS (offs d) (repeat r0 (fold_right Nat.mul 1 (map total is)))) as (pn & E & F & V).
  { apply incl_refl. } { unfold full. apply repeat_length. }
  exists pn. split; [exact E|]. split; [exact F|]. intros s Hs. rewrite V by exact Hs.
  destruct (in_dec (list_eq_dec Nat.eq_dec) (blockof is s) (map fst (offs d))) as [K|K]; auto.
  rewrite qval_notin by exact K. unfold elt. apply nth_repeat.
Qed.

(** two full tensors with the same elements are equal *)
Lemma full_ext is (a b : list R) : NoDup is -> full total is a -> full total is b ->
  (forall s, ranged is s -> elt r0 total is a s = elt r0 total is b s) -> a = b.
Proof.
  intros ND Fa Fb H. apply (nth_ext _ _ r0 r0); [unfold full in *; congruence|]. intros k Hk.
  assert (Hk' : k < size (map total is)) by (rewrite size_fold; unfold full in Fa; lia).
  destruct (tuple_assign ieq total ieq_spec is (decode (map total is) k) ND) as (s & Hs).
  { rewrite decode_length, map_length. reflexivity. }
  assert (Rs : ranged is s) by (change (inrange total is s); apply inrange_valid; rewrite Hs; apply decode_valid; exact Hk').
  specialize (H s Rs). unfold elt in H. rewrite Hs, !colmajor_enc, enc_decode in H by exact Hk'. exact H.
Qed.

(** so are two block-sparse tensors with the same blocks and elements *)
Lemma qd_ext is (d d' : qd R) : proper is -> stored is d -> stored is d' -> offs d = offs d' ->
  (forall s, ranged is s -> qval is d s = qval is d' s) -> d = d'.
Proof.
  intros HP HS HS' EO H. destruct d as [o st], d' as [o' st']. cbn [offs] in EO. subst o'. f_equal.
  pose proof HS as [F _]. pose proof HS' as [F' _]. cbn [offs store] in F, F'.
  assert (LE : length st = length st').
  { clear -F F'. revert F F'. generalize 0. induction o as [|[b x] o IH]; cbn [QdSpec.filled]; intros n F F'; [congruence|]. destruct F as (_ & _ & F), F' as (_ & _ & F'). eauto. }
  apply (nth_ext _ _ r0 r0); auto. intros k Hk.
  assert (EX : exists b x, In (b, x) o /\ x <= k < x + sz is b).
  { clear -F Hk. assert (G : forall n, n <= k -> filled bs is n o (length st) -> exists b x, In (b, x) o /\ x <= k < x + sz is b).
    { clear F. induction o as [|[b x] o IH]; cbn [QdSpec.filled]; intros n Hn F; [lia|]. destruct F as (-> & _ & F).
      destruct (Nat.lt_ge_cases k (n + sz is b)); [exists b, n; split; [left; auto|lia]|].
      destruct (IH (n + sz is b) ltac:(lia) F) as (b' & x' & Hi & Hx). exists b', x'. split; [right; auto|auto]. }
    apply (G 0); auto. lia. }
  destruct EX as (b & x & Hin & Hx). destruct (stored_bound bs _ _ _ _ HS Hin) as [Vb Lb].
  destruct (tuple_assign ieq nblocks ieq_spec is b (proj1 HP)) as (beta & Eb). { apply (vlen bs is). exact Vb. }
  subst b. assert (HB : forall y, In y is -> beta y < nblocks y) by (apply valid_ind; exact Vb).
  assert (Hs : k - x < size (map (bdim beta) is)) by (rewrite size_fold, <- sz_beta; lia).
  set (p := assign ieq is (decode (map (bdim beta) is) (k - x)) (fun _ => 0)).
  assert (Ep : map p is = decode (map (bdim beta) is) (k - x)) by (apply (assign_map ieq nblocks ieq_spec); [apply HP|rewrite decode_length, map_length; reflexivity]).
  assert (Rp : forall y, In y is -> p y < bdim beta y) by (apply inrange_valid; rewrite Ep; apply decode_valid; exact Hs).
  assert (HG : forall y, In y is -> blk (bs y) (glue beta p y) = beta y /\ pos (bs y) (glue beta p y) = p y /\ glue beta p y < total y).
  { intros y Hy. apply blk_glue; [apply HB; exact Hy|apply Rp; exact Hy]. }
  assert (B0 : blockof is (glue beta p) = map beta is) by (apply map_ext_in; intros y Hy; apply HG; exact Hy).
  assert (P0 : placeof is (glue beta p) = k - x).
  { rewrite (place_beta bs is beta _ B0), colmajor_enc. replace (map (inpos (glue beta p)) is) with (map p is).
    - rewrite Ep. apply enc_decode. exact Hs.
    - apply map_ext_in. intros y Hy. symmetry. apply HG. exact Hy. }
  specialize (H (glue beta p) ltac:(intros y Hy; apply HG; exact Hy)).
  rewrite (qval_in r0 bs is _ _ x) in H; [|apply (stored_nodup bs is); auto|rewrite B0; exact Hin].
  rewrite (qval_in r0 bs is _ _ x) in H; [|apply (stored_nodup bs is); auto|rewrite B0; exact Hin].
  cbn [store] in H. rewrite P0 in H. replace (x + (k - x)) with k in H by lia. exact H.
Qed.

(** the blocks and their offsets are determined by which blocks there are *)
Lemma filled_map is : forall (l l' : list blof) o n n', map fst l = map fst l' -> filled bs is o l n -> filled bs is o l' n' -> l = l'.
Proof.
  induction l as [|[b x] l IH]; intros [|[b' x'] l'] o n n' E F F'; try discriminate; auto. cbn [map fst] in E. injection E as <- E.
  cbn [QdSpec.filled] in F, F'. destruct F as (-> & _ & F), F' as (-> & _ & F'). f_equal. eapply IH; eauto.
Qed.
Lemma sorted_same {T} (lt : T -> T -> Prop) : (forall a, ~ lt a a) -> (forall a b c, lt a b -> lt b c -> lt a c) ->
  forall l l', StronglySorted lt l -> StronglySorted lt l' -> (forall a, In a l <-> In a l') -> l = l'.
Proof.
  intros Hi Ht. induction l as [|x l IH]; intros l' HS HS' HE.
  - destruct l' as [|y l']; auto. destruct (proj2 (HE y) (or_introl eq_refl)).
  - destruct l' as [|y l']; [destruct (proj1 (HE x) (or_introl eq_refl))|].
    apply StronglySorted_inv in HS as [HS HF]. apply StronglySorted_inv in HS' as [HS' HF']. rewrite Forall_forall in HF, HF'.
    assert (x = y).
    { destruct (proj1 (HE x) (or_introl eq_refl)) as [->|K1]; auto. destruct (proj2 (HE y) (or_introl eq_refl)) as [<-|K2]; auto.
      exfalso. apply (Hi x). apply (Ht x y x); auto. }
    subst y. f_equal. apply IH; auto. intros a. split; intros Ha.
    + destruct (proj1 (HE a) (or_intror Ha)) as [<-|]; auto. exfalso. apply (Hi x). auto.
    + destruct (proj2 (HE a) (or_intror Ha)) as [<-|]; auto. exfalso. apply (Hi x). auto.
Qed.
Lemma blocks_same is (l l' : list blof) n n' : filled bs is 0 l n -> filled bs is 0 l' n' ->
  StronglySorted (keyed bs is) l -> StronglySorted (keyed bs is) l' -> (forall b, In b (map fst l) <-> In b (map fst l')) -> l = l'.
Proof.
  intros F F' HS HS' HE. apply (filled_map is l l' 0 n n'); auto.
  apply (sorted_same (fun a b => colmajor (map nblocks is) a < colmajor (map nblocks is) b)); [intros; lia|intros; lia| | |exact HE].
  - apply (sorted_to_map fst (fun a b => colmajor (map nblocks is) a < colmajor (map nblocks is) b)). exact HS.
  - apply (sorted_to_map fst (fun a b => colmajor (map nblocks is) a < colmajor (map nblocks is) b)). exact HS'.
Qed.
End Dense.
