(** Lemmas about views, element-wise transformation and matrix products. *)
From Coq Require Import List ZArith Lia Bool Arith Permutation.
From Verif Require Import Util RangeModel RangeSpec RangeProofs TensorModel.
Import ListNotations.

Local Arguments Nat.sub : simpl never.
Local Arguments Nat.div : simpl never.
Local Arguments Nat.modulo : simpl never.

Lemma oget_ok {A} (d : A) l i : i < length l -> oget l i = Ok (nth i l d).
Proof.
  intros H. unfold oget. destruct (nth_error l i) eqn:E.
  - f_equal. symmetry. now apply nth_error_nth.
  - apply nth_error_None in E. lia.
Qed.

(** ** transform visits a list of (from,to) offset pairs *)
Section Pairs.
Context {T1 T2 : Type} (op : T1 -> T2 -> T2) (d1 : T1) (d2 : T2).

Fixpoint apply_pairs (ps : list (nat * nat)) (from : list T1) (to : list T2) : outcome (list T2) :=
  match ps with
  | [] => Ok to
  | (pf, pt) :: ps' =>
      obind (oget from pf) (fun x => obind (oget to pt) (fun y =>
      obind (oupd pt (op x y) to) (fun to' => apply_pairs ps' from to')))
  end.

Lemma apply_pairs_app ps ps' from : forall to,
  apply_pairs (ps ++ ps') from to = obind (apply_pairs ps from to) (apply_pairs ps' from).
Proof.
  induction ps as [|[pf pt] ps IH]; intros to; simpl; auto.
  destruct (oget from pf); simpl; auto. destruct (oget to pt); simpl; auto.
  destruct (oupd pt (op a a0) to); simpl; auto.
Qed.

Lemma inner_pairs from sf st : forall n pf pt to,
  transform_inner op n pf sf pt st from to =
  apply_pairs (map (fun b => (pf + b * sf, pt + b * st)) (seq 0 n)) from to.
Proof.
  induction n as [|n IH]; intros pf pt to; auto.
  cbn [transform_inner seq map apply_pairs]. rewrite !Nat.mul_0_l, !Nat.add_0_r.
  destruct (oget from pf); simpl; auto. destruct (oget to pt); simpl; auto.
  destruct (oupd pt (op a a0) to); simpl; auto.
  rewrite IH. f_equal. rewrite <- seq_shift, map_map. apply map_ext. intros b. f_equal; lia.
Qed.

Lemma outer_pairs from rf rt bs sf st : forall its to,
  (forall i o, In (i, o) its -> length i <= length rf /\ length i <= length rt) ->
  transform_outer op its rf rt bs sf st from to =
  apply_pairs (flat_map (fun it => map (fun b => (dot rf (fst it) + b * sf, dot rt (fst it) + b * st)) (seq 0 bs)) its) from to.
Proof.
  induction its as [|[i o] its IH]; intros to H; auto.
  destruct (H i o (or_introl eq_refl)) as [H1 H2].
  cbn [transform_outer flat_map fst].
  assert (S0 : forall r, length i <= length r -> offset 0 r i = Ok (dot r i)).
  { intros r Hr. replace i with (shift 0 i) at 1 by (unfold shift; erewrite map_ext; [apply map_id|intros; lia]).
    now apply offset_dot. }
  rewrite !S0 by auto. cbn [obind]. rewrite inner_pairs, apply_pairs_app.
  destruct (apply_pairs _ from to); simpl; auto. apply IH. intros i' o' Hi. apply (H i' o'). simpl; auto.
Qed.

Lemma apply_pairs_spec from : forall ps to,
  (forall p, In p ps -> fst p < length from /\ snd p < length to) -> NoDup (map snd ps) ->
  exists to', apply_pairs ps from to = Ok to' /\ length to' = length to /\
    (forall p, In p ps -> nth (snd p) to' d2 = op (nth (fst p) from d1) (nth (snd p) to d2)) /\
    (forall k, ~ In k (map snd ps) -> nth k to' d2 = nth k to d2).
Proof.
  induction ps as [|[pf pt] ps IH]; intros to HB HN.
  - exists to. repeat split; auto. intros p [].
  - cbn [map snd] in HN. inversion HN; subst. destruct (HB (pf, pt) (or_introl eq_refl)) as [B1 B2]. simpl in B1, B2.
    cbn [apply_pairs]. rewrite (oget_ok d1), (oget_ok d2) by auto. cbn [obind]. rewrite oupd_ok by auto. cbn [obind].
    destruct (IH (upd pt (op (nth pf from d1) (nth pt to d2)) to)) as (to' & E & HL & HA & HO); auto.
    { intros p Hp. rewrite upd_length. apply HB; simpl; auto. }
    exists to'. rewrite upd_length in HL. repeat split; auto.
    + intros p [<-|Hp]; simpl.
      * rewrite HO by auto. now rewrite nth_upd_eq by auto.
      * rewrite HA by auto. rewrite nth_upd_neq; auto. intros ->. apply H1. now apply in_map.
    + intros k Hk. simpl in Hk. rewrite HO by tauto. apply nth_upd_neq. intros ->. apply Hk; auto.
Qed.
End Pairs.

(** ** fixing one position of a multi-index *)
Lemma valid_upd e bi b i : bi < length e -> b < nth bi e 0 -> valid (upd bi 1 e) i -> valid e (upd bi b i).
Proof.
  revert bi i; induction e as [|d e IH]; intros [|bi] i Hb Hbb H; simpl in *; try lia; inversion H; subst; simpl.
  - constructor; auto.
  - constructor; auto. apply IH; auto. lia.
Qed.

Lemma valid_upd_back e bi t : bi < length e -> valid e t -> valid (upd bi 1 e) (upd bi 0 t).
Proof.
  revert bi t; induction e as [|d e IH]; intros [|bi] t Hb H; simpl in *; try lia; inversion H; subst; simpl.
  - constructor; auto.
  - constructor; auto. apply IH; auto; lia.
Qed.

Lemma valid_upd_zero e bi i : bi < length e -> valid (upd bi 1 e) i -> nth bi i 0 = 0.
Proof.
  revert bi i; induction e as [|d e IH]; intros [|bi] i Hb H; simpl in *; try lia; inversion H; subst; simpl.
  - lia.
  - apply IH; auto; lia.
Qed.

Lemma upd_same {A} bi (l : list A) d : upd bi (nth bi l d) l = l.
Proof. revert bi; induction l as [|x l IH]; intros [|bi]; simpl; auto. now rewrite IH. Qed.

Lemma upd_upd {A} bi (x y : A) l : upd bi x (upd bi y l) = upd bi x l.
Proof. revert bi; induction l as [|z l IH]; intros [|bi]; simpl; auto. now rewrite IH. Qed.

Lemma valid_nth e t k : valid e t -> k < length e -> nth k t 0 < nth k e 0.
Proof.
  intros H; revert k; induction H; intros [|k] Hk; simpl in *; try lia. apply IHForall2; lia.
Qed.

Lemma dot_upd r bi b i : bi < length r -> bi < length i -> nth bi i 0 = 0 ->
  dot r (upd bi b i) = dot r i + b * str (nth bi r (IS 0 0)).
Proof.
  revert bi i; induction r as [|x r IH]; intros [|bi] [|a i] Hr Hi H; simpl in *; try lia.
  rewrite IH by lia. lia.
Qed.

Lemma bigind_spec : forall es j bi bs all, bi < j -> bs = nth bi all 0 -> j + length es = length all ->
  (forall k, k < length es -> nth k es 0 = nth (j + k) all 0) ->
  let (bi', bs') := bigind_loop j es bi bs in bi' < length all /\ bs' = nth bi' all 0.
Proof.
  induction es as [|e es IH]; intros j bi bs all H1 H2 H3 H4; simpl in *.
  - split; auto; lia.
  - assert (H5 : forall k, k < length es -> nth k es 0 = nth (S j + k) all 0).
    { intros k Hk. specialize (H4 (S k) ltac:(lia)). simpl in H4. rewrite H4. f_equal; lia. }
    destruct (bs <? e); apply IH; auto; try lia.
    specialize (H4 0 ltac:(lia)). simpl in H4. rewrite H4. f_equal; lia.
Qed.

Lemma in_upd {A} (x : A) n y l : In y (upd n x l) -> y = x \/ In y l.
Proof. revert n; induction l as [|z l IH]; intros [|n] H; simpl in *; intuition. destruct (IH n); auto. Qed.

Lemma flat_map_map_in {A B C} (f : A -> B -> C) (l : list A) (l' : list B) c :
  In c (flat_map (fun a => map (f a) l') l) <-> exists a b, In a l /\ In b l' /\ c = f a b.
Proof.
  rewrite in_flat_map. split.
  - intros (a & Ha & Hc). apply in_map_iff in Hc as (b & <- & Hb). eauto.
  - intros (a & b & Ha & Hb & ->). exists a. split; auto. now apply in_map.
Qed.

Lemma NoDup_flat_map_inj {A B C} (f : A -> B -> C) : forall (l : list A) (l' : list B),
  NoDup l -> NoDup l' ->
  (forall a b a' b', In a l -> In a' l -> In b l' -> In b' l' -> f a b = f a' b' -> a = a' /\ b = b') ->
  NoDup (flat_map (fun a => map (f a) l') l).
Proof.
  induction l as [|a l IH]; intros l' H1 H2 H3; simpl; [constructor|].
  inversion H1; subst. apply NoDup_app_intro.
  - assert (K : forall l2, incl l2 l' -> NoDup l2 -> NoDup (map (f a) l2)).
    { induction l2 as [|b l2 IH2]; intros Hi Hn; simpl; constructor; inversion Hn; subst.
      - intros K. apply in_map_iff in K as (b' & E & Hb').
        destruct (H3 a b' a b) as [_ ->]; simpl; auto; apply Hi; simpl; auto.
      - apply IH2; auto. intros x Hx; apply Hi; simpl; auto. }
    apply K; auto. apply incl_refl.
  - apply IH; auto. intros; apply H3; simpl; auto.
  - intros c Hc Hc'. apply in_map_iff in Hc as (b & <- & Hb).
    apply flat_map_map_in in Hc' as (a' & b' & Ha' & Hb' & E).
    destruct (H3 a b a' b') as [-> _]; simpl; auto.
Qed.

(** ** what transform does *)
Theorem transform_spec {T1 T2} (op : T1 -> T2 -> T2) (d1 : T1) (d2 : T2) e rf from rt to :
  map ext rf = e -> map ext rt = e -> (forall d, In d e -> 0 < d) ->
  (forall t, valid e t -> dot rf t < length from) ->
  (forall t, valid e t -> dot rt t < length to) ->
  (forall t t', valid e t -> valid e t' -> dot rt t = dot rt t' -> t = t') ->
  exists to', transform op rf from rt to = Ok to' /\ length to' = length to /\
    (forall t, valid e t -> nth (dot rt t) to' d2 = op (nth (dot rf t) from d1) (nth (dot rt t) to d2)) /\
    (forall k, (forall t, valid e t -> dot rt t <> k) -> nth k to' d2 = nth k to d2).
Proof.
  intros Ef Et Hpos HF HT HI. unfold transform.
  assert (LL : length rf = length rt).
  { rewrite <- (map_length ext rf), <- (map_length ext rt). congruence. }
  rewrite (proj2 (Nat.eqb_eq _ _) LL). cbn [negb].
  destruct rf as [|f0 rf'].
  { destruct rt; [|simpl in LL; lia]. simpl in Ef; subst e.
    specialize (HF [] ltac:(constructor)). specialize (HT [] ltac:(constructor)). simpl in HF, HT.
    rewrite (oget_ok d1), (oget_ok d2) by auto. cbn [obind]. rewrite oupd_ok by auto.
    eexists; split; [reflexivity|]. rewrite upd_length. split; auto. split.
    - intros t Ht. inversion Ht; subst. simpl dot. now rewrite nth_upd_eq by auto.
    - intros k Hk. apply nth_upd_neq. exact (Hk [] ltac:(constructor)). }
  destruct (bigind_loop 1 (map ext rf') 0 (ext f0)) as [bi bs] eqn:EB.
  assert (HB : bi < length e /\ bs = nth bi e 0).
  { pose proof (bigind_spec (map ext rf') 1 0 (ext f0) e) as X. rewrite EB in X. apply X; auto.
    - subst e. reflexivity.
    - subst e. reflexivity.
    - intros k Hk. subst e. reflexivity. }
  destruct HB as [HB1 HB2]. assert (Lf : length (f0 :: rf') = length e) by (subst e; now rewrite map_length).
  assert (Lt : length rt = length e) by (rewrite <- Et; now rewrite map_length).
  rewrite (oget_ok (IS 0 0) (f0 :: rf')), (oget_ok (IS 0 0) rt) by lia. cbn [obind].
  rewrite Ef. set (e1 := upd bi 1 e) in *. set (rb := range_init e1).
  assert (Erb : map ext rb = e1) by apply map_ext_range_init.
  assert (P1 : forall d, In d e1 -> 0 < d).
  { intros d Hd. apply in_upd in Hd as [->|Hd]; auto. }
  assert (L1 : length e1 = length e) by apply upd_length.
  assert (Rne : rb <> []).
  { intros K. apply (f_equal (@length _)) in K. unfold rb, range_init in K. rewrite with_strides_length in K. simpl in K. lia. }
  assert (RL : riter_loop (S (dim rb)) 0 rb (riter_begin 0 rb) =
     Ok (Some (map (fun j => (shift 0 (decode e1 j), dot rb (decode e1 j))) (seq 0 (size e1))))).
  { pose proof (riter_loop_spec 0 rb Rne) as X. cbv zeta in X. rewrite Erb in X.
    pose proof (size_pos e1 P1). rewrite dim_size, Erb. specialize (X (size e1) 0 ltac:(lia) ltac:(lia)).
    rewrite decode_zero in X by auto. rewrite dot_repeat0, shift_repeat0 in X.
    unfold riter_begin. replace (length rb) with (length e1); auto.
    unfold rb, range_init. now rewrite with_strides_length. }
  rewrite RL. cbn [obind]. clear RL.
  assert (Sh : forall l, shift 0 l = l) by (intros; unfold shift; erewrite map_ext; [apply map_id|intros; lia]).
  rewrite outer_pairs.
  2:{ intros i o Hi. apply in_map_iff in Hi as (j & E & _). injection E as <- _.
      rewrite Sh, decode_length. lia. }
  set (sf := str (nth bi (f0 :: rf') (IS 0 0))). set (st := str (nth bi rt (IS 0 0))).
  set (ts := flat_map (fun i => map (fun b => upd bi b i) (seq 0 bs)) (all_tuples e1)).
  assert (Hts : forall t, In t ts <-> valid e t).
  { intros t. unfold ts. rewrite flat_map_map_in. split.
    - intros (i & b & Hi & Hb & ->). apply in_all_tuples in Hi. apply in_seq in Hb. apply valid_upd; auto. lia.
    - intros H. exists (upd bi 0 t), (nth bi t 0). split; [|split].
      + apply in_all_tuples. now apply valid_upd_back.
      + apply in_seq. pose proof (valid_nth e t bi H HB1). lia.
      + rewrite upd_upd. symmetry. apply upd_same. }
  assert (Nts : NoDup ts).
  { apply NoDup_flat_map_inj; [apply all_tuples_nodup|apply seq_NoDup|].
    intros i b i' b' Hi Hi' Hb Hb' E. apply in_all_tuples in Hi. apply in_all_tuples in Hi'.
    pose proof (valid_length _ _ Hi). pose proof (valid_length _ _ Hi').
    pose proof (valid_upd_zero e bi i HB1 Hi) as Z. pose proof (valid_upd_zero e bi i' HB1 Hi') as Z'. split.
    - rewrite <- (upd_same bi i 0), <- (upd_same bi i' 0), Z, Z'.
      rewrite <- (upd_upd bi 0 b i), <- (upd_upd bi 0 b' i'). now rewrite E.
    - assert (K := f_equal (fun l => nth bi l 0) E). simpl in K. rewrite !nth_upd_eq in K by lia. auto. }
  match goal with |- context [apply_pairs op ?PS from to] => set (ps := PS) end.
  assert (Eps : ps = map (fun t => (dot (f0 :: rf') t, dot rt t)) ts).
  { unfold ps, ts, all_tuples. rewrite !flat_map_concat_map, concat_map, !map_map. f_equal. apply map_ext_in.
    intros j Hj. apply in_seq in Hj. cbn [fst]. rewrite Sh, map_map. apply map_ext. intros b.
    pose proof (decode_valid e1 j ltac:(lia)) as V.
    pose proof (valid_upd_zero e bi _ HB1 V) as V0.
    pose proof (decode_length e1 j) as V1.
    rewrite (dot_upd (f0 :: rf')), (dot_upd rt) by (auto; lia). reflexivity. }
  rewrite Eps.
  destruct (apply_pairs_spec op d1 d2 from (map (fun t => (dot (f0 :: rf') t, dot rt t)) ts) to) as (to' & E & HL & HA & HO).
  { intros p Hp. apply in_map_iff in Hp as (t & <- & Ht). apply Hts in Ht. cbn [fst snd]. split; auto. }
  { rewrite map_map. cbn [snd].
    assert (K : forall l, (forall t, In t l -> valid e t) -> NoDup l -> NoDup (map (fun t => dot rt t) l)).
    { induction l as [|t l IH]; intros HV HN; simpl; constructor; inversion HN; subst.
      - intros K. apply in_map_iff in K as (t' & E & Ht'). apply HI in E; [subst; auto| |]; apply HV; simpl; auto.
      - apply IH; auto. intros; apply HV; simpl; auto. }
    apply K; auto. intros; now apply Hts. }
  exists to'. split; [exact E|]. split; auto. split.
  - intros t Ht. specialize (HA (dot (f0 :: rf') t, dot rt t)). apply HA. apply in_map_iff. exists t. split; auto. now apply Hts.
  - intros k Hk. apply HO. rewrite map_map. cbn [snd]. intros K. apply in_map_iff in K as (t & E' & Ht).
    apply (Hk t); auto. now apply Hts.
Qed.
