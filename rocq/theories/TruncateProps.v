(** Properties C24 (truncation bounds), C25 (reported truncation error),
    C26 (selection of kept values over QN blocks). *)
From Coq Require Import List ZArith QArith Qabs Lia Lqa Bool Sorting.Sorted Permutation.
From Verif Require Import Util TruncateModel TruncateSpec TruncateProofs.
Import ListNotations.
Open Scope Q_scope.

Local Arguments Nat.sub : simpl never.

Lemma rescale P0 P m : 0 < P0 ->
  Forall2 Qeq (map (fun p => p * P0) (firstn m (normed P0 P))) (map weight (firstn m P)).
Proof.
  intros H. unfold normed. rewrite firstn_map, map_map. generalize (firstn m P) as l.
  induction l as [|p l IH]; simpl; constructor; auto.
  rewrite weight_div by auto. field. lra.
Qed.

Lemma single_list (P : list Q) : length P = 1%nat -> P = [nth 0 P 0].
Proof. destruct P as [|p [|]]; simpl; intros; try discriminate; reflexivity. Qed.

(** ** C24 *)
(** On a spectrum sorted largest first, truncate keeps a prefix of m values (negative
    values counting as zero); m is at least 1, at most MaxDim, and at least MinDim as far as
    MaxDim and the spectrum allow.  Going below what MaxDim forces happens only
    as far as the cutoff allows, and stops only at MinDim or where the cutoff forbids more. *)
Theorem C24_truncate : forall P maxdim mindim cutoff absoluteCutoff doRelCutoff,
  descending P -> P <> [] -> 0 < nth 0 P 0 -> (1 <= maxdim)%Z -> (1 <= mindim)%Z ->
  let md := mode_of absoluteCutoff doRelCutoff in
  let m0 := Nat.min (length P) (Z.to_nat maxdim) in
  exists r m,
    truncate P maxdim mindim cutoff absoluteCutoff doRelCutoff false = Ok r /\
    Forall2 Qeq (tr_kept r) (map weight (firstn m P)) /\
    (1 <= m <= length P)%nat /\ (Z.of_nat m <= maxdim)%Z /\
    (Z.min mindim (Z.of_nat m0) <= Z.of_nat m)%Z /\
    ((m < m0)%nat -> allowed md cutoff P m0 m) /\
    ((mindim < Z.of_nat m)%Z -> ~ allowed md cutoff P m0 (m - 1)).
Proof.
  intros P maxdim mindim cutoff absc relc HD HN H0 HM Hm md m0.
  destruct (Nat.eq_dec (length P) 1) as [HL|HL].
  - eexists _, 1%nat. split; [|split; [|repeat split; try (unfold m0; lia)]].
    + unfold truncate. rewrite oget_nth by lia. cbn [obind].
      destruct (Qeq_bool_spec (nth 0 P 0) 0); [lra|]. rewrite HL. reflexivity.
    + cbn [tr_kept]. rewrite (single_list P HL). simpl. repeat constructor. now rewrite weight_id by lra.
  - destruct (truncate_general P maxdim mindim cutoff absc relc HD) as (m & err & A1 & A2 & A3 & A4 & _ & A6); auto.
    { destruct P as [|? [|]]; simpl in *; try congruence; lia. }
    specialize (A6 false). eexists _, m. split; [exact A6|].
    unfold tail_of; cbn [tr_kept andb fst].
    split; [now apply rescale|]. unfold m0 in *. repeat split; auto; try lia.
Qed.

Example C24_nonvacuous :
  let P := [1#2; 1#4; 1#8; 1#16; -(1#1000)] in
  descending P /\ 0 < nth 0 P 0 /\
  match truncate P 4 1 (1#8) false true false with Ok r => length (tr_kept r) = 3%nat | _ => False end /\
  match truncate P 2 1 (1#8) false true false with Ok r => length (tr_kept r) = 2%nat | _ => False end /\
  match truncate P 4 4 (1#8) false true false with Ok r => length (tr_kept r) = 4%nat | _ => False end /\
  match truncate P 4 1 (1#4) true true false with Ok r => length (tr_kept r) = 1%nat | _ => False end.
Proof.
  cbv zeta. split; [|vm_compute; repeat split].
  unfold descending. repeat (constructor; [|repeat (constructor; [vm_compute; discriminate|]); constructor]). constructor.
Qed.

(** With RespectDegenerate, the values within the degeneracy window of the last value kept by the
    plain truncation are either all kept or all discarded, and MaxDim still holds. *)
Theorem C24_respect_degenerate : forall P maxdim mindim cutoff absoluteCutoff doRelCutoff,
  descending P -> (2 <= length P)%nat -> 0 < nth 0 P 0 -> (1 <= maxdim)%Z -> (1 <= mindim)%Z ->
  exists r0 mc r m,
    truncate P maxdim mindim cutoff absoluteCutoff doRelCutoff false = Ok r0 /\
    length (tr_kept r0) = mc /\ (1 <= mc <= length P)%nat /\
    truncate P maxdim mindim cutoff absoluteCutoff doRelCutoff true = Ok r /\
    Forall2 Qeq (tr_kept r) (map weight (firstn m P)) /\ (m <= length P)%nat /\ (Z.of_nat m <= maxdim)%Z /\
    let v := weight (nth (mc - 1) P 0) in
    let w := if Qeq_bool v 0 then REAL_EPSILON * nth 0 P 0 else (1 # 1000) * v in
    let degenerate i := Qabs (weight (nth i P 0) - v) < w in
    (forall i, (i < length P)%nat -> degenerate i -> (i < m)%nat) \/
    (forall i, (i < length P)%nat -> degenerate i -> (m <= i)%nat).
Proof.
  intros P maxdim mindim cutoff absc relc HD HL H0 HM Hm.
  set (P0 := nth 0 P 0) in *.
  destruct (truncate_general P maxdim mindim cutoff absc relc HD) as (mc & err & A1 & A2 & _ & _ & _ & A6); auto.
  fold P0 in A6.
  assert (Hlen : length (normed P0 P) = length P) by apply normed_length.
  set (P2 := normed P0 P) in *.
  exists (tail_of P0 P2 maxdim false mc err), mc, (tail_of P0 P2 maxdim true mc err).
  assert (HmL : (mc <= length P)%nat) by lia.
  set (Pn := nth (mc - 1) P2 0).
  pose proof (degen_before_spec P2 Pn (window Pn) (mc - 1) ltac:(lia)) as HB.
  pose proof (degen_after_spec P2 Pn (window Pn) mc) as HA. cbv zeta in HA, HB.
  set (kb := degen_before P2 Pn (window Pn) (mc - 1)) in *.
  set (ka := degen_after (skipn mc P2) Pn (window Pn)) in *.
  destruct HB as (B1 & B2 & B3), HA as (C1 & C2 & C3).
  assert (HN : forall i, (i < length P)%nat -> nth i P2 0 == weight (nth i P 0) / P0).
  { intros i Hi. unfold P2. rewrite normed_nth by auto. now apply weight_div. }
  assert (HE : Pn == weight (nth (mc - 1) P 0) / P0) by (apply HN; lia).
  assert (HW : (if Qeq_bool (weight (nth (mc - 1) P 0)) 0 then REAL_EPSILON * P0
                else (1 # 1000) * weight (nth (mc - 1) P 0)) == window Pn * P0).
  { unfold window. destruct (Qeq_bool_spec (weight (nth (mc - 1) P 0)) 0) as [K|K], (Qeq_bool_spec Pn 0) as [K'|K'].
    - reflexivity.
    - exfalso. apply K'. rewrite HE, K. field; lra.
    - exfalso. apply K. rewrite HE in K'.
      setoid_replace (weight (nth (mc - 1) P 0)) with (weight (nth (mc - 1) P 0) / P0 * P0) by (field; lra).
      rewrite K'. ring.
    - rewrite HE. field; lra. }
  assert (HG : forall i, (i < length P)%nat ->
    Qabs (weight (nth i P 0) - weight (nth (mc - 1) P 0)) < window Pn * P0 -> Qabs (nth i P2 0 - Pn) < window Pn).
  { intros i Hi K.
    setoid_replace (nth i P2 0 - Pn)
      with ((weight (nth i P 0) - weight (nth (mc - 1) P 0)) * / P0) by (rewrite HN, HE by auto; field; lra).
    rewrite Qabs_Qmult. rewrite (Qabs_pos (/ P0)) by (apply Qlt_le_weak, Qinv_lt_0_compat; auto).
    apply Qlt_shift_div_r; auto. }
  assert (HMono : forall i j, (i <= j)%nat -> (j < length P)%nat -> nth j P2 0 <= nth i P2 0).
  { intros i j Hij Hj. rewrite !HN by lia. apply div_le; auto. apply weight_mono, desc_nth; auto. }
  assert (HLo : forall i, (i < length P)%nat -> Qabs (nth i P2 0 - Pn) < window Pn -> (mc - 1 - kb <= i)%nat).
  { intros i Hi K. apply Nat.nlt_ge. intros Hlt.
    specialize (B3 ltac:(lia)). apply B3.
    pose proof (HMono i (mc - 1 - kb - 1)%nat ltac:(lia) ltac:(lia)) as M1.
    pose proof (HMono (mc - 1 - kb - 1)%nat (mc - 1)%nat ltac:(lia) ltac:(lia)) as M2. fold Pn in M2.
    rewrite Qabs_pos in K by lra. rewrite Qabs_pos by lra. lra. }
  assert (HHi : forall i, (i < length P)%nat -> Qabs (nth i P2 0 - Pn) < window Pn -> (i < mc + ka)%nat).
  { intros i Hi K. apply Nat.nle_gt. intros Hlt.
    specialize (C3 ltac:(lia)). apply C3.
    pose proof (HMono (mc + ka)%nat i ltac:(lia) ltac:(lia)) as M1.
    pose proof (HMono (mc - 1)%nat (mc + ka)%nat ltac:(lia) ltac:(lia)) as M2. fold Pn in M2.
    rewrite Qabs_neg in K by lra. rewrite Qabs_neg by lra. lra. }
  assert (HD' : forall i, (i < length P)%nat ->
    Qabs (weight (nth i P 0) - weight (nth (mc - 1) P 0)) <
    (if Qeq_bool (weight (nth (mc - 1) P 0)) 0 then REAL_EPSILON * P0
                else (1 # 1000) * weight (nth (mc - 1) P 0)) -> (mc - 1 - kb <= i < mc + ka)%nat).
  { intros i Hi K. rewrite HW in K. apply HG in K; auto. }
  assert (HLEN : length (tr_kept (tail_of P0 P2 maxdim false mc err)) = mc).
  { unfold tail_of. cbn [tr_kept andb fst]. rewrite map_length, firstn_length, Hlen. lia. }
  assert (HK : exists m, tr_kept (tail_of P0 P2 maxdim true mc err) = map (fun p => p * P0) (firstn m P2) /\
    (m <= length P)%nat /\ (Z.of_nat m <= maxdim)%Z /\ ((mc + ka <= m)%nat \/ (m <= mc - 1 - kb)%nat)).
  { unfold tail_of; cbn [tr_kept andb]. fold Pn. fold kb. fold ka.
    destruct (Nat.ltb_spec 1 (S kb + ka)) as [D|D]; [destruct (Z.ltb_spec maxdim (Z.of_nat (mc + ka))) as [E|E]|];
      cbn [fst]; eexists; (split; [reflexivity|]); lia. }
  destruct HK as (m & K1 & K2 & K3 & K4). exists m.
  split; [exact (A6 false)|]. split; [exact HLEN|]. split; [lia|]. split; [exact (A6 true)|].
  split; [rewrite K1; now apply rescale|]. split; [lia|]. split; [lia|].
  destruct K4; [left|right]; intros i Hi K; apply HD' in K; auto; lia.
Qed.

Example C24_respect_degenerate_nonvacuous :
  let P := [1; 1#2; 1#2; 1#2; 1#10] in
  descending P /\
  match truncate P 3 1 0 false true true with Ok r => length (tr_kept r) = 1%nat | _ => False end /\
  match truncate P 4 1 (2#10) false true true with Ok r => length (tr_kept r) = 4%nat | _ => False end.
Proof.
  cbv zeta. split; [|vm_compute; repeat split].
  unfold descending. repeat (constructor; [|repeat (constructor; [vm_compute; discriminate|]); constructor]). constructor.
Qed.

(** Finding: RespectDegenerate can keep no value at all (and so fewer than MinDim). *)
Theorem C24_respect_degenerate_empty_refuted :
  exists P maxdim mindim cutoff r, descending P /\ 0 < nth 0 P 0 /\ (1 <= maxdim)%Z /\ (1 <= mindim)%Z /\
    truncate P maxdim mindim cutoff false true true = Ok r /\ tr_kept r = [].
Proof.
  exists [1; 1], 1%Z, 1%Z, 0. eexists. split; [|vm_compute; repeat split; discriminate].
  unfold descending. repeat constructor. vm_compute; discriminate.
Qed.

(** Finding: on an all-zero spectrum MinDim is ignored: one value is kept. *)
Theorem C24_mindim_zero_spectrum_refuted : forall n maxdim mindim cutoff a r d,
  exists t, truncate (repeat 0 (S n)) maxdim mindim cutoff a r d = Ok t /\ length (tr_kept t) = 1%nat.
Proof. intros. eexists. split; [reflexivity|]. reflexivity. Qed.

(** Finding: MaxDim = 0 reads before the start of the spectrum, whatever its values. *)
Theorem C24_maxdim_zero_refuted : forall P mindim cutoff a r d,
  (2 <= length P)%nat -> ~ nth 0 P 0 == 0 -> truncate P 0 mindim cutoff a r d = UB.
Proof.
  intros P mindim cutoff a r d HL HN. unfold truncate. rewrite oget_nth by lia. cbn [obind].
  destruct (Qeq_bool_spec (nth 0 P 0) 0); [contradiction|].
  destruct (Nat.eqb_spec (length P) 1); [lia|].
  set (P2 := zero_trailing _).
  assert (HL2 : length P2 = length P).
  { unfold P2, zero_trailing. rewrite rev_length.
    assert (X : forall l, length (zero_trailing_rev l) = length l).
    { induction l as [|x l IH]; simpl; auto. destruct (Qle_bool 0 x); simpl; congruence. }
    now rewrite X, rev_length, map_length. }
  assert (HM : forall m err, (m <= length P2)%nat -> exists e, cut_maxdim P2 0 m err = Ok (0%nat, e)).
  { clear. induction m as [|m IH]; intros err H; cbn [cut_maxdim].
    - eexists; reflexivity.
    - destruct (Z.leb_spec 0 (Z.of_nat m)); [|lia]. rewrite oget_nth by lia. cbn [obind]. apply IH; lia. }
  destruct (HM (length P) 0) as (e & E); [lia|]. rewrite E. cbn [obind].
  unfold cut_cutoff. destruct a; reflexivity.
Qed.

(** Finding: MinDim = 0 with a cutoff that allows everything reads before the start. *)
Theorem C24_mindim_zero_refuted :
  exists P cutoff, descending P /\ truncate P 10 0 cutoff false true false = UB.
Proof.
  exists [1#2; 1#2], 1. split; [|reflexivity].
  unfold descending. repeat constructor. vm_compute; discriminate.
Qed.

(** ** C25 *)
(** Without relative cutoff, the reported truncation error is the discarded weight. *)
Theorem C25_discarded_weight : forall P maxdim mindim cutoff absoluteCutoff doRelCutoff,
  descending P -> P <> [] -> 0 < nth 0 P 0 -> (1 <= maxdim)%Z -> (1 <= mindim)%Z ->
  mode_of absoluteCutoff doRelCutoff <> SumRelative ->
  exists r, truncate P maxdim mindim cutoff absoluteCutoff doRelCutoff false = Ok r /\
    tr_truncerr r == total (skipn (length (tr_kept r)) P).
Proof.
  intros P maxdim mindim cutoff absc relc HD HN H0 HM Hm Hmd.
  destruct (Nat.eq_dec (length P) 1) as [HL|HL].
  - eexists. split.
    + unfold truncate. rewrite oget_nth by lia. cbn [obind].
      destruct (Qeq_bool_spec (nth 0 P 0) 0); [lra|]. rewrite HL. reflexivity.
    + cbn [tr_kept tr_truncerr]. rewrite skipn_all. reflexivity.
  - destruct (truncate_general P maxdim mindim cutoff absc relc HD) as (m & err & A1 & _ & _ & _ & A5 & A6); auto.
    { destruct P as [|? [|]]; simpl in *; try congruence; lia. }
    eexists. split; [exact (A6 false)|].
    unfold tail_of; cbn [tr_kept tr_truncerr andb fst]. rewrite map_length, firstn_length, normed_length.
    rewrite Nat.min_l by lia.
    unfold rel_scale in A5. destruct (mode_of absc relc); try congruence.
    + setoid_replace err with (total (skipn m P) / nth 0 P 0) by lra. field; lra.
    + setoid_replace err with (total (skipn m P) / nth 0 P 0) by lra. field; lra.
Qed.

(** In relative mode the reported number is the discarded fraction times the largest value:
    it is the claimed fraction only when the largest value is 1. *)
Theorem C25_relative_partial : forall P maxdim mindim cutoff,
  descending P -> (2 <= length P)%nat -> 0 < nth 0 P 0 -> (1 <= maxdim)%Z -> (1 <= mindim)%Z ->
  exists r, truncate P maxdim mindim cutoff false true false = Ok r /\
    tr_truncerr r == nth 0 P 0 * (total (skipn (length (tr_kept r)) P) / total P).
Proof.
  intros P maxdim mindim cutoff HD HL H0 HM Hm.
  destruct (truncate_general P maxdim mindim cutoff false true HD) as (m & err & A1 & _ & _ & _ & A5 & A6); auto.
  eexists. split; [exact (A6 false)|].
  unfold tail_of; cbn [tr_kept tr_truncerr andb fst]. rewrite map_length, firstn_length, normed_length.
  rewrite Nat.min_l by lia. simpl in A5.
  assert (0 < total P) by (apply total_pos; auto; destruct P; [simpl in HL; lia|congruence]).
  rewrite <- A5. field. lra.
Qed.

(** The claimed fraction when the spectrum is normalised so that its largest value is 1. *)
Theorem C25_relative_normalised : forall P maxdim mindim cutoff,
  descending P -> (2 <= length P)%nat -> nth 0 P 0 == 1 -> (1 <= maxdim)%Z -> (1 <= mindim)%Z ->
  exists r, truncate P maxdim mindim cutoff false true false = Ok r /\
    tr_truncerr r == total (skipn (length (tr_kept r)) P) / total P.
Proof.
  intros P maxdim mindim cutoff HD HL H0 HM Hm.
  destruct (C25_relative_partial P maxdim mindim cutoff HD HL) as (r & E & A); auto; [lra|].
  exists r; split; auto. rewrite A, H0. ring.
Qed.

(** Finding: a density matrix with weights 1/2, 1/4, 1/4 (total 1) truncated to two values
    discards 1/4 of the weight and reports 1/8. *)
Theorem C25_relative_refuted :
  exists P r, descending P /\ 0 < nth 0 P 0 /\ truncate P 2 1 0 false true false = Ok r /\
    length (tr_kept r) = 2%nat /\ total P == 1 /\
    total (skipn (length (tr_kept r)) P) / total P == 1#4 /\ tr_truncerr r == 1#8.
Proof.
  exists [1#2; 1#4; 1#4]. eexists. split.
  - unfold descending. repeat (constructor; [|repeat (constructor; [vm_compute; discriminate|]); constructor]). constructor.
  - vm_compute. repeat split.
Qed.

(** Finding: with RespectDegenerate the reported error is that of the truncation before the
    dimension was adjusted. *)
Theorem C25_respect_degenerate_refuted :
  exists P r, descending P /\ truncate P 2 1 0 false false true = Ok r /\ length (tr_kept r) = 1%nat /\
    total (skipn 1 P) == 1 /\ tr_truncerr r == 1#2.
Proof.
  exists [1; 1#2; 1#2]. eexists. split.
  - unfold descending. repeat (constructor; [|repeat (constructor; [vm_compute; discriminate|]); constructor]). constructor.
  - vm_compute. repeat split.
Qed.

Example C25_nonvacuous :
  match truncate [1#2; 1#4; 1#8; 1#16] 2 1 0 false false false with
  | Ok r => length (tr_kept r) = 2%nat /\ tr_truncerr r == 3#16 | _ => False end.
Proof. vm_compute. repeat split. Qed.

(** ** C26 *)
Definition nonneg (l : list Q) : Prop := Forall (fun x => 0 <= x) l.

Lemma count_prefix (f : Q -> bool) (l : list Q) k : (k <= length l)%nat ->
  (forall i, (i < length l)%nat -> f (nth i l 0) = (i <? k)%nat) -> count f l = k.
Proof.
  revert k; induction l as [|a l IH]; intros k Hk H; unfold count in *; simpl in *; [lia|].
  pose proof (H 0%nat ltac:(lia)) as H1. simpl in H1. rewrite H1.
  destruct k as [|k]; simpl.
  - apply IH; [lia|]. intros i Hi. exact (H (S i) ltac:(lia)).
  - f_equal. apply IH; [lia|]. intros i Hi. exact (H (S i) ltac:(lia)).
Qed.

Lemma count_range (f : Q -> bool) (l : list Q) a b : (b <= length l)%nat ->
  (forall i, (a <= i < b)%nat -> f (nth i l 0) = true) -> (b - a <= count f l)%nat.
Proof.
  revert a b; induction l as [|x l IH]; intros a b Hb H; unfold count in *; simpl in *; [lia|].
  destruct b as [|b]; [lia|]. destruct a as [|a].
  - pose proof (H 0%nat ltac:(lia)) as H1. simpl in H1. rewrite H1. simpl.
    specialize (IH 0%nat b ltac:(lia)). assert (b - 0 <= length (filter f l))%nat; [|lia].
    apply IH. intros i Hi. exact (H (S i) ltac:(lia)).
  - specialize (IH a b ltac:(lia)). assert (b - a <= length (filter f l))%nat.
    { apply IH. intros i Hi. exact (H (S i) ltac:(lia)). }
    destruct (f x); simpl; lia.
Qed.

(** What the truncation's thresholds say about the pooled spectrum. *)
Lemma thresholds P maxdim mindim cutoff absc relc resp :
  descending P -> P <> [] -> nonneg P -> (1 <= maxdim)%Z -> (1 <= mindim)%Z ->
  exists r, truncate P maxdim mindim cutoff absc relc resp = Ok r /\
    tr_docut_lower r <= tr_docut_upper r /\
    (Z.of_nat (length (tr_kept r)) <= maxdim)%Z /\
    ((forall x, In x P -> ~ x == tr_docut_upper r) ->
     (count (Qltb (tr_docut_upper r)) P + tr_ndegen_below r = length (tr_kept r))%nat /\
     (tr_ndegen_below r <= count (in_window (tr_docut_lower r) (tr_docut_upper r)) P)%nat).
Proof.
  intros HD HN HNN HM Hm.
  assert (HLen : (1 <= length P)%nat) by (destruct P; simpl; [congruence|lia]).
  assert (HNth : forall i, (i < length P)%nat -> 0 <= nth i P 0).
  { intros i Hi. unfold nonneg in HNN. rewrite Forall_forall in HNN. apply HNN, nth_In; auto. }
  destruct (Qeq_bool_spec (nth 0 P 0) 0) as [HZ|HZ].
  { (* all zero *)
    eexists. split. { unfold truncate. rewrite oget_nth by lia. cbn [obind]. destruct (Qeq_bool_spec (nth 0 P 0) 0); [|contradiction]. reflexivity. }
    cbn [tr_kept tr_docut_lower tr_docut_upper tr_ndegen_below].
    assert (HA : forall x, In x P -> x == 0).
    { intros x Hx. apply (In_nth _ _ 0) in Hx as (i & Hi & <-).
      pose proof (desc_nth P 0 i HD ltac:(lia) Hi). specialize (HNth i Hi). lra. }
    rewrite firstn_length, Nat.min_l by lia.
    split; [vm_compute; discriminate|]. split; [lia|]. intros _. split.
    - rewrite count_none; auto. intros x Hx. apply HA in Hx. destruct (Qltb_spec REAL_EPSILON x); auto.
      exfalso. rewrite Hx in q. vm_compute in q. discriminate.
    - rewrite count_all; auto. intros x Hx. apply HA in Hx. unfold in_window.
      destruct (Qltb_spec (- REAL_EPSILON) x) as [K|K], (Qltb_spec REAL_EPSILON x) as [K'|K']; auto;
        exfalso; rewrite Hx in *; try (vm_compute in K'; discriminate); apply K; reflexivity. }
  assert (H0 : 0 < nth 0 P 0) by (specialize (HNth 0%nat ltac:(lia)); lra).
  destruct (Nat.eq_dec (length P) 1) as [HL|HL].
  { eexists. split. { unfold truncate. rewrite oget_nth by lia. cbn [obind]. destruct (Qeq_bool_spec (nth 0 P 0) 0); [lra|]. rewrite HL. reflexivity. }
    cbn [tr_kept tr_docut_lower tr_docut_upper tr_ndegen_below].
    rewrite (single_list P HL). cbn [nth length]. set (p := nth 0 P 0) in *. clearbody p.
    split; [lra|]. split; [lia|]. intros _.
    unfold count, in_window. cbn [filter].
    destruct (Qltb_spec (p + (1#1000) * p) p) as [K|K]; [lra|].
    destruct (Qltb_spec (p - (1#1000) * p) p) as [K'|K']; [|lra]. simpl. split; lia. }
  destruct (truncate_general P maxdim mindim cutoff absc relc HD ltac:(lia) H0 HM Hm) as (mc & err & A1 & A2 & _ & _ & _ & A6).
  set (P0 := nth 0 P 0) in *.
  assert (Hlen : length (normed P0 P) = length P) by apply normed_length.
  set (P2 := normed P0 P) in *.
  exists (tail_of P0 P2 maxdim resp mc err). split; [apply A6|].
  set (Pn := nth (mc - 1) P2 0).
  pose proof (degen_before_spec P2 Pn (window Pn) (mc - 1) ltac:(lia)) as HB.
  pose proof (degen_after_spec P2 Pn (window Pn) mc) as HA. cbv zeta in HA, HB.
  set (kb := degen_before P2 Pn (window Pn) (mc - 1)) in *.
  set (ka := degen_after (skipn mc P2) Pn (window Pn)) in *.
  destruct HB as (B1 & B2 & B3), HA as (C1 & C2 & C3).
  assert (HN2 : forall i, (i < length P)%nat -> nth i P 0 == nth i P2 0 * P0).
  { intros i Hi. unfold P2. rewrite normed_nth by auto. rewrite weight_div by auto.
    rewrite weight_id by auto. field; lra. }
  assert (HMono : forall i j, (i <= j)%nat -> (j < length P)%nat -> nth j P2 0 <= nth i P2 0).
  { intros i j Hij Hj. unfold P2. rewrite !normed_nth by lia. apply weight_mono, div_le; auto. apply desc_nth; auto. }
  assert (Hw : 0 < window Pn).
  { unfold window. destruct (Qeq_bool_spec Pn 0) as [K|K]; [reflexivity|].
    assert (0 <= Pn) by (unfold Pn, P2; rewrite normed_nth by lia; apply weight_nonneg). lra. }
  assert (Hres : length (tr_kept (tail_of P0 P2 maxdim resp mc err)) = (mc - S kb + tr_ndegen_below (tail_of P0 P2 maxdim resp mc err))%nat /\
    (tr_ndegen_below (tail_of P0 P2 maxdim resp mc err) <= S kb + ka)%nat /\
    (Z.of_nat (length (tr_kept (tail_of P0 P2 maxdim resp mc err))) <= maxdim)%Z).
  { unfold tail_of. cbn [tr_kept tr_ndegen_below]. fold Pn. fold kb. fold ka.
    destruct (resp && (1 <? S kb + ka)%nat)%bool; [destruct (Z.ltb_spec maxdim (Z.of_nat (mc + ka)))|];
      cbn [fst snd]; rewrite map_length, firstn_length, Hlen; lia. }
  assert (HL1 : tr_docut_lower (tail_of P0 P2 maxdim resp mc err) = (Pn - window Pn) * P0) by reflexivity.
  assert (HU1 : tr_docut_upper (tail_of P0 P2 maxdim resp mc err) = (Pn + window Pn) * P0) by reflexivity.
  rewrite HL1, HU1. destruct Hres as (R1 & R2 & R3).
  split. { apply Qmult_le_compat_r; lra. } split; [exact R3|].
  intros HT. rewrite R1.
  set (nd := tr_ndegen_below (tail_of P0 P2 maxdim resp mc err)) in *. clearbody nd.
  assert (Hlt : forall a b, a < b <-> a * P0 < b * P0).
  { intros a b. split; intros K.
    - apply Qmult_lt_compat_r; auto.
    - apply Qnot_le_lt. intros K'. apply (Qmult_le_compat_r _ _ P0) in K'; lra. }
  split.
  - f_equal. apply count_prefix; [lia|]. intros i Hi.
    destruct (Nat.ltb_spec i (mc - S kb)) as [K|K].
    + destruct (Qltb_spec ((Pn + window Pn) * P0) (nth i P 0)) as [Q|Q]; auto. exfalso.
      specialize (B3 ltac:(lia)).
      pose proof (HMono i (mc - 1 - kb - 1)%nat ltac:(lia) ltac:(lia)) as M1.
      pose proof (HMono (mc - 1 - kb - 1)%nat (mc - 1)%nat ltac:(lia) ltac:(lia)) as M2. fold Pn in M2.
      rewrite Qabs_pos in B3 by lra.
      assert (M3 : Pn + window Pn <= nth i P2 0) by lra.
      apply (Qmult_le_compat_r _ _ P0) in M3; [|lra]. rewrite <- HN2 in M3 by auto.
      apply (HT (nth i P 0)); [apply nth_In; auto|]. lra.
    + destruct (Qltb_spec ((Pn + window Pn) * P0) (nth i P 0)) as [Q|Q]; auto. exfalso.
      rewrite HN2 in Q by auto. apply Hlt in Q.
      destruct (Nat.lt_ge_cases i (mc - 1)) as [L|L].
      * specialize (B2 i ltac:(lia)). pose proof (Qle_Qabs (nth i P2 0 - Pn)). lra.
      * pose proof (HMono (mc - 1)%nat i L Hi) as M. fold Pn in M. lra.
  - eapply Nat.le_trans; [|apply (count_range _ P (mc - S kb) (mc + ka)); [lia|]]; [lia|].
    intros i Hi. unfold in_window.
    assert (HC : Qabs (nth i P2 0 - Pn) < window Pn).
    { destruct (Nat.lt_ge_cases i (mc - 1)); [apply B2; lia|].
      destruct (Nat.eq_dec i (mc - 1)) as [->|]; [|apply C2; lia].
      fold Pn. setoid_replace (Pn - Pn) with 0 by ring. exact Hw. }
    pose proof (Qle_Qabs (nth i P2 0 - Pn)) as X1. pose proof (Qle_Qabs (- (nth i P2 0 - Pn))) as X2.
    rewrite Qabs_opp in X2.
    destruct (Qltb_spec ((Pn - window Pn) * P0) (nth i P 0)) as [Q|Q].
    + destruct (Qltb_spec ((Pn + window Pn) * P0) (nth i P 0)) as [Q'|Q']; auto.
      exfalso. rewrite HN2 in Q' by lia. apply Hlt in Q'. lra.
    + exfalso. apply Q. rewrite HN2 by lia. apply (proj1 (Hlt _ _)). lra.
Qed.

(** Whatever the spectrum, no more values are kept over all blocks than the truncation decided, hence never
    more than MaxDim; and every kept value lies above the lower threshold. *)
Theorem C26_bound : forall blocks maxdim mindim cutoff absoluteCutoff doRelCutoff respectDegenerate,
  concat blocks <> [] -> nonneg (concat blocks) -> (1 <= maxdim)%Z -> (1 <= mindim)%Z ->
  exists r ks, block_truncate blocks maxdim mindim cutoff absoluteCutoff doRelCutoff respectDegenerate = Ok (r, ks) /\
    length ks = length blocks /\
    (kept_total ks <= length (tr_kept r))%nat /\ (Z.of_nat (kept_total ks) <= maxdim)%Z /\
    (forall i x, In x (firstn (nth i ks 0%nat) (nth i blocks [])) -> tr_docut_lower r < x).
Proof.
  intros blocks maxdim mindim cutoff a rl d HN HNN HM Hm. unfold block_truncate.
  pose proof (sort_desc_perm (concat blocks)) as HP.
  destruct (thresholds (sort_desc (concat blocks)) maxdim mindim cutoff a rl d) as (r & E & A & B & _); auto.
  - apply sort_desc_sorted.
  - intros K. rewrite K in HP. apply Permutation_sym, Permutation_nil in HP. auto.
  - unfold nonneg in *. now rewrite <- HP.
  - rewrite E. cbn [obind]. eexists _, _. split; [reflexivity|].
    pose proof (select_blocks_bound (tr_docut_lower r) (tr_docut_upper r) (length (tr_kept r)) blocks 0 (tr_ndegen_below r) ltac:(lia)).
    repeat split; try lia.
    + apply select_blocks_length.
    + intros i x Hx. eapply select_blocks_above; eauto.
Qed.

(** When no value sits exactly on the upper threshold, exactly as many values are kept over all blocks as the
    truncation decided, and every value above the upper threshold is among them. *)
Theorem C26_selection : forall blocks maxdim mindim cutoff absoluteCutoff doRelCutoff respectDegenerate r ks,
  Forall descending blocks -> concat blocks <> [] -> nonneg (concat blocks) -> (1 <= maxdim)%Z -> (1 <= mindim)%Z ->
  block_truncate blocks maxdim mindim cutoff absoluteCutoff doRelCutoff respectDegenerate = Ok (r, ks) ->
  (forall x, In x (concat blocks) -> ~ x == tr_docut_upper r) ->
  kept_total ks = length (tr_kept r) /\
  (forall i x, (i < length blocks)%nat -> In x (nth i blocks []) -> tr_docut_upper r < x ->
     In x (firstn (nth i ks 0%nat) (nth i blocks []))).
Proof.
  intros blocks maxdim mindim cutoff a rl d r ks HB HN HNN HM Hm E HT.
  pose proof (sort_desc_perm (concat blocks)) as HP.
  destruct (thresholds (sort_desc (concat blocks)) maxdim mindim cutoff a rl d) as (r' & E' & A & B & C); auto.
  - apply sort_desc_sorted.
  - intros K. rewrite K in HP. apply Permutation_sym, Permutation_nil in HP. auto.
  - unfold nonneg in *. now rewrite <- HP.
  - unfold block_truncate in E. rewrite E' in E. cbn [obind] in E. injection E as <- <-.
    destruct C as [C1 C2].
    { intros x Hx. apply HT. eapply Permutation_in; [apply Permutation_sym; exact HP|auto]. }
    rewrite <- (count_perm _ _ _ HP) in C1. rewrite <- (count_perm _ _ _ HP) in C2.
    destruct (select_blocks_exact (tr_docut_lower r') (tr_docut_upper r') (length (tr_kept r')) A blocks 0 (tr_ndegen_below r')) as [D1 D2]; auto; try lia.
    split; [rewrite D1; lia|exact D2].
Qed.

Example C26_nonvacuous :
  let blocks := [[1#2; 1#10]; [1#4; 1#4]; [1#20]] in
  Forall descending blocks /\ nonneg (concat blocks) /\
  match block_truncate blocks 3 1 0 false true false with
  | Ok (r, ks) => ks = [1; 2; 0]%nat /\ length (tr_kept r) = 3%nat /\
                  forallb (fun x => negb (Qeq_bool x (tr_docut_upper r))) (concat blocks) = true
  | _ => False end.
Proof.
  cbv zeta. split; [|split].
  - repeat (constructor; [unfold descending; repeat (constructor; [|repeat (constructor; [vm_compute; discriminate|]); constructor]); constructor|]). constructor.
  - repeat (constructor; [vm_compute; discriminate|]). constructor.
  - vm_compute. repeat split.
Qed.

(** Finding: a value exactly on the upper threshold makes the blocks keep fewer values than decided. *)
Theorem C26_tie_refuted :
  exists blocks r ks, Forall descending blocks /\ nonneg (concat blocks) /\
    block_truncate blocks 2 1 0 false true false = Ok (r, ks) /\
    length (tr_kept r) = 2%nat /\ kept_total ks = 1%nat.
Proof.
  exists [[1]; [1000#1001]]. eexists _, _. split; [|split].
  - repeat (constructor; [unfold descending; repeat (constructor; [|repeat (constructor; [vm_compute; discriminate|]); constructor]); constructor|]). constructor.
  - repeat (constructor; [vm_compute; discriminate|]). constructor.
  - vm_compute. repeat split.
Qed.

(** Finding: within the degeneracy window the choice follows block order: the largest value of the
    whole spectrum can be discarded in favour of a smaller one. *)
Theorem C26_degenerate_choice_refuted :
  exists blocks r, Forall descending blocks /\ nonneg (concat blocks) /\
    block_truncate blocks 1 1 0 false true false = Ok (r, [1; 0]%nat) /\
    nth 0 (nth 0 blocks []) 0 < nth 0 (nth 1 blocks []) 0.
Proof.
  exists [[9995#10000]; [1]]. eexists. split; [|split].
  - repeat (constructor; [unfold descending; repeat (constructor; [|repeat (constructor; [vm_compute; discriminate|]); constructor]); constructor|]). constructor.
  - repeat (constructor; [vm_compute; discriminate|]). constructor.
  - vm_compute. repeat split.
Qed.

(** Finding: negative eigenvalues counted (as zero weight) towards MinDim are not selected in any block. *)
Theorem C26_negative_refuted :
  exists blocks r ks, Forall descending blocks /\
    block_truncate blocks 2 2 0 false true false = Ok (r, ks) /\
    length (tr_kept r) = 2%nat /\ kept_total ks = 1%nat.
Proof.
  exists [[1]; [-(1)]]. eexists _, _. split.
  - repeat (constructor; [unfold descending; repeat (constructor; [|repeat (constructor; [vm_compute; discriminate|]); constructor]); constructor|]). constructor.
  - vm_compute. repeat split.
Qed.

Print Assumptions C24_truncate.
Print Assumptions C24_respect_degenerate.
Print Assumptions C24_respect_degenerate_empty_refuted.
Print Assumptions C24_mindim_zero_spectrum_refuted.
Print Assumptions C24_maxdim_zero_refuted.
Print Assumptions C24_mindim_zero_refuted.
Print Assumptions C25_discarded_weight.
Print Assumptions C25_relative_partial.
Print Assumptions C25_relative_normalised.
Print Assumptions C25_relative_refuted.
Print Assumptions C25_respect_degenerate_refuted.
Print Assumptions C26_bound.
Print Assumptions C26_selection.
Print Assumptions C26_tie_refuted.
Print Assumptions C26_degenerate_choice_refuted.
Print Assumptions C26_negative_refuted.
