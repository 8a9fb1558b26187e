(** svd of an order-2 tensor with quantum numbers: the loop over blocks. *)
From Coq Require Import List ZArith Arith Lia Ring Bool Permutation Sorted.
From Verif Require Import Util RangeModel RangeSpec RangeProofs TensorModel TensorSpec TensorProofs SemProofs ContractModel DenseModel DenseProofs
  SmallStringModel QnModel QnSpec QnProofs QdModel QdSpec QdProofs QdFlux QdAdd QdSum CombinerModel QCombModel QCombProps
  SvdModel SvdSpec SvdRank SvdMat SvdFactor SvdBlocks SvdDense SvdQn.
Import ListNotations.
Open Scope outcome_scope.
Local Arguments Nat.sub : simpl never.

Section Fill.
Context {R : Type} (r0 r1 : R) (radd rmul rsub : R -> R -> R) (ropp : R -> R).
Context (RT : ring_theory r0 r1 radd rmul rsub ropp eq).
Add Ring RRsfl : RT.
Context (conj : R -> R) (HC : conjugation radd rmul conj).
Context (gesdd gesvd : nat -> nat -> list R -> option (list R * list R * list R)).
Hypothesis Hdd : exact_lapack r0 r1 radd rmul conj gesdd.
Hypothesis Hvd : exact_lapack r0 r1 radd rmul conj gesvd.
Context {I : Type} (ieq : I -> I -> bool) (ieq_spec : forall a b, ieq a b = true <-> a = b).
Context (bs : I -> list nat) (qns : I -> list QN) (M : SmallString -> Z) (Sx : list SmallString) (Sch : Scheme M Sx).
Context (mk : nat -> list (QN * nat) -> I) (keep : list (list R) -> list nat).
Hypothesis Hkeep : keeps keep.
Hypothesis mk_bs : forall n q, bs (mk n q) = map snd q.
Hypothesis mk_qns : forall n q, qns (mk n q) = map fst q.
Hypothesis mk_inj : forall n n' q q', mk n q = mk n' q' -> n = n'.
Notation total := (total bs).
Notation proper := (proper bs).
Notation ranged := (ranged bs).
Notation qval := (qval r0 bs).
Notation stored := (stored bs).
Notation labelled := (labelled bs qns M Sx).
Notation nblocks := (nblocks bs).
Notation qtensor := (qtensor bs qns M Sx).
Notation sum := (sum_below r0 radd).
Notation kron := (kron r0 r1).
Notation cm := (cm r0).
Notation inner := (inner r0 radd rmul conj).
Notation ortho := (ortho r0 r1 radd rmul conj).
Notation rsum := (rsum r0 radd rmul).
Notation term := ((nat -> R) * R * (nat -> R))%type.
Notation z0 := (z0 r0).
Notation factored := (factored r0 r1 radd rmul conj).
Notation velt := (velt r0).
Notation mview := (@mview R).
Notation sblock := (nat * nat * list R * list R * list R)%type.
Notation SVDc := (SVDc r0 conj gesdd gesvd).
Notation decomposed := (decomposed r0 r1 radd rmul conj).
Notation put_block := (put_block (R:=R) bs).
Notation put_diag := (put_diag (R:=R) bs).
Notation fill_loop := (fill_loop (R:=R) bs).


Notation onb := (onb r0).
Notation fillm := (SvdModel.fill_loop (R:=R) bs).
Notation may_err := (may_err gesdd gesvd).

(** The decomposed blocks of which something is kept. *)
Fixpoint keptb (sl : list sblock) (ks : list nat) : list (sblock * nat) :=
  match sl, ks with b :: sl', k :: ks' => if k =? 0 then keptb sl' ks' else (b, k) :: keptb sl' ks' | _, _ => [] end.
Lemma keptb_in sl : forall ks b k, length ks = length sl -> In (b, k) (keptb sl ks) -> 0 < k /\ exists n, n < length sl /\ nth n ks 0 = k /\ forall z, nth n sl z = b.
Proof.
  induction sl as [|c sl IH]; intros [|k' ks] b k L H; cbn in *; try discriminate; try contradiction.
  assert (G : In (b, k) (keptb sl ks) -> 0 < k /\ exists n, n < S (length sl) /\ nth n (k' :: ks) 0 = k /\ forall z, nth n (c :: sl) z = b).
  { intros H'. destruct (IH ks b k ltac:(lia) H') as (P & n & Hn & E1 & E2). split; [exact P|]. exists (S n). cbn. split; [lia|]. auto. }
  destruct (Nat.eqb_spec k' 0); auto. destruct H as [H|H]; auto. injection H as <- <-. split; [lia|]. exists 0. cbn. split; [lia|]. auto.
Qed.
Lemma kept_kb {A} (f : sblock -> list A) sl : forall ks, kept ks (map f sl) = concat (map (fun bk => firstn (snd bk) (f (fst bk))) (keptb sl ks)).
Proof.
  induction sl as [|c sl IH]; intros [|k ks]; cbn [kept map keptb]; try reflexivity. rewrite IH. destruct (Nat.eqb_spec k 0) as [->|]; reflexivity.
Qed.
Lemma sectors_kb side x sl : (forall b, In b sl -> side b < length (qns x)) -> forall ks,
  new_sectors qns side x sl ks = Ok (map (fun bk => (nth (side (fst bk)) (qns x) qn0, snd bk)) (keptb sl ks)).
Proof.
  intros H. induction sl as [|c sl IH]; intros [|k ks]; cbn [new_sectors keptb]; try reflexivity. rewrite IH by (intros; apply H; now right). cbn [obind].
  destruct (Nat.eqb_spec k 0); [reflexivity|]. rewrite (oget_ok qn0) by (apply H; now left). reflexivity.
Qed.

(** The loop over the kept blocks only. *)
Fixpoint fill2 (uI vI l r : I) (kb : list (sblock * nat)) (n : nat) (U : qd R) (D : list R) (V : qd R) : outcome (qd R * list R * qd R) :=
  match kb with
  | (b, k) :: kb' =>
      let! U' := put_block uI l (sb_i1 b) n U (sb_u b) in
      let! D' := put_diag l r n D (firstn k (sb_d b)) in
      let! V' := put_block vI r (sb_i2 b) n V (sb_v b) in
      fill2 uI vI l r kb' (S n) U' D' V'
  | [] => Ok (U, D, V)
  end.
Lemma fill_fill2 uI vI l r sl : forall ks n U D V, fillm uI vI l r sl ks n U D V = fill2 uI vI l r (keptb sl ks) n U D V.
Proof.
  induction sl as [|c sl IH]; intros [|k ks] n U D V; cbn [SvdModel.fill_loop keptb fill2]; try reflexivity.
  destruct (Nat.eqb_spec k 0); [apply IH|]. cbn [fill2]. destruct (put_block uI l (sb_i1 c) n U (sb_u c)); cbn [obind]; auto.
  destruct (put_diag l r n D (firstn k (sb_d c))); cbn [obind]; auto. destruct (put_block vI r (sb_i2 c) n V (sb_v c)); cbn [obind]; auto.
Qed.

Definition dk (bk : sblock * nat) : list R := firstn (snd bk) (sb_d (fst bk)).
Definition kz : sblock * nat := ((0, 0, [], [], []), 0).

(** What the first n blocks leave in U (side sb_i1, sb_u) or V. *)
Definition part (side : sblock -> nat) (col : sblock -> list R) (x : I) (kb : list (sblock * nat)) (n : nat) (u v : nat) : R :=
  let j := blk (map snd kb) v in
  if j <? n then let b := fst (nth j kb kz) in onb (bs x) (side b) (fun i => cm (nth (side b) (bs x) 0) (col b) i (pos (map snd kb) v)) u else r0.

Lemma put_part side col x l kb n D : bs l = map snd kb -> x <> l -> n < length kb -> stored [x; l] D ->
  let b := fst (nth n kb kz) in
  has_block D [side b; n] -> side b < nblocks x -> nth (side b) (bs x) 0 * snd (nth n kb kz) <= length (col b) ->
  (forall s, ranged [x; l] s -> qval [x; l] D s = part side col x kb n (s x) (s l)) ->
  exists D', put_block x l (side b) n D (col b) = Ok D' /\ stored [x; l] D' /\ offs D' = offs D /\
    forall s, ranged [x; l] s -> qval [x; l] D' s = part side col x kb (S n) (s x) (s l).
Proof.
  intros EB Hne Hn HS b HB Hi Le HV. assert (EN : nth n (bs l) 0 = snd (nth n kb kz)) by (rewrite EB; change 0 with (snd kz) at 1; apply map_nth).
  destruct (put_spec r0 ieq ieq_spec bs x l (side b) n D (col b) Hne HS HB Hi) as (D' & E & S' & O' & V').
  { unfold QdSpec.nblocks. rewrite EB, map_length. exact Hn. } { rewrite EN. exact Le. }
  exists D'. split; [exact E|]. split; [exact S'|]. split; [exact O'|]. intros s Hs. rewrite V' by exact Hs. rewrite HV by exact Hs. unfold part, SvdQn.onb. rewrite EB.
  set (j := blk (map snd kb) (s l)). destruct (Nat.eqb_spec j n) as [Ej|Ej].
  - rewrite Ej. destruct (Nat.ltb_spec n (S n)); [|lia]. rewrite andb_true_r. destruct (Nat.ltb_spec n n); [lia|]. reflexivity.
  - rewrite andb_false_r. destruct (Nat.ltb_spec j n); destruct (Nat.ltb_spec j (S n)); try lia; reflexivity.
Qed.

Lemma start_app pre suf : start (pre ++ suf) (length pre) = list_sum pre.
Proof. unfold start. rewrite firstn_app, Nat.sub_diag, firstn_all. cbn [firstn]. now rewrite app_nil_r. Qed.

Lemma fill2_spec uI vI l r kb : bs l = map snd kb -> bs r = map snd kb -> uI <> l -> vI <> r ->
  (forall bk, In bk kb -> 0 < snd bk /\ snd bk <= length (sb_d (fst bk)) /\ sb_i1 (fst bk) < nblocks uI /\ sb_i2 (fst bk) < nblocks vI /\
     nth (sb_i1 (fst bk)) (bs uI) 0 * snd bk <= length (sb_u (fst bk)) /\ nth (sb_i2 (fst bk)) (bs vI) 0 * snd bk <= length (sb_v (fst bk))) ->
  forall suf pre U D V, kb = pre ++ suf -> stored [uI; l] U -> stored [vI; r] V ->
  (forall n, n < length kb -> has_block U [sb_i1 (fst (nth n kb kz)); n]) -> (forall n, n < length kb -> has_block V [sb_i2 (fst (nth n kb kz)); n]) ->
  (forall s, ranged [uI; l] s -> qval [uI; l] U s = part sb_i1 sb_u uI kb (length pre) (s uI) (s l)) ->
  (forall s, ranged [vI; r] s -> qval [vI; r] V s = part sb_i2 sb_v vI kb (length pre) (s vI) (s r)) ->
  D = concat (map dk pre) ++ repeat r0 (list_sum (map snd suf)) ->
  exists U' V', fill2 uI vI l r suf (length pre) U D V = Ok (U', concat (map dk kb), V') /\ stored [uI; l] U' /\ stored [vI; r] V' /\ offs U' = offs U /\ offs V' = offs V /\
    (forall s, ranged [uI; l] s -> qval [uI; l] U' s = part sb_i1 sb_u uI kb (length kb) (s uI) (s l)) /\
    (forall s, ranged [vI; r] s -> qval [vI; r] V' s = part sb_i2 sb_v vI kb (length kb) (s vI) (s r)).
Proof.
  intros EL ER NU NV HK. induction suf as [|[b k] suf IH]; intros pre U D V EK SU SV BU BV VU VV ED.
  - rewrite app_nil_r in EK. subst pre. cbn [fill2]. cbn [map list_sum fold_right repeat] in ED. rewrite app_nil_r in ED. subst D. exists U, V. auto 10.
  - assert (Hn : length pre < length kb) by (rewrite EK, app_length; cbn; lia).
    assert (EN : nth (length pre) kb kz = (b, k)) by (rewrite EK, app_nth2, Nat.sub_diag by lia; reflexivity).
    destruct (HK (b, k)) as (K1 & K2 & K3 & K4 & K5 & K6); [rewrite EK; apply in_or_app; cbn; auto|]. cbn [fst snd] in *.
    pose proof (put_part sb_i1 sb_u uI l kb (length pre) U EL NU Hn SU) as PU. cbv zeta in PU. specialize (BU _ Hn) as BU'. rewrite EN in PU, BU'. cbn [fst snd] in PU, BU'.
    destruct (PU BU' K3 K5 VU) as (U1 & E1 & S1 & O1 & V1).
    pose proof (put_part sb_i2 sb_v vI r kb (length pre) V ER NV Hn SV) as PV. cbv zeta in PV. specialize (BV _ Hn) as BV'. rewrite EN in PV, BV'. cbn [fst snd] in PV, BV'.
    destruct (PV BV' K4 K6 VV) as (V2 & E2 & S2 & O2 & W2).
    cbn [fill2]. rewrite E1. cbn [obind].
    assert (ST : start (map snd kb) (length pre) = length (concat (map dk pre))).
    { rewrite EK, map_app. rewrite <- (map_length snd pre) at 1. rewrite start_app. rewrite length_concat, map_map. f_equal. apply map_ext_in. intros bk Hb.
      unfold dk. rewrite firstn_length. destruct (HK bk) as (_ & Q & _); [rewrite EK; apply in_or_app; auto|]. lia. }
    assert (ENk : nth (length pre) (map snd kb) 0 = k) by (change 0 with (snd kz); rewrite map_nth, EN; reflexivity).
    assert (PD : put_diag l r (length pre) D (firstn k (sb_d b)) = Ok (concat (map dk (pre ++ [(b, k)])) ++ repeat r0 (list_sum (map snd suf)))).
    { unfold SvdModel.put_diag, diag_bounds. rewrite EL, ER. rewrite select_firstn by (rewrite map_length; lia). cbn [obind]. rewrite (oget_ok 0) by (rewrite map_length; exact Hn). cbn [obind].
      fold (start (map snd kb) (length pre)). rewrite Nat.max_id, Nat.min_id, ENk. destruct (Nat.leb_spec (start (map snd kb) (length pre) + k) (start (map snd kb) (length pre))); [lia|].
      assert (LF : length (firstn k (sb_d b)) = k) by (rewrite firstn_length; lia). cbn [map] in ED. change (list_sum (k :: map snd suf)) with (k + list_sum (map snd suf)) in ED.
      assert (LD : length D = length (concat (map dk pre)) + (k + list_sum (map snd suf))) by (rewrite ED, app_length, repeat_length; reflexivity).
      rewrite segment_ok by (rewrite LF, ST, LD; lia). cbn [obind]. f_equal.
      rewrite map_app, concat_app. cbn [map concat]. rewrite app_nil_r. unfold put_seg. rewrite LF, ST, ED. cbn [snd]. rewrite firstn_app, Nat.sub_diag, firstn_all. cbn [firstn]. rewrite app_nil_r.
      rewrite <- app_assoc. f_equal. change (dk (b, k)) with (firstn k (sb_d b)). f_equal. rewrite skipn_app, skipn_all2 by lia. cbn [app].
      replace (length (concat (map dk pre)) + k - length (concat (map dk pre))) with k by lia. change (list_sum (k :: map snd suf)) with (k + list_sum (map snd suf)). rewrite repeat_app, skipn_app, skipn_all2 by (rewrite repeat_length; lia).
      rewrite repeat_length, Nat.sub_diag. reflexivity. }
    rewrite PD. cbn [obind]. rewrite E2. cbn [obind].
    destruct (IH (pre ++ [(b, k)]) U1 (concat (map dk (pre ++ [(b, k)])) ++ repeat r0 (list_sum (map snd suf))) V2) as (U' & V' & E & A1 & A2 & A3 & A4 & A5 & A6).
    + rewrite <- app_assoc. exact EK.
    + exact S1.
    + exact S2.
    + intros n Q. unfold has_block. rewrite O1. apply BU. exact Q.
    + intros n Q. unfold has_block. rewrite O2. apply BV. exact Q.
    + intros s Hs. rewrite app_length, Nat.add_1_r. now apply V1.
    + intros s Hs. rewrite app_length, Nat.add_1_r. now apply W2.
    + reflexivity.
    + rewrite app_length, Nat.add_1_r in E. exists U', V'. rewrite A3, A4, O1, O2. auto 10.
Qed.
End Fill.
