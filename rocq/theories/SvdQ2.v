(** svd of an order-2 tensor with quantum numbers: the result. *)
From Coq Require Import List ZArith Arith Lia Ring Bool Permutation Sorted.
From Verif Require Import Util RangeModel RangeSpec RangeProofs TensorModel TensorSpec TensorProofs SemProofs ContractModel DenseModel DenseProofs
  SmallStringModel QnModel QnSpec QnProofs QdModel QdSpec QdProofs QdFlux QdAdd QdSum CombinerModel QCombModel QCombProps
  SvdModel SvdSpec SvdRank SvdMat SvdFactor SvdBlocks SvdDense SvdQn SvdFill.
Import ListNotations.
Open Scope outcome_scope.
Local Arguments Nat.sub : simpl never.

Section Q2.
Context {R : Type} (r0 r1 : R) (radd rmul rsub : R -> R -> R) (ropp : R -> R).
Context (RT : ring_theory r0 r1 radd rmul rsub ropp eq).
Add Ring RRsqt : RT.
Context (conj : R -> R) (HC : conjugation radd rmul conj).
Context (gesdd gesvd : nat -> nat -> list R -> option (list R * list R * list R)).
Hypothesis Hdd : exact_lapack r0 r1 radd rmul conj gesdd.
Hypothesis Hvd : exact_lapack r0 r1 radd rmul conj gesvd.
Context {I : Type} (ieq : I -> I -> bool) (ieq_spec : forall a b, ieq a b = true <-> a = b).
Context (bs : I -> list nat) (qns : I -> list QN) (M : SmallString -> Z) (Sx : list SmallString) (Sch : Scheme M Sx).
Context (mk : nat -> list (QN * nat) -> I) (keep : list (list R) -> list nat).
Hypothesis Hkeep : keeps keep.
Hypothesis mk_bs : forall n q, bs (mk n q) = map snd q.
Hypothesis mk_qns : forall n q, qns (mk n q) = map fst q.
Hypothesis mk_inj : forall n n' q q', mk n q = mk n' q' -> n = n'.
Notation total := (total bs).
Notation proper := (proper bs).
Notation ranged := (ranged bs).
Notation qval := (qval r0 bs).
Notation stored := (stored bs).
Notation labelled := (labelled bs qns M Sx).
Notation nblocks := (nblocks bs).
Notation qtensor := (qtensor bs qns M Sx).
Notation sum := (sum_below r0 radd).
Notation kron := (kron r0 r1).
Notation cm := (cm r0).
Notation inner := (inner r0 radd rmul conj).
Notation ortho := (ortho r0 r1 radd rmul conj).
Notation rsum := (rsum r0 radd rmul).
Notation term := ((nat -> R) * R * (nat -> R))%type.
Notation z0 := (z0 r0).
Notation factored := (factored r0 r1 radd rmul conj).
Notation velt := (velt r0).
Notation mview := (@mview R).
Notation sblock := (nat * nat * list R * list R * list R)%type.
Notation SVDc := (SVDc r0 conj gesdd gesvd).
Notation decomposed := (decomposed r0 r1 radd rmul conj).
Notation put_block := (put_block (R:=R) bs).
Notation put_diag := (put_diag (R:=R) bs).
Notation fill_loop := (fill_loop (R:=R) bs).


Notation onb := (onb r0).
Notation fillm := (SvdModel.fill_loop (R:=R) bs).
Notation may_err := (may_err gesdd gesvd).

Notation part := (part r0 bs).
Notation kz := (@kz R).

Definition svdb (b : nat * nat * mview) (sb : sblock) : Prop := sb_i1 sb = bi1 b /\ sb_i2 sb = bi2 b /\ decomposed (bmat b) (sb_u sb) (sb_d sb) (sb_v sb).
Lemma blocks_spec m bl : (forall b, In b bl -> good (bmat b)) ->
  (exists sl, traverse (svd_block r0 conj gesdd gesvd m) bl = Ok sl /\ Forall2 svdb bl sl) \/
  (traverse (svd_block r0 conj gesdd gesvd m) bl = Err /\ may_err m) \/ (traverse (svd_block r0 conj gesdd gesvd m) bl = UB /\ m = MAuto /\ fails gesdd).
Proof.
  induction bl as [|[[i1 i2] Mx] bl IH]; intros H; cbn [traverse]; [left; exists []; split; [reflexivity|constructor]|].
  assert (G : good Mx) by (apply (H (i1, i2, Mx)); now left). unfold svd_block at 1 3 5.
  destruct (SVDc_spec r0 r1 radd rmul rsub ropp RT conj HC gesdd gesvd Hdd Hvd m Mx G) as [(u & d & w & E & HD)|[(E & K)|(E & K)]]; rewrite E; cbn [obind]; auto.
  destruct IH as [(sl & E2 & F)|[(E2 & K)|(E2 & K)]]; [intros; apply H; now right| | |]; rewrite E2; cbn [obind]; auto.
  left. exists ((i1, i2, u, d, w) :: sl). split; [reflexivity|]. constructor; auto. repeat split; auto; apply HD.
Qed.

Section One.
Context (uI vI : I).
Definition bterms (b : sblock) : list term :=
  map (fun r => (onb (bs uI) (sb_i1 b) (fun i => cm (nth (sb_i1 b) (bs uI) 0) (sb_u b) i r), nth r (sb_d b) r0,
                 onb (bs vI) (sb_i2 b) (fun j => cm (nth (sb_i2 b) (bs vI) 0) (sb_v b) j r))) (seq 0 (length (sb_d b))).
Lemma bterms_len b : length (bterms b) = length (sb_d b).
Proof. unfold bterms. now rewrite map_length, seq_length. Qed.
Lemma bterms_nth b x : x < length (sb_d b) -> nth x (bterms b) z0 =
  (onb (bs uI) (sb_i1 b) (fun i => cm (nth (sb_i1 b) (bs uI) 0) (sb_u b) i x), nth x (sb_d b) r0, onb (bs vI) (sb_i2 b) (fun j => cm (nth (sb_i2 b) (bs vI) 0) (sb_v b) j x)).
Proof.
  intros H. unfold bterms. match goal with |- nth x (map ?f _) _ = _ => set (g := f) end.
  rewrite (nth_indep _ z0 (g 0)) by (rewrite map_length, seq_length; exact H). rewrite (map_nth g), seq_nth by exact H. reflexivity.
Qed.
Lemma bterms_td b : map td (bterms b) = sb_d b.
Proof.
  unfold bterms. rewrite map_map. cbn [td fst snd]. apply nth_ext with (d := r0) (d' := r0); rewrite map_length, seq_length; auto.
  intros n Hn. apply (nth_seq_map r0 (fun r => nth r (sb_d b) r0)). exact Hn.
Qed.
Lemma bterms_off b t u v : In t (bterms b) -> blk (bs uI) u <> sb_i1 b \/ blk (bs vI) v <> sb_i2 b -> tp t u = r0 \/ tq t v = r0.
Proof.
  intros H K. apply (In_nth _ _ z0) in H as (x & Hx & <-). rewrite bterms_len in Hx. rewrite bterms_nth by exact Hx. cbn. unfold SvdQn.onb. destruct K as [K|K]; [left|right].
  - destruct (Nat.eqb_spec (blk (bs uI) u) (sb_i1 b)); [contradiction|reflexivity].
  - destruct (Nat.eqb_spec (blk (bs vI) v) (sb_i2 b)); [contradiction|reflexivity].
Qed.
Lemma bterms_offu b t u : In t (bterms b) -> blk (bs uI) u <> sb_i1 b -> tp t u = r0.
Proof. intros H K. apply (In_nth _ _ z0) in H as (x & Hx & <-). rewrite bterms_len in Hx. rewrite bterms_nth by exact Hx. cbn. unfold SvdQn.onb. destruct (Nat.eqb_spec (blk (bs uI) u) (sb_i1 b)); [contradiction|reflexivity]. Qed.
Lemma bterms_offv b t v : In t (bterms b) -> blk (bs vI) v <> sb_i2 b -> tq t v = r0.
Proof. intros H K. apply (In_nth _ _ z0) in H as (x & Hx & <-). rewrite bterms_len in Hx. rewrite bterms_nth by exact Hx. cbn. unfold SvdQn.onb. destruct (Nat.eqb_spec (blk (bs vI) v) (sb_i2 b)); [contradiction|reflexivity]. Qed.

(** The element of an order-2 tensor. *)
Definition qel (x y : I) (D : qd R) (u v : nat) : R := qval [x; y] D (fun z => if ieq x z then u else v).
Lemma qel_val x y D s : x <> y -> qval [x; y] D s = qel x y D (s x) (s y).
Proof.
  intros Hne. apply qval_eq. cbn. rewrite (proj2 (ieq_spec x x) eq_refl). destruct (ieq x y) eqn:E; auto. apply ieq_spec in E. contradiction.
Qed.
Lemma qel_part side col x l D kb : x <> l -> (forall s, ranged [x; l] s -> qval [x; l] D s = part side col x kb (length kb) (s x) (s l)) ->
  forall u v, u < total x -> v < total l -> qel x l D u v = part side col x kb (length kb) u v.
Proof.
  intros Hne H u v Hu Hv. assert (E : ieq x l = false) by (destruct (ieq x l) eqn:E; auto; apply ieq_spec in E; contradiction).
  unfold qel. rewrite H; rewrite ?(proj2 (ieq_spec x x) eq_refl), ?E; auto. apply ranged2. rewrite (proj2 (ieq_spec x x) eq_refl), E. auto.
Qed.

(** A decomposed block stands for the elements of A2 in its rows and columns. *)
Definition bfacts (A2 : nat -> nat -> R) (b : sblock) : Prop :=
  sb_i1 b < nblocks uI /\ sb_i2 b < nblocks vI /\ exists v, rn v = nth (sb_i1 b) (bs uI) 0 /\ cn v = nth (sb_i2 b) (bs vI) 0 /\ decomposed v (sb_u b) (sb_d b) (sb_v b) /\
    forall x y, x < total uI -> y < total vI -> blk (bs uI) x = sb_i1 b -> blk (bs vI) y = sb_i2 b -> A2 x y = velt v (pos (bs uI) x) (pos (bs vI) y).
Lemma bterms_on A2 b x y : bfacts A2 b -> x < total uI -> y < total vI -> blk (bs uI) x = sb_i1 b -> blk (bs vI) y = sb_i2 b -> rsum (bterms b) x y = A2 x y.
Proof.
  intros (H1 & H2 & v & Rn & Cn & (L1 & _ & _ & HV & _) & E) Hx Hy Bx By. rewrite (E x y) by assumption.
  destruct (blk_lt (bs uI) x Hx) as [_ Px]. destruct (blk_lt (bs vI) y Hy) as [_ Py]. rewrite Bx in Px. rewrite By in Py.
  rewrite HV by lia. rewrite (rsum_nth r0 r1 radd rmul rsub ropp RT _ z0), bterms_len, L1. apply sum_ext. intros r Hr. rewrite bterms_nth by lia. cbn. unfold SvdQn.onb.
  rewrite Bx, By, !Nat.eqb_refl, Rn, Cn. reflexivity.
Qed.
Lemma bterms_orthou A2 b : bfacts A2 b -> ortho (total uI) (map tp (bterms b)).
Proof.
  intros (H1 & H2 & v & Rn & Cn & (L1 & _ & _ & _ & OU & _) & _). apply (ortho_of r0 r1 radd rmul conj _ _ (tp z0)). rewrite map_length, bterms_len. intros x y Hx Hy.
  rewrite !map_nth, !bterms_nth by assumption. cbn [tp fst snd]. unfold QdSpec.total. rewrite (inner_onb r0 r1 radd rmul rsub ropp RT conj) by exact H1. rewrite <- Rn. apply OU; lia.
Qed.
Lemma bterms_orthov A2 b : bfacts A2 b -> ortho (total vI) (map tq (bterms b)).
Proof.
  intros (H1 & H2 & v & Rn & Cn & (L1 & _ & _ & _ & _ & OV & _) & _). apply (ortho_of r0 r1 radd rmul conj _ _ (tq z0)). rewrite map_length, bterms_len. intros x y Hx Hy.
  rewrite !map_nth, !bterms_nth by assumption. cbn [tq fst snd]. unfold QdSpec.total. rewrite (inner_onb r0 r1 radd rmul rsub ropp RT conj) by exact H2. rewrite <- Cn. apply OV; lia.
Qed.
Lemma nth_firstn {A} (z : A) k (l : list A) x : x < k -> nth x (firstn k l) z = nth x l z.
Proof. revert l x. induction k as [|k IH]; intros l x Hx; [lia|]. destruct l, x; cbn; auto. apply IH. lia. Qed.

Lemma factored_sl A2 sl ks U2 V2 : length ks = length sl -> (forall n z, n < length sl -> nth n ks 0 <= length (sb_d (nth n sl z))) ->
  (forall b, In b sl -> bfacts A2 b) ->
  (forall x y, x < total uI -> y < total vI -> (forall b, In b sl -> sb_i1 b <> blk (bs uI) x \/ sb_i2 b <> blk (bs vI) y) -> A2 x y = r0) ->
  NoDup (map sb_i1 sl) -> NoDup (map sb_i2 sl) ->
  (forall u x, u < total uI -> x < list_sum (map snd (keptb sl ks)) -> U2 u x = part sb_i1 sb_u uI (keptb sl ks) (length (keptb sl ks)) u x) ->
  (forall v x, v < total vI -> x < list_sum (map snd (keptb sl ks)) -> V2 v x = part sb_i2 sb_v vI (keptb sl ks) (length (keptb sl ks)) v x) ->
  factored (total uI) (total vI) A2 U2 (kept ks (map sb_d sl)) V2 (discarded ks (map sb_d sl)).
Proof.
  intros LK Le HB HZ N1 N2 HU HV.
  assert (ET : map (map td) (map bterms sl) = map sb_d sl) by (rewrite map_map; apply map_ext; intros; apply bterms_td).
  set (zb := (0, 0, [], [], []) : sblock).
  assert (NB : forall n, n < length sl -> nth n (map bterms sl) [] = bterms (nth n sl zb)).
  { intros n Hn. rewrite (nth_indep _ [] (bterms zb)) by (now rewrite map_length). apply map_nth. }
  assert (NS : forall (g : sblock -> nat -> bool) n, n < length sl -> nth n (map g sl) (fun _ => false) = g (nth n sl zb)).
  { intros g n Hn. rewrite (nth_indep _ _ (g zb)) by (now rewrite map_length). apply map_nth. }
  assert (INn : forall n, n < length sl -> In (nth n sl zb) sl) by (intros; now apply nth_In).
  assert (NDs : forall (g : sblock -> nat), NoDup (map g sl) -> forall n n', n < n' -> n' < length sl -> g (nth n sl zb) <> g (nth n' sl zb)).
  { intros g ND n n' H H' E. rewrite (NoDup_nth _ (g zb)) in ND. rewrite map_length in ND. specialize (ND n n' ltac:(lia) ltac:(lia)). rewrite !map_nth in ND. specialize (ND E). lia. }
  set (kb := keptb sl ks) in *.
  assert (KL : map (@length term) (map (fun bk => firstn (snd bk) (bterms (fst bk))) kb) = map snd kb).
  { rewrite map_map. apply map_ext_in. intros [b k] Hb. destruct (keptb_in sl ks b k LK Hb) as (_ & n & Hn & <- & E). cbn [fst snd]. rewrite firstn_length, bterms_len, <- (E zb). specialize (Le n zb Hn). lia. }
  assert (KT : forall x, x < list_sum (map snd kb) -> let j := blk (map snd kb) x in let b := fst (nth j kb kz) in
     j < length kb /\ nth x (kept ks (map bterms sl)) z0 =
       (onb (bs uI) (sb_i1 b) (fun i => cm (nth (sb_i1 b) (bs uI) 0) (sb_u b) i (pos (map snd kb) x)), nth (pos (map snd kb) x) (sb_d b) r0,
        onb (bs vI) (sb_i2 b) (fun i => cm (nth (sb_i2 b) (bs vI) 0) (sb_v b) i (pos (map snd kb) x)))).
  { intros x Hx j b. destruct (blk_lt (map snd kb) x Hx) as [Hj Hp]. rewrite map_length in Hj. fold j in Hj, Hp. split; [exact Hj|].
    rewrite kept_kb. fold kb. rewrite (nth_concat z0) by (rewrite length_concat, KL; exact Hx). rewrite KL. fold j.
    rewrite (nth_indep _ [] (firstn (snd kz) (bterms (fst kz)))) by (now rewrite map_length). rewrite (map_nth (fun bk : sblock * nat => firstn (snd bk) (bterms (fst bk)))).
    change 0 with (snd kz) in Hp. rewrite map_nth in Hp. rewrite nth_firstn by exact Hp. fold b.
    assert (Hb : In (nth j kb kz) kb) by now apply nth_In. destruct (nth j kb kz) as [b' k] eqn:EJ. destruct (keptb_in sl ks b' k LK Hb) as (_ & n & Hn & <- & E).
    assert (EB : b = b') by (unfold b; rewrite ?EJ; reflexivity); rewrite EB; clearbody b. cbn [snd] in Hp. specialize (Le n zb Hn). rewrite (E zb) in Le. apply bterms_nth. lia. }
  assert (LKT : length (kept ks (map bterms sl)) = list_sum (map snd kb)) by (rewrite kept_kb; fold kb; now rewrite length_concat, KL).
  rewrite <- ET. apply (factored_blocks r0 r1 radd rmul rsub ropp RT conj HC _ _ _ _ _ (map bterms sl) ks (map (fun b i => blk (bs uI) i =? sb_i1 b) sl) (map (fun b i => blk (bs vI) i =? sb_i2 b) sl)); rewrite ?map_length; auto.
  - intros x y Hx Hy.
    destruct (existsb (fun b => (sb_i1 b =? blk (bs uI) x) && (sb_i2 b =? blk (bs vI) y)) sl) eqn:EX.
    + apply existsb_exists in EX as (b & Hb & K). apply andb_true_iff in K as [K1 K2]. apply Nat.eqb_eq in K1, K2.
      pose proof (HB b Hb) as BF. apply in_split in Hb as (l1 & l2 & ->). rewrite map_app, concat_app. cbn [map concat]. rewrite !(rsum_app r0 r1 radd rmul rsub ropp RT).
      rewrite (bterms_on A2 b x y BF Hx Hy) by auto.
      assert (ZZ : forall l', (forall b', In b' l' -> sb_i1 b' <> sb_i1 b) -> rsum (concat (map bterms l')) x y = r0).
      { intros l' Hl. apply (rsum_zero r0 r1 radd rmul rsub ropp RT). intros t Ht. apply in_concat in Ht as (ts & Hts & Ht). apply in_map_iff in Hts as (b' & <- & Hb').
        apply (bterms_off b' t x y Ht). left. rewrite <- K1. apply not_eq_sym. now apply Hl. }
      rewrite map_app in N1. cbn [map] in N1. apply NoDup_remove_2 in N1.
      rewrite !ZZ; [ring| |]; intros b' Hb' E; apply N1; rewrite <- E; apply in_or_app; [right|left]; now apply in_map.
    + assert (NE : forall b, In b sl -> sb_i1 b <> blk (bs uI) x \/ sb_i2 b <> blk (bs vI) y).
      { intros b Hb. destruct (Nat.eq_dec (sb_i1 b) (blk (bs uI) x)) as [K1|]; [|now left]. destruct (Nat.eq_dec (sb_i2 b) (blk (bs vI) y)) as [K2|]; [|now right]. exfalso.
        assert (existsb (fun b => (sb_i1 b =? blk (bs uI) x) && (sb_i2 b =? blk (bs vI) y)) sl = true); [|congruence].
        apply existsb_exists. exists b. split; [exact Hb|]. rewrite K1, K2, !Nat.eqb_refl. reflexivity. }
      rewrite HZ by assumption. symmetry. apply (rsum_zero r0 r1 radd rmul rsub ropp RT). intros t Ht. apply in_concat in Ht as (ts & Hts & Ht). apply in_map_iff in Hts as (b' & <- & Hb').
      apply (bterms_off b' t x y Ht). destruct (NE b' Hb'); [left|right]; congruence.
  - intros n Hn. rewrite NB by exact Hn. apply (bterms_orthou A2). auto.
  - intros n Hn. rewrite NB by exact Hn. apply (bterms_orthov A2). auto.
  - intros n t i Ht Hi E. destruct (Nat.lt_ge_cases n (length sl)) as [Hn|Hn]; [|rewrite nth_overflow in Ht by (now rewrite map_length); contradiction].
    rewrite NB in Ht by exact Hn. rewrite (NS (fun b i => blk (bs uI) i =? sb_i1 b)) in E by exact Hn. apply Nat.eqb_neq in E. exact (bterms_offu _ t i Ht E).
  - intros n t i Ht Hi E. destruct (Nat.lt_ge_cases n (length sl)) as [Hn|Hn]; [|rewrite nth_overflow in Ht by (now rewrite map_length); contradiction].
    rewrite NB in Ht by exact Hn. rewrite (NS (fun b i => blk (bs vI) i =? sb_i2 b)) in E by exact Hn. apply Nat.eqb_neq in E. exact (bterms_offv _ t i Ht E).
  - intros n n' i Hl Hn Hi. rewrite !(NS (fun b i => blk (bs uI) i =? sb_i1 b)) by lia. intros E. apply Nat.eqb_eq in E. apply Nat.eqb_neq. rewrite E. now apply NDs.
  - intros n n' i Hl Hn Hi. rewrite !(NS (fun b i => blk (bs vI) i =? sb_i2 b)) by lia. intros E. apply Nat.eqb_eq in E. apply Nat.eqb_neq. rewrite E. now apply NDs.
  - intros t Ht. apply in_concat in Ht as (ts & Hts & Ht). apply in_map_iff in Hts as (b & <- & Hb). destruct (HB b Hb) as (_ & _ & v & _ & _ & (L1 & _ & _ & _ & _ & _ & Hd) & _).
    apply (In_nth _ _ z0) in Ht as (x & Hx & <-). rewrite bterms_len in Hx. rewrite bterms_nth by exact Hx. cbn. apply Hd. lia.
  - intros u x Hu Hx. rewrite LKT in Hx. rewrite HU by assumption. destruct (KT x Hx) as [Hj EE]. rewrite EE. unfold SvdFill.part. cbn [tp fst snd].
    apply Nat.ltb_lt in Hj. rewrite Hj. reflexivity.
  - intros u x Hu Hx. rewrite LKT in Hx. rewrite HV by assumption. destruct (KT x Hx) as [Hj EE]. rewrite EE. unfold SvdFill.part. cbn [tq fst snd].
    apply Nat.ltb_lt in Hj. rewrite Hj. reflexivity.
Qed.
End One.

Lemma arrows_x x l dx dl : arrows2 ieq x l dx dl x = dx.
Proof. unfold arrows2. now rewrite (proj2 (ieq_spec x x) eq_refl). Qed.
Lemma arrows_l x l dx dl : x <> l -> arrows2 ieq x l dx dl l = dl.
Proof. intros H. unfold arrows2. rewrite (proj2 (ieq_spec l l) eq_refl). destruct (ieq l x) eqn:E; auto. apply ieq_spec in E. congruence. Qed.
Lemma arrow_neg_int d : d <> ArrNeither -> arrow_int (arrow_neg d) = (- arrow_int d)%Z.
Proof. destruct d; auto; congruence. Qed.

(** An empty tensor over x and the new index l. *)
Lemma make2 side x (kb : list (sblock * nat)) l dx : x <> l -> dx <> ArrNeither -> proper [x] -> labelled [x] -> (forall bk, In bk kb -> side (fst bk) < nblocks x) -> kb <> [] -> (forall bk, In bk kb -> 0 < snd bk) ->
  bs l = map snd kb -> qns l = map (fun bk => nth (side (fst bk)) (qns x) qn0) kb ->
  exists D, qmake r0 bs qns (arrows2 ieq x l dx (arrow_neg dx)) [x; l] qn0 = Ok (Some D) /\ qtensor (arrows2 ieq x l dx (arrow_neg dx)) [x; l] D qn0 /\
    (forall n, n < length kb -> has_block D [side (fst (nth n kb kz)); n]) /\ forall s, qval [x; l] D s = r0.
Proof.
  intros Hne Hdx HP HL Hs Hk0 Hkp EB EQ. destruct (HL x (or_introl eq_refl)) as [Lx Cx]. destruct (proj2 HP x (or_introl eq_refl)) as [Nx Px]. rewrite Forall_forall in Cx.
  assert (LL : labelled [x; l]).
  { intros y [<-|[<-|[]]]; [split; [exact Lx|now apply Forall_forall]|]. rewrite EB, EQ, !map_length. split; [reflexivity|]. apply Forall_forall. intros q Hq. apply in_map_iff in Hq as (bk & <- & Hb).
    apply Cx, nth_In. rewrite Lx. apply Hs, Hb. }
  assert (PL : proper [x; l]).
  { split; [constructor; [cbn; intuition congruence|constructor; [cbn; auto|constructor]]|]. intros y [<-|[<-|[]]]; [auto|]. rewrite EB. split; [destruct kb; [congruence|discriminate]|].
    apply Forall_forall. intros n Hn. apply in_map_iff in Hn as (bk & <- & Hb). now apply Hkp. }
  destruct (qmake_spec r0 bs qns (arrows2 ieq x l dx (arrow_neg dx)) M Sx Sch [x; l] qn0 LL) as (D & E & S & B & Z); [intros y Hy; now apply PL|constructor|discriminate|].
  exists D. split; [exact E|]. split.
  { split; [exact PL|]. split; [exact LL|]. split; [exact S|]. split; [constructor|]. intros b Hb. now apply B. }
  split.
  - intros n Hn. apply B. split.
    + apply valid2; [apply Hs, nth_In, Hn|]. unfold QdSpec.nblocks. rewrite EB, map_length. exact Hn.
    + intros nm. cbn [flux_val]. rewrite arrows_x, arrows_l, arrow_neg_int by assumption. rewrite EQ.
      rewrite (nth_indep (map _ kb) qn0 (nth (side (fst kz)) (qns x) qn0)) by (rewrite map_length; exact Hn).
      rewrite (map_nth (fun bk : sblock * nat => nth (side (fst bk)) (qns x) qn0)).
      match goal with |- residue _ ?z = _ => replace z with 0%Z by ring end. rewrite residue_0. unfold qn0. cbn [qn_val_of qn_name qn_val qnum0]. destruct (ss_eqb _ _); reflexivity.
  - intros s. destruct D as [o st]. cbn in Z. rewrite Z. apply qval_zeros.
Qed.
Lemma keptb_ne (sl : list sblock) : forall ks, length ks = length sl -> (exists k, In k ks /\ 0 < k) -> keptb sl ks <> [].
Proof.
  induction sl as [|b sl IH]; intros [|k ks] L (k' & Hk & P); cbn in *; try discriminate; try contradiction.
  destruct (Nat.eqb_spec k 0) as [->|]; [|discriminate]. apply IH; [lia|]. exists k'. split; [|exact P]. destruct Hk; [lia|auto].
Qed.
Lemma total_pos x L : proper L -> In x L -> 0 < total x.
Proof.
  intros [_ H] Hx. destruct (H x Hx) as [N P]. unfold QdSpec.total. destruct (bs x) as [|a l]; [congruence|]. inversion P; subst. change (list_sum (a :: l)) with (a + list_sum l). lia.
Qed.
Lemma proper1 x L : proper L -> In x L -> proper [x].
Proof. intros [N H] Hx. split; [constructor; [cbn; auto|constructor]|]. intros y [<-|[]]. now apply H. Qed.
Lemma F2_in {A B} (P : A -> B -> Prop) l l' b : Forall2 P l l' -> In b l' -> exists a, In a l /\ P a b.
Proof. induction 1 as [|x y l l' H F IH]; [intros []|]. intros [E|K]; [subst; exists x; cbn; auto|]. destruct (IH K) as (a & Ha & Q). exists a. cbn. auto. Qed.
Lemma F2_len {A B} (P : A -> B -> Prop) l l' : Forall2 P l l' -> length l = length l'.
Proof. induction 1; cbn; auto. Qed.
Lemma F2_map {A B C} (P : A -> B -> Prop) (f : A -> C) (g : B -> C) l l' : Forall2 P l l' -> (forall a b, P a b -> g b = f a) -> map g l' = map f l.
Proof. intros F H. induction F as [|x y l l' K F IH]; cbn; auto. rewrite IH, (H x y) by auto. reflexivity. Qed.

Notation qsvd2 := (qsvd2 r0 conj gesdd gesvd ieq bs qns mk keep).
Notation sectors := (sectors qns).

Lemma qsvd2_spec m dir is A uI vI q : uI <> vI -> qtensor dir is A q -> Permutation is [uI; vI] -> sectors uI -> sectors vI -> dir uI <> ArrNeither -> dir vI <> ArrNeither ->
  (forall n ql, n < 2 -> mk n ql <> uI /\ mk n ql <> vI) ->
  (exists l r U D V ds, qsvd2 m is A uI vI (dir uI) (dir vI) = Ok ([uI; l], U, (l, r, D), ([vI; r], V)) /\ (exists ql qr, l = mk 0 ql /\ r = mk 1 qr) /\
     qtensor (arrows2 ieq uI l (dir uI) (arrow_neg (dir uI))) [uI; l] U qn0 /\ qtensor (arrows2 ieq vI r (dir vI) (arrow_neg (dir vI))) [vI; r] V qn0 /\
     offs U <> [] /\ offs V <> [] /\ total l = length D /\ total r = length D /\ 0 < length D /\ D = kept (keep ds) ds /\
     factored (total uI) (total vI) (fun u v => qval is A (fun y => if ieq uI y then u else v)) (qel uI l U) D (qel vI r V) (discarded (keep ds) ds)) \/
  (qsvd2 m is A uI vI (dir uI) (dir vI) = Err /\ (offs A = [] \/ may_err m)) \/
  (qsvd2 m is A uI vI (dir uI) (dir vI) = UB /\ m = MAuto /\ fails gesdd).
Proof.
  intros Hne HQ PM SU SV DU DV HN.
  destruct (getBlocks_spec r0 ieq ieq_spec bs qns M Sx Sch dir is A uI vI q Hne HQ PM SU SV DU DV) as (bl & EB & LB & HB & HZ & N1 & N2).
  unfold SvdModel.qsvd2. rewrite EB. cbn [obind]. destruct bl as [|b0 bl0]; [right; left; split; [reflexivity|]; left; destruct (offs A); [reflexivity|discriminate]|].
  set (bl := b0 :: bl0) in *.
  assert (INu : In uI is) by (eapply Permutation_in; [symmetry; exact PM|cbn; auto]). assert (INv : In vI is) by (eapply Permutation_in; [symmetry; exact PM|cbn; auto]).
  destruct HQ as (HP & HL & _ & _ & _).
  assert (LU : labelled [uI]) by (intros x [<-|[]]; now apply HL). assert (LV : labelled [vI]) by (intros x [<-|[]]; now apply HL).
  pose proof (total_pos uI is HP INu) as TU. pose proof (total_pos vI is HP INv) as TV.
  change (idim bs uI) with (total uI). change (idim bs vI) with (total vI).
  destruct (Nat.eqb_spec (total uI) 0) as [|NEu]; [lia|]. destruct (Nat.eqb_spec (total vI) 0) as [|NEv]; [lia|]. cbn [orb].
  destruct (blocks_spec m bl) as [(sl & ES & F)|[(ES & K)|(ES & K)]]; [intros b Hb; now apply HB| |rewrite ES; cbn [obind]; auto|rewrite ES; cbn [obind]; auto].
  rewrite ES. cbn [obind]. left.
  pose proof (F2_len _ _ _ F) as LS.
  set (ks := keep (map sb_d sl)). destruct (Hkeep (map sb_d sl)) as (KL & KN & KP). fold ks in KL, KN, KP. rewrite map_length in KL.
  assert (ORD : forall s, ranged is s <-> s uI < total uI /\ s vI < total vI).
  { intros s. unfold QdSpec.ranged. split; [intros H; auto|]. intros [H1 H2] x Hx. eapply Permutation_in in Hx; [|exact PM]. destruct Hx as [<-|[<-|[]]]; auto. }
  assert (UV : ieq uI vI = false) by (destruct (ieq uI vI) eqn:E; auto; apply ieq_spec in E; contradiction).
  assert (UU : ieq uI uI = true) by now apply ieq_spec.
  set (A2 := fun u v => qval is A (fun y => if ieq uI y then u else v)).
  assert (BF : forall b, In b sl -> bfacts uI vI A2 b).
  { intros b Hb. destruct (F2_in _ _ _ b F Hb) as (b' & Hb' & E1 & E2 & HD). destruct (HB b' Hb') as (K1 & K2 & G & K3 & K4 & K5).
    unfold bfacts. rewrite E1, E2. split; [exact K1|]. split; [exact K2|]. exists (bmat b'). split; [exact K3|]. split; [exact K4|]. split; [exact HD|].
    intros x y Hx Hy Bx By. unfold A2. rewrite K5; rewrite ?UU, ?UV; auto. apply ORD. rewrite UU, UV. auto. }
  assert (LE : forall n z, n < length sl -> nth n ks 0 <= length (sb_d (nth n sl z))).
  { intros n z Hn. specialize (KN n). rewrite (nth_indep _ [] (sb_d z)) in KN by (now rewrite map_length). now rewrite map_nth in KN. }
  assert (DP : forall b, In b sl -> sb_d b <> []).
  { intros b Hb E. destruct (F2_in _ _ _ b F Hb) as (b' & Hb' & E1 & E2 & HD). destruct (HB b' Hb') as (_ & _ & (_ & _ & P1 & P2) & _). destruct HD as (L & _). rewrite E in L. cbn in L. lia. }
  assert (KNE : keptb sl ks <> []).
  { apply keptb_ne; [exact KL|]. apply KP. destruct sl as [|c sl']; [cbn in LS; discriminate|]. exists (sb_d c). split; [now left|]. apply DP. now left. }
  rewrite (sectors_kb qns sb_i1 uI sl) by (intros b Hb; destruct (LU uI (or_introl eq_refl)) as [-> _]; now apply BF). cbn [obind].
  rewrite (sectors_kb qns sb_i2 vI sl) by (intros b Hb; destruct (LV vI (or_introl eq_refl)) as [-> _]; now apply BF). cbn [obind].
  set (kb := keptb sl ks) in *.
  set (ql := map (fun bk : sblock * nat => (nth (sb_i1 (fst bk)) (qns uI) qn0, snd bk)) kb). set (qr := map (fun bk : sblock * nat => (nth (sb_i2 (fst bk)) (qns vI) qn0, snd bk)) kb).
  assert (QNE : exists h t, ql = h :: t) by (unfold ql; destruct kb as [|h t]; [congruence|cbn; eauto]). destruct QNE as (h & t & EQL). rewrite EQL. rewrite <- EQL. clear h t EQL.
  set (l := mk 0 ql). set (r := mk 1 qr).
  destruct (HN 0 ql) as [NL _]; [lia|]. destruct (HN 1 qr) as [_ NR]; [lia|]. fold l in NL. fold r in NR.
  assert (BL : bs l = map snd kb) by (unfold l; rewrite mk_bs; unfold ql; rewrite map_map; reflexivity).
  assert (BR : bs r = map snd kb) by (unfold r; rewrite mk_bs; unfold qr; rewrite map_map; reflexivity).
  assert (QL : qns l = map (fun bk : sblock * nat => nth (sb_i1 (fst bk)) (qns uI) qn0) kb) by (unfold l; rewrite mk_qns; unfold ql; rewrite map_map; reflexivity).
  assert (QR : qns r = map (fun bk : sblock * nat => nth (sb_i2 (fst bk)) (qns vI) qn0) kb) by (unfold r; rewrite mk_qns; unfold qr; rewrite map_map; reflexivity).
  assert (KB : forall bk, In bk kb -> 0 < snd bk /\ In (fst bk) sl /\ snd bk <= length (sb_d (fst bk))).
  { intros [b k] Hb. destruct (keptb_in sl ks b k KL Hb) as (P & n' & Hn & <- & E). cbn [fst snd]. split; [exact P|]. split; [rewrite <- (E b); now apply nth_In|]. pose proof (LE n' b Hn) as Q. rewrite E in Q. exact Q. }
  destruct (make2 sb_i1 uI kb l (dir uI)) as (U0 & EU & QU & BU & ZU); auto; [exact (proper1 uI is HP INu)|intros bk Hb; apply BF, KB, Hb|intros bk Hb; now apply KB|].
  destruct (make2 sb_i2 vI kb r (dir vI)) as (V0 & EV & QV & BV & ZV); auto; [exact (proper1 vI is HP INv)|intros bk Hb; apply BF, KB, Hb|intros bk Hb; now apply KB|].
  rewrite EU. cbn [obind]. rewrite EV. cbn [obind]. unfold qdiag_make. change (idim bs l) with (list_sum (bs l)). change (idim bs r) with (list_sum (bs r)). rewrite BL, BR, Nat.eqb_refl. cbn [obind].
  rewrite fill_fill2. fold kb.
  destruct (fill2_spec r0 ieq ieq_spec bs uI vI l r kb BL BR (not_eq_sym NL) (not_eq_sym NR)) with (suf := kb) (pre := @nil (sblock * nat)) (U := U0) (D := repeat r0 (list_sum (map snd kb))) (V := V0)
    as (U & V & EF & SU' & SV' & OU & OV & VU & VV); auto.
  { intros bk Hb. destruct (KB bk Hb) as (P & Hin & Q). destruct (BF _ Hin) as (B1 & B2 & v & Rn & Cn & (L1 & L2 & L3 & _) & _). rewrite L1 in Q. rewrite L1, L2, L3, Rn, Cn in *.
    split; [exact P|]. split; [lia|]. split; [exact B1|]. split; [exact B2|]. split; apply Nat.mul_le_mono_l; lia. }
  { apply QU. } { apply QV. }
  cbn [length] in EF. rewrite EF. cbn [obind].
  assert (ED : concat (map dk kb) = kept ks (map sb_d sl)) by (rewrite kept_kb; reflexivity).
  assert (LD : length (concat (map dk kb)) = list_sum (map snd kb)).
  { rewrite length_concat, map_map. f_equal. apply map_ext_in. intros bk Hb. unfold dk. rewrite firstn_length. destruct (KB bk Hb) as (_ & _ & Q). lia. }
  assert (LP : 0 < list_sum (map snd kb)).
  { destruct kb as [|bk kb']; [congruence|]. cbn [map]. change (list_sum (snd bk :: map snd kb')) with (snd bk + list_sum (map snd kb')). destruct (KB bk (or_introl eq_refl)). lia. }
  exists l, r, U, (concat (map dk kb)), V, (map sb_d sl). split; [reflexivity|]. split; [exists ql, qr; auto|].
  split.
  { destruct QU as (P1 & P2 & P3 & P4 & P5). split; [exact P1|]. split; [exact P2|]. split; [exact SU'|]. split; [exact P4|]. intros b. unfold has_block. rewrite OU. apply P5. }
  split.
  { destruct QV as (P1 & P2 & P3 & P4 & P5). split; [exact P1|]. split; [exact P2|]. split; [exact SV'|]. split; [exact P4|]. intros b. unfold has_block. rewrite OV. apply P5. }
  assert (TL : total l = list_sum (map snd kb)) by (unfold QdSpec.total; now rewrite BL). assert (TR : total r = list_sum (map snd kb)) by (unfold QdSpec.total; now rewrite BR).
  assert (K0 : 0 < length kb) by (destruct kb; [congruence|cbn; lia]).
  split; [rewrite OU; specialize (BU 0 K0); unfold has_block in BU; destruct (offs U0); [destruct BU|discriminate]|].
  split; [rewrite OV; specialize (BV 0 K0); unfold has_block in BV; destruct (offs V0); [destruct BV|discriminate]|].
  rewrite LD, TL, TR. split; [reflexivity|]. split; [reflexivity|]. split; [exact LP|]. split; [exact ED|]. rewrite ED.
  fold ks. apply (factored_sl uI vI A2 sl ks); auto.
  - intros x y Hx Hy Hb. unfold A2. apply HZ; [apply ORD; rewrite UU, UV; auto|]. rewrite UU, UV. intros b' Hb'.
    assert (In (bi1 b', bi2 b') (map (fun b => (bi1 b, bi2 b)) bl)) as I' by (apply (in_map (fun b => (bi1 b, bi2 b))); exact Hb').
    rewrite <- (F2_map svdb (fun b => (bi1 b, bi2 b)) (fun b => (sb_i1 b, sb_i2 b)) bl sl F) in I' by (intros a b (E1 & E2 & _); congruence).
    apply in_map_iff in I' as (b & E & Hbin). injection E as E1 E2. rewrite <- E1, <- E2. now apply Hb.
  - rewrite (F2_map svdb bi1 sb_i1 bl sl F); [exact N1|]. intros a b E. apply E.
  - rewrite (F2_map svdb bi2 sb_i2 bl sl F); [exact N2|]. intros a b E. apply E.
  - intros u x Hu Hx. apply (qel_part sb_i1 sb_u uI l U kb); auto. now rewrite TL.
  - intros u x Hu Hx. apply (qel_part sb_i2 sb_v vI r V kb); auto. now rewrite TR.
Qed.
End Q2.
