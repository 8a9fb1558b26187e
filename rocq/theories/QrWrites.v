(** Writing the blocks of Q and R. *)
From Coq Require Import List ZArith Arith Lia Ring Bool Permutation Sorted.
From Verif Require Import Util RangeModel RangeSpec RangeProofs TensorModel TensorSpec TensorProofs SemProofs ContractModel DenseModel DenseProofs
  SmallStringModel QnModel QnSpec QnProofs QdModel QdSpec QdProofs QdFlux QdAdd QdSum CombinerModel QCombModel QCombProps
  SvdModel SvdSpec SvdRank SvdMat SvdFactor SvdDense SvdQn SvdFill SvdQ2 QrSpec QrModel QrMat QrFactor QrBlocks.
Import ListNotations.
Open Scope outcome_scope.
Local Arguments Nat.sub : simpl never.
Local Arguments Nat.div : simpl never.
Local Arguments Nat.modulo : simpl never.

(** ** The order of the blocks. *)
Lemma ins_perm x l : Permutation (ins x l) (x :: l).
Proof. induction l as [|y l IH]; cbn [ins]; auto. destruct (fst x <=? fst y); auto. rewrite IH. apply perm_swap. Qed.
Lemma ins_sorted x l : StronglySorted (fun a b : nat * nat => fst a <= fst b) l -> StronglySorted (fun a b : nat * nat => fst a <= fst b) (ins x l).
Proof.
  induction 1 as [|y l HS IH HF]; cbn [ins]; [repeat constructor|]. destruct (Nat.leb_spec (fst x) (fst y)) as [L|L].
  - constructor; [constructor; auto|]. constructor; auto. rewrite Forall_forall in *. intros z Hz. specialize (HF z Hz). lia.
  - constructor; auto. rewrite Forall_forall in *. intros z Hz. apply (Permutation_in _ (ins_perm x l)) in Hz as [<-|Hz]; [lia|auto].
Qed.
Lemma fold_ins l : Permutation (fold_right ins [] l) l /\ StronglySorted (fun a b : nat * nat => fst a <= fst b) (fold_right ins [] l).
Proof. induction l as [|x l [P S]]; cbn [fold_right]; [split; constructor|]. split; [rewrite ins_perm; now constructor|now apply ins_sorted]. Qed.
Lemma comb_pairs {A} (f : A -> nat) z bl : forall o x, In x (List.combine (map f bl) (seq o (length bl))) -> o <= snd x /\ snd x < o + length bl /\ fst x = f (nth (snd x - o) bl z).
Proof.
  induction bl as [|b bl IH]; intros o x H; cbn in H; [contradiction|]. cbn [length]. destruct H as [<-|H]; cbn [fst snd].
  - rewrite Nat.sub_diag. cbn. repeat split; lia.
  - destruct (IH (S o) x H) as (H1 & H2 & H3). split; [lia|]. split; [lia|]. rewrite H3. replace (snd x - o) with (S (snd x - S o)) by lia. reflexivity.
Qed.
Lemma snd_comb (l : list nat) : forall o, map snd (List.combine l (seq o (length l))) = seq o (length l).
Proof. induction l as [|x l IH]; intros o; cbn; auto. now rewrite IH. Qed.
Lemma SS_nth {A} (P : A -> A -> Prop) z l : StronglySorted P l -> forall j j', j < j' -> j' < length l -> P (nth j l z) (nth j' l z).
Proof.
  induction 1 as [|x l HS IH HF]; intros j j' H H'; cbn in H'; [lia|]. destruct j' as [|j']; [lia|]. destruct j as [|j]; cbn [nth].
  - rewrite Forall_forall in HF. apply HF, nth_In. lia.
  - apply IH; lia.
Qed.
Lemma sort_spec {R} (bl : list (@qblock R)) : NoDup (map (@qb_i2 R) bl) ->
  Permutation (sort_i2 bl) (seq 0 (length bl)) /\ forall j j', j < j' -> j' < length bl -> qb_i2 (bat bl (sort_i2 bl) j) < qb_i2 (bat bl (sort_i2 bl) j').
Proof.
  intros ND. unfold sort_i2. set (L := fold_right ins [] _). destruct (fold_ins (List.combine (map (@qb_i2 R) bl) (seq 0 (length bl)))) as [P S]. fold L in P, S.
  assert (PS : Permutation (map snd L) (seq 0 (length bl))).
  { etransitivity; [apply Permutation_map, P|]. rewrite <- (map_length (@qb_i2 R) bl). rewrite snd_comb. reflexivity. }
  split; [exact PS|]. intros j j' H H'. assert (LL : length L = length bl) by (rewrite <- (map_length snd), (Permutation_length PS), seq_length; reflexivity).
  assert (E : forall i, i < length bl -> fst (nth i L (0, 0)) = qb_i2 (bat bl (map snd L) i)).
  { intros i Hi. assert (K : In (nth i L (0, 0)) (List.combine (map (@qb_i2 R) bl) (seq 0 (length bl)))) by (apply (Permutation_in _ P), nth_In; lia).
    apply (comb_pairs (@qb_i2 R) zq) in K as (_ & _ & K). rewrite Nat.sub_0_r in K. unfold bat. rewrite K. f_equal. f_equal. symmetry. exact (map_nth snd L (0, 0) i). }
  pose proof (SS_nth _ (0, 0) L S j j' H ltac:(lia)) as K. cbv beta in K. rewrite !E in K by lia.
  destruct (Nat.eq_dec (qb_i2 (bat bl (map snd L) j)) (qb_i2 (bat bl (map snd L) j'))) as [EE|]; [|lia]. exfalso.
  assert (NL : NoDup (map snd L)) by (eapply Permutation_NoDup; [symmetry; exact PS|apply seq_NoDup]).
  assert (RG : forall i, i < length bl -> nth i (map snd L) 0 < length bl).
  { intros i Hi. assert (K' : In (nth i (map snd L) 0) (map snd L)) by (apply nth_In; rewrite map_length; lia). apply (Permutation_in _ PS), in_seq in K'. lia. }
  unfold bat in EE. rewrite <- !(map_nth (@qb_i2 R)) in EE. rewrite (NoDup_nth _ (qb_i2 (@zq R))) in ND. apply ND in EE; [|rewrite map_length; apply RG; lia|rewrite map_length; apply RG; lia].
  rewrite (NoDup_nth _ 0) in NL. apply NL in EE; rewrite ?map_length; lia.
Qed.

(** A permutation of fewer than three numbers is its own inverse. *)
Lemma perm_inv l : Permutation l (seq 0 (length l)) -> length l < 3 -> forall b, b < length l -> nth (nth b l 0) l 0 = b.
Proof.
  destruct l as [|x [|y [|]]]; cbn [length]; intros P H b Hb; try lia.
  - cbn in P. apply Permutation_length_1 in P. subst. replace b with 0 by lia. reflexivity.
  - cbn in P. apply Permutation_length_2 in P as [[-> ->]|[-> ->]]; destruct b as [|[|]]; cbn; auto; lia.
Qed.

Section Writes.
Context {R : Type} (r0 r1 : R).
Context {I : Type} (ieq : I -> I -> bool) (ieq_spec : forall a b, ieq a b = true <-> a = b).
Context (bs : I -> list nat).
Notation total := (total bs).
Notation ranged := (ranged bs).
Notation qval := (qval r0 bs).
Notation stored := (stored bs).
Notation nblocks := (nblocks bs).
Notation cm := (cm r0).
Notation write := (@write R).
Notation put_mat := (put_mat (R:=R) bs).
Notation run_writes := (run_writes (R:=R) bs).

(** A write into a stored block, of the elements of the matrix T. *)
Definition good_w (x y : I) (D : qd R) (T : nat -> nat -> R) (w : write) : Prop :=
  w_i w < nblocks x /\ w_j w < nblocks y /\ has_block D [w_i w; w_j w] /\ w_nr w = nth (w_i w) (bs x) 0 /\ w_nc w = nth (w_j w) (bs y) 0 /\ w_nr w * w_nc w <= length (w_c w) /\
  forall p q, p < w_nr w -> q < w_nc w -> cm (w_nr w) (w_c w) p q = T (start (bs x) (w_i w) + p) (start (bs y) (w_j w) + q).
(** A write into a block that is not stored. *)
Definition bad_w (x y : I) (D : qd R) (w : write) : Prop := w_i w < nblocks x /\ w_j w < nblocks y /\ ~ has_block D [w_i w; w_j w].
Definition hit (x y : I) (s : I -> nat) (w : write) : bool := (blk (bs x) (s x) =? w_i w) && (blk (bs y) (s y) =? w_j w).

Lemma put_good x y D T w : x <> y -> stored [x; y] D -> good_w x y D T w ->
  exists D', put_mat x y D w = Ok D' /\ stored [x; y] D' /\ offs D' = offs D /\
    forall s, ranged [x; y] s -> qval [x; y] D' s = if hit x y s w then T (s x) (s y) else qval [x; y] D s.
Proof.
  intros Hne HS (Hi & Hj & HB & En & Ec & Le & HT). destruct (put_spec r0 ieq ieq_spec bs x y (w_i w) (w_j w) D (w_c w) Hne HS HB Hi Hj) as (D' & E & S' & O' & V); [rewrite <- En, <- Ec; exact Le|].
  exists D'. split; [|split; [exact S'|split; [exact O'|]]].
  - unfold SvdModel.put_block in E. unfold QrModel.put_mat. rewrite (oget_ok 0) in E |- * by exact Hi. cbn [obind] in E |- *. rewrite (oget_ok 0) in E |- * by exact Hj. cbn [obind] in E |- *.
    destruct (getBlock D [w_i w; w_j w]) as [[o|]| |]; cbn [obind] in E |- *; try discriminate. rewrite En, Ec. rewrite Nat.ltb_irrefl. exact E.
  - intros s Hs. rewrite V by exact Hs. unfold hit. destruct ((blk (bs x) (s x) =? w_i w) && (blk (bs y) (s y) =? w_j w)) eqn:EE; [|reflexivity].
    apply andb_prop in EE as [E1 E2]. apply Nat.eqb_eq in E1, E2. apply ranged2 in Hs as [H1 H2]. pose proof (blk_lt (bs x) (s x) H1) as [_ P1]. pose proof (blk_lt (bs y) (s y) H2) as [_ P2].
    rewrite E1, <- En in P1. rewrite E2, <- Ec in P2. rewrite <- En, HT by assumption. rewrite <- E1, <- E2. rewrite <- !glue_blk. reflexivity.
Qed.
Lemma put_bad x y D w : stored [x; y] D -> bad_w x y D w -> put_mat x y D w = UB.
Proof.
  intros HS (Hi & Hj & HB). unfold QrModel.put_mat. rewrite (oget_ok 0) by exact Hi. cbn [obind]. rewrite (oget_ok 0) by exact Hj. cbn [obind].
  rewrite (getBlock_notin bs [x; y] D _ HS (valid2 bs x y _ _ Hi Hj) HB) by discriminate. reflexivity.
Qed.

Context (qI l rI : I) (NQ : qI <> l) (NR : l <> rI) (TQ TR : nat -> nat -> R).
Definition good (Q Rm : qd R) (w : write) : Prop := if w_toR w then good_w l rI Rm TR w else good_w qI l Q TQ w.
Definition bad (Q Rm : qd R) (w : write) : Prop := if w_toR w then bad_w l rI Rm w else bad_w qI l Q w.
Lemma good_offs Q Rm Q' Rm' w : offs Q' = offs Q -> offs Rm' = offs Rm -> good Q Rm w -> good Q' Rm' w.
Proof. intros E1 E2. unfold good, good_w, has_block. rewrite E1, E2. auto. Qed.
Lemma bad_offs Q Rm Q' Rm' w : offs Q' = offs Q -> offs Rm' = offs Rm -> bad Q Rm w -> bad Q' Rm' w.
Proof. intros E1 E2. unfold bad, bad_w, has_block. rewrite E1, E2. auto. Qed.

Lemma run_ok ws : forall Q Rm, stored [qI; l] Q -> stored [l; rI] Rm -> (forall w, In w ws -> good Q Rm w) ->
  exists Q' Rm', run_writes qI l rI ws Q Rm = Ok (Q', Rm') /\ stored [qI; l] Q' /\ stored [l; rI] Rm' /\ offs Q' = offs Q /\ offs Rm' = offs Rm /\
    (forall s, ranged [qI; l] s -> qval [qI; l] Q' s = if existsb (fun w => negb (w_toR w) && hit qI l s w) ws then TQ (s qI) (s l) else qval [qI; l] Q s) /\
    (forall s, ranged [l; rI] s -> qval [l; rI] Rm' s = if existsb (fun w => w_toR w && hit l rI s w) ws then TR (s l) (s rI) else qval [l; rI] Rm s).
Proof.
  induction ws as [|w ws IH]; intros Q Rm SQ SR HG; cbn [QrModel.run_writes].
  - exists Q, Rm. split; [reflexivity|]. split; [exact SQ|]. split; [exact SR|]. auto.
  - pose proof (HG w (or_introl eq_refl)) as Hw. unfold good in Hw. cbn [existsb]. destruct (w_toR w) eqn:ET.
    + destruct (put_good l rI Rm TR w NR SR Hw) as (R1 & E & S1 & O1 & V1). rewrite E. cbn [obind].
      destruct (IH Q R1 SQ S1) as (Q' & Rm' & E' & S2 & S3 & O2 & O3 & V2 & V3); [intros w' Hw'; apply (good_offs Q Rm); auto; apply HG; now right|].
      exists Q', Rm'. rewrite E'. split; [reflexivity|]. split; [exact S2|]. split; [exact S3|]. split; [exact O2|]. split; [congruence|]. split; [exact V2|].
      intros s Hs. rewrite V3, V1 by exact Hs. cbn [andb]. destruct (existsb (fun w => w_toR w && hit l rI s w) ws); [now rewrite orb_true_r|]. rewrite orb_false_r. reflexivity.
    + destruct (put_good qI l Q TQ w NQ SQ Hw) as (Q1 & E & S1 & O1 & V1). rewrite E. cbn [obind].
      destruct (IH Q1 Rm S1 SR) as (Q' & Rm' & E' & S2 & S3 & O2 & O3 & V2 & V3); [intros w' Hw'; apply (good_offs Q Rm); auto; apply HG; now right|].
      exists Q', Rm'. rewrite E'. split; [reflexivity|]. split; [exact S2|]. split; [exact S3|]. split; [congruence|]. split; [exact O3|]. split; [|exact V3].
      intros s Hs. rewrite V2, V1 by exact Hs. cbn [negb andb]. destruct (existsb (fun w => negb (w_toR w) && hit qI l s w) ws); [now rewrite orb_true_r|]. rewrite orb_false_r. reflexivity.
Qed.
Lemma run_ub ws : forall Q Rm, stored [qI; l] Q -> stored [l; rI] Rm -> (forall w, In w ws -> good Q Rm w \/ bad Q Rm w) -> (exists w, In w ws /\ bad Q Rm w) ->
  run_writes qI l rI ws Q Rm = UB.
Proof.
  induction ws as [|w ws IH]; intros Q Rm SQ SR HG (w0 & H0 & B0); [destruct H0|]. cbn [QrModel.run_writes].
  destruct (HG w (or_introl eq_refl)) as [Hw|Hw].
  - assert (EX : exists w', In w' ws /\ bad Q Rm w').
    { destruct H0 as [<-|H0]; [|eauto]. exfalso. unfold good, good_w, bad, bad_w in *. destruct (w_toR w); tauto. }
    destruct EX as (w' & H' & B'). unfold good in Hw. destruct (w_toR w) eqn:ET.
    + destruct (put_good l rI Rm TR w NR SR Hw) as (R1 & E & S1 & O1 & V1). rewrite E. cbn [obind]. apply IH; auto.
      * intros w2 Hw2. destruct (HG w2 (or_intror Hw2)); [left; now apply (good_offs Q Rm)|right; now apply (bad_offs Q Rm)].
      * exists w'. split; [exact H'|]. now apply (bad_offs Q Rm).
    + destruct (put_good qI l Q TQ w NQ SQ Hw) as (Q1 & E & S1 & O1 & V1). rewrite E. cbn [obind]. apply IH; auto.
      * intros w2 Hw2. destruct (HG w2 (or_intror Hw2)); [left; now apply (good_offs Q Rm)|right; now apply (bad_offs Q Rm)].
      * exists w'. split; [exact H'|]. now apply (bad_offs Q Rm).
  - unfold bad in Hw. destruct (w_toR w); rewrite put_bad; auto.
Qed.
End Writes.

(** ** The writes of the loop. *)
Section Loop.
Context {R : Type} (r0 r1 : R).
Notation qblock := (@qblock R).
Notation write := (@write R).
Definition wQ (b : qblock) (n : nat) : write := WR false (qb_i1 b) n (qb_m b) (qb_rr b) (columns (qb_m b) 0 (qb_rr b) (qb_q b)).
Definition wF (b : qblock) (n : nat) : write := WR false (qb_i1 b) n (qb_m b) (qb_m b - qb_rr b) (columns (qb_m b) (qb_rr b) (qb_rr b + (qb_m b - qb_rr b)) (qb_q b)).
Definition wR (b : qblock) (n : nat) : write := WR true n (qb_i2 b) (qb_rr b) (qb_n b) (rows r0 (qb_k b) (qb_n b) (qb_rr b) (qb_r b)).
Definition fills (bl : list qblock) : list qblock := filter (fun b => 0 <? qb_m b - qb_rr b) bl.

Lemma loop_spec complete srt nb bl : forall b e,
  snd (loop_writes r0 true complete srt nb bl b e) = (if complete then e + length (fills bl) else e) /\
  forall w, In w (fst (loop_writes r0 true complete srt nb bl b e)) <->
    (exists p, p < length bl /\ (w = wQ (nth p bl zq) (nth (b + p) srt 0) \/ w = wR (nth p bl zq) (nth (b + p) srt 0))) \/
    (complete = true /\ exists p, p < length (fills bl) /\ w = wF (nth p (fills bl) zq) (e + p + nb)).
Proof.
  induction bl as [|B bl IH]; intros b e; cbn [loop_writes].
  - cbn. split; [destruct complete; lia|]. intros w. split; [intros []|]. intros [(p & H & _)|(_ & p & H & _)]; lia.
  - cbn [andb]. set (fl := complete && (0 <? qb_m B - qb_rr B)). destruct (IH (S b) (if fl then S e else e)) as [IE IW].
    destruct (loop_writes r0 true complete srt nb bl (S b) (if fl then S e else e)) as [ws e']. cbn [fst snd] in *.
    assert (LF : length (fills (B :: bl)) = (if 0 <? qb_m B - qb_rr B then 1 else 0) + length (fills bl)) by (unfold fills; cbn [filter]; destruct (0 <? qb_m B - qb_rr B); reflexivity).
    split; [rewrite IE, LF; unfold fl; destruct complete; cbn [andb]; [|reflexivity]; destruct (0 <? _); lia|].
    intros w. cbn [In]. rewrite in_app_iff. cbn [In]. rewrite IW. clear IW IE. split.
    + intros [<-|[H|[<-|[(p & Hp & H)|(Hc & p & Hp & H)]]]].
      * left. exists 0. cbn. rewrite Nat.add_0_r. split; [lia|now left].
      * right. unfold fl in H. destruct complete; [|destruct H]. cbn [andb] in H. destruct (0 <? qb_m B - qb_rr B) eqn:E; [|destruct H]. destruct H as [<-|[]]. split; [reflexivity|].
        exists 0. rewrite LF. unfold fills. cbn [filter]. rewrite E. cbn [nth]. split; [lia|]. now rewrite Nat.add_0_r.
      * left. exists 0. cbn. rewrite Nat.add_0_r. split; [lia|now right].
      * left. exists (S p). cbn [length nth]. rewrite Nat.add_succ_r. split; [lia|exact H].
      * right. split; [exact Hc|]. unfold fl in H. rewrite Hc in H. cbn [andb] in H. destruct (0 <? qb_m B - qb_rr B) eqn:E.
        -- exists (S p). rewrite LF. unfold fills in *. cbn [filter]. rewrite E. cbn [nth]. split; [lia|]. rewrite H. f_equal. lia.
        -- exists p. rewrite LF. unfold fills in *. cbn [filter]. rewrite E. split; [lia|exact H].
    + intros [(p & Hp & H)|(Hc & p & Hp & H)].
      * destruct p as [|p]; cbn [nth length] in *; [rewrite Nat.add_0_r in H; destruct H as [->| ->]; auto|]. rewrite Nat.add_succ_r in H. right. right. right. left. exists p. split; [lia|exact H].
      * rewrite LF in Hp. unfold fl. rewrite Hc. cbn [andb]. unfold fills in H. cbn [filter] in H. destruct (0 <? qb_m B - qb_rr B) eqn:E.
        -- destruct p as [|p]; cbn [nth] in H; [rewrite Nat.add_0_r in H; right; left; now left|]. right. right. right. right. split; [reflexivity|]. exists p. split; [lia|]. rewrite H. unfold fills. f_equal. lia.
        -- right. right. right. right. split; [reflexivity|]. exists p. split; [lia|exact H].
Qed.

Context {I : Type} (bs : I -> list nat).
Lemma zero_spec (qI : I) nb zs : (forall i, In i zs -> i < length (bs qI)) -> forall e, exists ws, zero_writes r0 r1 bs qI zs nb e = Ok ws /\
  forall w, In w ws <-> exists p, p < length zs /\ w = WR false (nth p zs 0) (e + p + nb) (nth (nth p zs 0) (bs qI) 0) (nth (nth p zs 0) (bs qI) 0) (ident r0 r1 (nth (nth p zs 0) (bs qI) 0)).
Proof.
  induction zs as [|i zs IH]; intros H e; cbn [zero_writes].
  - exists []. split; [reflexivity|]. intros w. split; [intros []|]. intros (p & Hp & _). cbn in Hp. lia.
  - rewrite (oget_ok 0) by (apply H; now left). cbn [obind]. destruct (IH (fun j Hj => H j (or_intror Hj)) (S e)) as (ws & E & HW). rewrite E. cbn [obind]. eexists. split; [reflexivity|].
    intros w. cbn [In]. rewrite HW. split.
    + intros [<-|(p & Hp & ->)]; [exists 0; cbn; split; [lia|]; now rewrite Nat.add_0_r|]. exists (S p). cbn [length nth]. split; [lia|]. f_equal. lia.
    + intros (p & Hp & ->). destruct p as [|p]; cbn [nth length] in *; [left; now rewrite Nat.add_0_r|]. right. exists p. split; [lia|]. f_equal. lia.
Qed.
End Loop.
