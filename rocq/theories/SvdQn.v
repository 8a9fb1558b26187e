(** svd of an order-2 tensor with quantum numbers. *)
From Coq Require Import List ZArith Arith Lia Ring Bool Permutation Sorted.
From Verif Require Import Util RangeModel RangeSpec RangeProofs TensorModel TensorSpec TensorProofs SemProofs ContractModel DenseModel DenseProofs
  SmallStringModel QnModel QnSpec QnProofs QdModel QdSpec QdProofs QdFlux QdAdd QdSum CombinerModel QCombModel QCombProps
  SvdModel SvdSpec SvdRank SvdMat SvdFactor SvdBlocks SvdDense.
Import ListNotations.
Open Scope outcome_scope.
Local Arguments Nat.sub : simpl never.

(** Positions in a concatenation. *)
Lemma nth_concat {A} (z : A) : forall (Ls : list (list A)) x, x < length (concat Ls) ->
  nth x (concat Ls) z = nth (pos (map (@length A) Ls) x) (nth (blk (map (@length A) Ls) x) Ls []) z.
Proof.
  induction Ls as [|l Ls IH]; intros x Hx; cbn in Hx; [lia|]. rewrite app_length in Hx. cbn [concat map blk pos].
  destruct (Nat.ltb_spec x (length l)) as [K|K]; cbn [nth]; [now rewrite app_nth1|]. rewrite app_nth2 by lia. apply IH. lia.
Qed.
Lemma length_concat {A} (Ls : list (list A)) : length (concat Ls) = list_sum (map (@length A) Ls).
Proof. induction Ls as [|l Ls IH]; cbn; auto. rewrite app_length, IH. reflexivity. Qed.

Lemma traverse_map {A B} (f : A -> outcome B) g l : (forall x, In x l -> f x = Ok (g x)) -> traverse f l = Ok (map g l).
Proof. induction l as [|x l IH]; intros H; cbn; auto. rewrite (H x) by now left. cbn [obind]. rewrite IH by (intros; apply H; now right). reflexivity. Qed.

Lemma select_firstn {A} (l : list A) : forall n, n <= length l -> select l (seq 0 n) = Ok (firstn n l).
Proof.
  assert (G : forall n k, k + n <= length l -> select l (seq k n) = Ok (firstn n (skipn k l))).
  { induction n as [|n IH]; intros k H; [reflexivity|]. cbn [seq select]. destruct (nth_error l k) as [x|] eqn:E; [|apply nth_error_None in E; lia].
    unfold oget. rewrite E. cbn [obind]. rewrite IH by lia. cbn [obind]. f_equal.
    assert (K : skipn k l = x :: skipn (Datatypes.S k) l).
    { clear -E. revert l E. induction k as [|k IH]; intros [|y l] E; cbn in *; try discriminate; [congruence|]. now apply IH. }
    rewrite K. reflexivity. }
  intros n H. apply (G n 0). exact H.
Qed.

Section Qn.
Context {R : Type} (r0 r1 : R) (radd rmul rsub : R -> R -> R) (ropp : R -> R).
Context (RT : ring_theory r0 r1 radd rmul rsub ropp eq).
Add Ring RRsqn : RT.
Context (conj : R -> R) (HC : conjugation radd rmul conj).
Context (gesdd gesvd : nat -> nat -> list R -> option (list R * list R * list R)).
Hypothesis Hdd : exact_lapack r0 r1 radd rmul conj gesdd.
Hypothesis Hvd : exact_lapack r0 r1 radd rmul conj gesvd.
Context {I : Type} (ieq : I -> I -> bool) (ieq_spec : forall a b, ieq a b = true <-> a = b).
Context (bs : I -> list nat) (qns : I -> list QN) (M : SmallString -> Z) (Sx : list SmallString) (Sch : Scheme M Sx).
Context (mk : nat -> list (QN * nat) -> I) (keep : list (list R) -> list nat).
Hypothesis Hkeep : keeps keep.
Hypothesis mk_bs : forall n q, bs (mk n q) = map snd q.
Hypothesis mk_qns : forall n q, qns (mk n q) = map fst q.
Hypothesis mk_inj : forall n n' q q', mk n q = mk n' q' -> n = n'.
Notation total := (total bs).
Notation proper := (proper bs).
Notation ranged := (ranged bs).
Notation qval := (qval r0 bs).
Notation stored := (stored bs).
Notation labelled := (labelled bs qns M Sx).
Notation nblocks := (nblocks bs).
Notation qtensor := (qtensor bs qns M Sx).
Notation sum := (sum_below r0 radd).
Notation kron := (kron r0 r1).
Notation cm := (cm r0).
Notation inner := (inner r0 radd rmul conj).
Notation ortho := (ortho r0 r1 radd rmul conj).
Notation rsum := (rsum r0 radd rmul).
Notation term := ((nat -> R) * R * (nat -> R))%type.
Notation z0 := (z0 r0).
Notation factored := (factored r0 r1 radd rmul conj).
Notation velt := (velt r0).
Notation mview := (@mview R).
Notation sblock := (nat * nat * list R * list R * list R)%type.
Notation SVDc := (SVDc r0 conj gesdd gesvd).
Notation decomposed := (decomposed r0 r1 radd rmul conj).
Notation put_block := (put_block (R:=R) bs).
Notation put_diag := (put_diag (R:=R) bs).
Notation fill_loop := (fill_loop (R:=R) bs).

(** A vector supported on one block. *)
Definition onb (l : list nat) (i : nat) (f : nat -> R) (x : nat) : R := if blk l x =? i then f (pos l x) else r0.
Lemma inner_onb l i f g : i < length l -> inner (list_sum l) (onb l i f) (onb l i g) = inner (nth i l 0) f g.
Proof.
  intros Hi. unfold SvdRank.inner. rewrite (sum_below_sumn r0 radd), (sumn_blocks r0 r1 radd rmul (SRof r0 r1 radd rmul rsub ropp RT) l).
  rewrite <- (sum_below_sumn r0 radd).
  assert (G : forall n, sum n (fun j => TensorModel.sumn r0 radd (nth j l 0) (fun q => rmul (conj (onb l i f (start l j + q))) (onb l i g (start l j + q)))) =
    if i <? n then if n <=? length l then inner (nth i l 0) f g else sum n (fun j => TensorModel.sumn r0 radd (nth j l 0) (fun q => rmul (conj (onb l i f (start l j + q))) (onb l i g (start l j + q))))
    else sum n (fun j => TensorModel.sumn r0 radd (nth j l 0) (fun q => rmul (conj (onb l i f (start l j + q))) (onb l i g (start l j + q))))).
  2:{ rewrite G. destruct (Nat.ltb_spec i (length l)); [|lia]. rewrite Nat.leb_refl. reflexivity. }
  intros n. destruct (Nat.ltb_spec i n) as [K|K]; auto. destruct (Nat.leb_spec n (length l)) as [K2|K2]; auto.
  assert (Z : forall j, j <> i -> j < length l -> TensorModel.sumn r0 radd (nth j l 0) (fun q => rmul (conj (onb l i f (start l j + q))) (onb l i g (start l j + q))) = r0).
  { intros j Hj Hl. rewrite <- (sum_below_sumn r0 radd). apply (sum_zero r0 r1 radd rmul rsub ropp RT). intros q Hq. unfold onb. destruct (blk_glue l j q Hl Hq) as (E & _ & _). rewrite E.
    destruct (Nat.eqb_spec j i); [contradiction|]. ring. }
  assert (O : TensorModel.sumn r0 radd (nth i l 0) (fun q => rmul (conj (onb l i f (start l i + q))) (onb l i g (start l i + q))) = inner (nth i l 0) f g).
  { rewrite <- (sum_below_sumn r0 radd). apply sum_ext. intros q Hq. unfold onb. destruct (blk_glue l i q Hi Hq) as (E & E2 & _). rewrite E, E2, Nat.eqb_refl. reflexivity. }
  clear Hi. revert K K2. induction n as [|n IH]; intros K K2; [lia|]. cbn [sum_below]. destruct (Nat.eq_dec i n) as [->|Ne].
  - rewrite O. rewrite (sum_zero r0 r1 radd rmul rsub ropp RT); [ring|]. intros j Hj. apply Z; lia.
  - rewrite IH by lia. rewrite Z by lia. ring.
Qed.

(** The charges of one index of a block of known flux are determined by the other one. *)
Lemma sign_eq a m x y y' : (a = 1 \/ a = -1)%Z -> residue m (x + a * y) = residue m (x + a * y') -> residue m y = residue m y'.
Proof.
  intros Ha E. assert (K : residue m (a * residue m (x + a * y) - a * x) = residue m (a * residue m (x + a * y') - a * x)) by now rewrite E.
  destruct Ha as [-> | ->].
  - replace (1 * residue m (x + 1 * y) - 1 * x)%Z with (residue m (x + 1 * y) + - x)%Z in K by ring. replace (1 * residue m (x + 1 * y') - 1 * x)%Z with (residue m (x + 1 * y') + - x)%Z in K by ring.
    rewrite !residue_add_l in K. replace (x + 1 * y + - x)%Z with y in K by ring. replace (x + 1 * y' + - x)%Z with y' in K by ring. exact K.
  - replace (-1 * residue m (x + -1 * y) - -1 * x)%Z with (- residue m (x + -1 * y) + x)%Z in K by ring. replace (-1 * residue m (x + -1 * y') - -1 * x)%Z with (- residue m (x + -1 * y') + x)%Z in K by ring.
    rewrite <- residue_add_l, residue_opp, residue_add_l in K. symmetry in K. rewrite <- residue_add_l, residue_opp, residue_add_l in K.
    replace (- (x + -1 * y) + x)%Z with y in K by ring. replace (- (x + -1 * y') + x)%Z with y' in K by ring. congruence.
Qed.
(** Different blocks of x have different charges. *)
Definition sectors (x : I) : Prop := forall n n', n < length (qns x) -> n' < length (qns x) -> n <> n' -> qn_eqb (nth n (qns x) qn0) (nth n' (qns x) qn0) = false.
Lemma sector_eq x i i' : labelled [x] -> sectors x -> i < nblocks x -> i' < nblocks x ->
  (forall n, residue (M n) (qn_val_of (nth i (qns x) qn0) n) = residue (M n) (qn_val_of (nth i' (qns x) qn0) n)) -> i = i'.
Proof.
  intros HL HS Hi Hi' E. destruct (HL x (or_introl eq_refl)) as [L C]. unfold QdSpec.nblocks in *. rewrite Forall_forall in C.
  assert (C1 : Charges M Sx (nth i (qns x) qn0)) by (apply C, nth_In; lia). assert (C2 : Charges M Sx (nth i' (qns x) qn0)) by (apply C, nth_In; lia).
  destruct (Nat.eq_dec i i') as [|Ne]; auto. specialize (HS i i' ltac:(lia) ltac:(lia) Ne). exfalso.
  assert (K : qn_eqb (nth i (qns x) qn0) (nth i' (qns x) qn0) = true); [|congruence]. apply (qn_eqb_iff M Sx); auto.
  intros n. rewrite <- (qn_val_residue M Sx _ n Sch C1), <- (qn_val_residue M Sx _ n Sch C2). apply E.
Qed.
Lemma ranged2 x y s : ranged [x; y] s <-> s x < total x /\ s y < total y.
Proof. unfold QdSpec.ranged. cbn. split; [intros H; auto|]. intros [H1 H2] z [<-|[<-|[]]]; auto. Qed.
Lemma valid2 x y i j : i < nblocks x -> j < nblocks y -> valid (map nblocks [x; y]) [i; j].
Proof. intros. cbn. repeat constructor; auto. Qed.
Lemma valid2_inv x y b : valid (map nblocks [x; y]) b -> exists i j, b = [i; j] /\ i < nblocks x /\ j < nblocks y.
Proof. intros H. inversion H as [|? i ? b' H1 H2]; subst. inversion H2 as [|? j ? b'' H3 H4]; subst. inversion H4; subst. exists i, j. auto. Qed.

(** Writing one block. *)
Lemma put_spec x l i n D e : x <> l -> stored [x; l] D -> has_block D [i; n] -> i < nblocks x -> n < nblocks l ->
  nth i (bs x) 0 * nth n (bs l) 0 <= length e ->
  exists D', put_block x l i n D e = Ok D' /\ stored [x; l] D' /\ offs D' = offs D /\
    forall s, ranged [x; l] s -> qval [x; l] D' s =
      if (blk (bs x) (s x) =? i) && (blk (bs l) (s l) =? n) then cm (nth i (bs x) 0) e (pos (bs x) (s x)) (pos (bs l) (s l)) else qval [x; l] D s.
Proof.
  intros Hne HS HB Hi Hn Le. unfold SvdModel.put_block. rewrite (oget_ok 0) by exact Hi. cbn [obind]. rewrite (oget_ok 0) by exact Hn. cbn [obind].
  apply in_fst in HB as (o & HB). rewrite (getBlock_in bs [x; l] D [i; n] o HS HB) by discriminate. cbn [obind].
  rewrite segment_ok by exact Le. cbn [obind skipn]. set (nr := nth i (bs x) 0) in *. set (nc := nth n (bs l) 0) in *.
  destruct (stored_bound bs [x; l] D [i; n] o HS HB) as [_ BD]. cbn [sz] in BD. fold nr nc in BD. rewrite Nat.mul_1_r in BD.
  rewrite segment_ok by exact BD. cbn [obind].
  set (beta := fun y => if ieq x y then i else n).
  assert (Bx : beta x = i) by (unfold beta; now rewrite (proj2 (ieq_spec x x) eq_refl)).
  assert (Bl : beta l = n) by (unfold beta; destruct (ieq x l) eqn:E; auto; apply ieq_spec in E; contradiction).
  assert (EB : [i; n] = map beta [x; l]) by (cbn; congruence). rewrite EB in HB.
  destruct (qval_put r0 bs [x; l] D beta o (firstn (nr * nc) e) HS HB) as (S' & V1 & V2).
  { rewrite firstn_length, Nat.min_l by exact Le. rewrite <- EB. cbn [sz]. fold nr nc. lia. }
  eexists. split; [reflexivity|]. split; [exact S'|]. split; [reflexivity|]. intros s Hs. pose proof (proj1 (ranged2 x l s) Hs) as [Hx Hl].
  destruct ((blk (bs x) (s x) =? i) && (blk (bs l) (s l) =? n)) eqn:E.
  - apply andb_true_iff in E as [E1 E2]. apply Nat.eqb_eq in E1, E2. rewrite V1; [|exact Hs|rewrite <- EB; cbn; congruence].
    rewrite elt2. unfold bdim. rewrite Bx. fold nr. unfold inpos. apply cm_firstn.
    + unfold nr. rewrite <- E1. apply blk_lt. exact Hx.
    + unfold nc. rewrite <- E2. apply blk_lt. exact Hl.
  - rewrite V2; [reflexivity|exact Hs|]. rewrite <- EB. cbn. intros K. injection K as K1 K2. rewrite K1, K2, !Nat.eqb_refl in E. discriminate.
Qed.

(** The blocks of an order-2 tensor as matrices. *)
Definition bmat (b : nat * nat * mview) : mview := snd b.
Definition bi1 (b : nat * nat * mview) : nat := fst (fst b).
Definition bi2 (b : nat * nat * mview) : nat := snd (fst b).
Lemma getBlocks_spec dir is A uI vI q : uI <> vI -> qtensor dir is A q -> Permutation is [uI; vI] -> sectors uI -> sectors vI -> dir uI <> ArrNeither -> dir vI <> ArrNeither ->
  exists bl, getBlocks ieq bs is A vI = Ok bl /\ length bl = length (offs A) /\
    (forall b, In b bl -> bi1 b < nblocks uI /\ bi2 b < nblocks vI /\ good (bmat b) /\ rn (bmat b) = nth (bi1 b) (bs uI) 0 /\ cn (bmat b) = nth (bi2 b) (bs vI) 0 /\
       forall s, ranged is s -> blk (bs uI) (s uI) = bi1 b -> blk (bs vI) (s vI) = bi2 b -> qval is A s = velt (bmat b) (pos (bs uI) (s uI)) (pos (bs vI) (s vI))) /\
    (forall s, ranged is s -> (forall b, In b bl -> bi1 b <> blk (bs uI) (s uI) \/ bi2 b <> blk (bs vI) (s vI)) -> qval is A s = r0) /\
    NoDup (map bi1 bl) /\ NoDup (map bi2 bl).
Proof.
  intros Hne (HP & HL & HS & Cq & HF) PM SU SV DU DV.
  assert (Cx : is = [uI; vI] \/ is = [vI; uI]).
  { pose proof (Permutation_length PM) as L. destruct is as [|a [|b [|]]]; try discriminate. apply Permutation_length_2_inv. now symmetry. }
  assert (INu : In uI is) by (eapply Permutation_in; [symmetry; exact PM|cbn; auto]). assert (INv : In vI is) by (eapply Permutation_in; [symmetry; exact PM|cbn; auto]).
  assert (LU : labelled [uI]) by (intros x [<-|[]]; now apply HL). assert (LV : labelled [vI]) by (intros x [<-|[]]; now apply HL).
  pose proof (stored_nodup bs is A HS) as NDo.
  assert (FLX : forall i j i' j' n, (if ieq vI (hd vI is) then has_block A [j; i] /\ has_block A [j'; i'] else has_block A [i; j] /\ has_block A [i'; j']) ->
     residue (M n) (arrow_int (dir uI) * qn_val_of (nth i (qns uI) qn0) n + arrow_int (dir vI) * qn_val_of (nth j (qns vI) qn0) n) =
     residue (M n) (arrow_int (dir uI) * qn_val_of (nth i' (qns uI) qn0) n + arrow_int (dir vI) * qn_val_of (nth j' (qns vI) qn0) n)).
  { intros i j i' j' n K. destruct Cx as [-> | ->]; cbn [hd] in K.
    - replace (ieq vI uI) with false in K by (symmetry; destruct (ieq vI uI) eqn:E; auto; apply ieq_spec in E; congruence).
      destruct K as [K1 K2]. pose proof (HF _ K1 n) as H1. pose proof (HF _ K2 n) as H2. cbn [flux_val] in H1, H2. rewrite !Z.add_0_r in H1, H2. congruence.
    - rewrite (proj2 (ieq_spec vI vI) eq_refl) in K.
      destruct K as [K1 K2]. pose proof (HF _ K1 n) as H1. pose proof (HF _ K2 n) as H2. cbn [flux_val] in H1, H2. rewrite !Z.add_0_r in H1, H2.
      rewrite (Z.add_comm (arrow_int (dir uI) * _)). rewrite H1, <- H2. f_equal. ring. }
  pose proof (arrow_sign _ DU) as AU. pose proof (arrow_sign _ DV) as AV.
  (* one block *)
  set (g := fun bo : blof => match fst bo with
     | [a; b] => let x := hd vI is in let y := hd vI (tl is) in
         let Mx := makeMatRef (firstn (nth a (bs x) 0 * nth b (bs y) 0) (skipn (snd bo) (store A))) (nth a (bs x) 0) (nth b (bs y) 0) in
         if ieq vI x then (b, a, vtrans Mx) else (a, b, Mx)
     | _ => (0, 0, makeMatRef [] 0 0) end).
  set (mem := fun i j : nat => if ieq vI (hd vI is) then [j; i] else [i; j]).
  assert (GB : forall bo, In bo (offs A) -> exists i j, fst bo = mem i j /\ bi1 (g bo) = i /\ bi2 (g bo) = j /\ i < nblocks uI /\ j < nblocks vI).
  { intros [b o] Hb. destruct (stored_bound bs is A b o HS Hb) as [V _]. unfold mem, g, bi1, bi2. destruct Cx as [-> | ->]; cbn [hd tl fst].
    - replace (ieq vI uI) with false by (symmetry; destruct (ieq vI uI) eqn:E; auto; apply ieq_spec in E; congruence).
      apply valid2_inv in V as (i & j & -> & Hi & Hj). exists i, j. cbn. auto.
    - rewrite (proj2 (ieq_spec vI vI) eq_refl). apply valid2_inv in V as (j & i & -> & Hj & Hi). exists i, j. cbn. auto. }
  assert (MI : forall i j i' j', mem i j = mem i' j' -> i = i' /\ j = j') by (intros i j i' j'; unfold mem; destruct (ieq vI (hd vI is)); intros E; injection E; auto).
  exists (map g (offs A)). split; [|split; [now rewrite map_length|split; [|split; [|split]]]].
  - unfold getBlocks. assert (TR : forall x y, is = [x; y] -> traverse (fun bo : blof => match fst bo with
                          | [a; b] => let! nrow := oget (bs x) a in
                                      let! ncol := oget (bs y) b in
                                      let! s := segment (snd bo) (nrow * ncol) (store A) in
                                      let M := makeMatRef s nrow ncol in
                                      Ok (if ieq vI x then (b, a, vtrans M) else (a, b, M))
                          | _ => UB
                          end) (offs A) = Ok (map g (offs A))).
    { intros x y E. apply traverse_map. intros [b o] Hb. destruct (stored_bound bs is A b o HS Hb) as [V B]. rewrite E in V, B.
      apply valid2_inv in V as (i & j & -> & Hi & Hj). unfold g. cbn [fst snd]. rewrite E. cbn [hd tl]. rewrite (oget_ok 0) by exact Hi. cbn [obind]. rewrite (oget_ok 0) by exact Hj. cbn [obind].
      cbn [sz] in B. rewrite Nat.mul_1_r in B. rewrite segment_ok by exact B. reflexivity. }
    destruct Cx as [E|E]; rewrite E at 1; apply TR; exact E.
  - intros b Hb. apply in_map_iff in Hb as ([c o] & <- & Hb). destruct (GB _ Hb) as (i & j & E & E1 & E2 & Hi & Hj). cbn [fst] in E. subst c.
    rewrite E1, E2. split; [exact Hi|]. split; [exact Hj|].
    assert (Pu : 0 < nth i (bs uI) 0). { destruct (proj2 HP uI INu) as [_ F]. rewrite Forall_forall in F. apply F, nth_In, Hi. }
    assert (Pv : 0 < nth j (bs vI) 0). { destruct (proj2 HP vI INv) as [_ F]. rewrite Forall_forall in F. apply F, nth_In, Hj. }
    set (beta := fun y => if ieq uI y then i else j).
    assert (Bx : beta uI = i) by (unfold beta; now rewrite (proj2 (ieq_spec uI uI) eq_refl)).
    assert (Bl : beta vI = j) by (unfold beta; destruct (ieq uI vI) eqn:E; auto; apply ieq_spec in E; contradiction).
    destruct (stored_bound bs is A _ o HS Hb) as [_ B].
    unfold mem in *. destruct Cx as [EE | EE]; rewrite EE in *; cbn [hd] in *.
    + assert (EN : ieq vI uI = false) by (destruct (ieq vI uI) eqn:E; auto; apply ieq_spec in E; congruence). rewrite EN in *. unfold g, bmat. cbn [fst snd hd tl]. rewrite EE. cbn [hd tl]. rewrite EN. cbn [fst snd].
      cbn [sz] in B. rewrite Nat.mul_1_r in B. split; [apply good_make; [now apply seg_length| |]; auto|]. split; [reflexivity|]. split; [reflexivity|].
      intros s Hs K1 K2. assert (EB : [i; j] = map beta [uI; vI]) by (cbn; congruence). rewrite EB in Hb.
      rewrite (qval_seg r0 bs [uI; vI] A beta o s HS Hb Hs) by (rewrite <- EB; cbn; congruence). unfold seg_of. rewrite <- EB. cbn [sz]. rewrite Nat.mul_1_r. rewrite elt2. unfold bdim. rewrite Bx.
      unfold SvdSpec.cm, SvdMat.velt, inpos. cbn. f_equal. lia.
    + rewrite (proj2 (ieq_spec vI vI) eq_refl) in *. unfold g, bmat. cbn [fst snd hd tl]. rewrite EE. cbn [hd tl]. rewrite (proj2 (ieq_spec vI vI) eq_refl). cbn [fst snd].
      cbn [sz] in B. rewrite Nat.mul_1_r in B. split; [apply good_trans, good_make; [now apply seg_length| |]; auto|]. split; [reflexivity|]. split; [reflexivity|].
      intros s Hs K1 K2. assert (EB : [j; i] = map beta [vI; uI]) by (cbn; congruence). rewrite EB in Hb.
      rewrite (qval_seg r0 bs [vI; uI] A beta o s HS Hb Hs) by (rewrite <- EB; cbn; congruence). unfold seg_of. rewrite <- EB. cbn [sz]. rewrite Nat.mul_1_r. rewrite elt2. unfold bdim. rewrite Bl.
      unfold SvdSpec.cm, SvdMat.velt, inpos. cbn. f_equal. lia.
  - intros s Hs K. apply qval_notin. intros Hb. apply in_fst in Hb as (o & Hb). destruct (GB _ Hb) as (i & j & E & E1 & E2 & _). cbn [fst] in E.
    destruct (K (g (blockof bs is s, o)) (in_map g _ _ Hb)) as [N|N]; apply N; [rewrite E1|rewrite E2]; unfold mem in E; destruct Cx as [EE | EE]; rewrite EE in E; cbn [hd] in E.
    1,3: replace (ieq vI uI) with false in E by (symmetry; destruct (ieq vI uI) eqn:X; auto; apply ieq_spec in X; congruence); cbn in E; injection E; congruence.
    1,2: rewrite (proj2 (ieq_spec vI vI) eq_refl) in E; cbn in E; injection E; congruence.
  - rewrite map_map. apply nodup_map_in; [apply (NoDup_map_inv fst), NDo|]. intros [b o] [b' o'] Hb Hb' E.
    destruct (GB _ Hb) as (i & j & F1 & F2 & F3 & Hi & Hj). destruct (GB _ Hb') as (i' & j' & G1 & G2 & G3 & Hi' & Hj'). assert (EI : i = i') by congruence. clear F2 G2 E. subst i'. cbn [fst] in *.
    assert (EJ : j = j').
    { apply (sector_eq vI); auto. intros n. apply (sign_eq (arrow_int (dir vI)) (M n) (arrow_int (dir uI) * qn_val_of (nth i (qns uI) qn0) n)); auto. apply FLX.
      apply (in_map fst) in Hb, Hb'. cbn [fst] in Hb, Hb'. rewrite F1 in Hb. rewrite G1 in Hb'. unfold mem in *. destruct (ieq vI (hd vI is)); split; assumption. }
    clear F3 G3. subst j'. apply (sorted_key_uniq bs is (offs A)); auto; [apply HS|cbn [fst]; congruence].
  - rewrite map_map. apply nodup_map_in; [apply (NoDup_map_inv fst), NDo|]. intros [b o] [b' o'] Hb Hb' E.
    destruct (GB _ Hb) as (i & j & F1 & F2 & F3 & Hi & Hj). destruct (GB _ Hb') as (i' & j' & G1 & G2 & G3 & Hi' & Hj'). assert (EJ : j = j') by congruence. clear F3 G3 E. subst j'. cbn [fst] in *.
    assert (EI : i = i').
    { apply (sector_eq uI); auto. intros n. apply (sign_eq (arrow_int (dir uI)) (M n) (arrow_int (dir vI) * qn_val_of (nth j (qns vI) qn0) n)); auto.
      rewrite !(Z.add_comm (arrow_int (dir vI) * _)). apply FLX.
      apply (in_map fst) in Hb, Hb'. cbn [fst] in Hb, Hb'. rewrite F1 in Hb. rewrite G1 in Hb'. unfold mem in *. destruct (ieq vI (hd vI is)); split; assumption. }
    clear F2 G2. subst i'. apply (sorted_key_uniq bs is (offs A)); auto; [apply HS|cbn [fst]; congruence].
Qed.
End Qn.
