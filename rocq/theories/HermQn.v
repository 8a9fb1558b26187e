(** Hermitian diagonalisation of an order-2 tensor with quantum numbers. *)
From Coq Require Import List ZArith Arith Lia Ring Bool Permutation Sorted.
From Verif Require Import Util RangeModel RangeSpec RangeProofs TensorModel TensorSpec TensorProofs SemProofs ContractModel DenseModel DenseProofs
  SmallStringModel QnModel QnSpec QnProofs QdModel QdSpec QdProofs QdFlux QdAdd QdSum QdProps CombinerModel CombinerProps QCombModel QCombProofs QCombProps
  SvdModel SvdSpec SvdRank SvdMat SvdFactor SvdBlocks SvdDense SvdQn SvdFill SvdQ2 SvdQsvd HermSpec HermModel HermPairs HermMat HermDense.
Import ListNotations.
Open Scope outcome_scope.
Local Arguments Nat.sub : simpl never.

(** combiner with all arrows reversed: the same quantum numbers and table. *)
Lemma qnum_mul_opp v d c : d <> ArrNeither -> c <> ArrNeither -> qnum_mul (qnum_mul v (arrow_neg d)) (arrow_neg c) = qnum_mul (qnum_mul v d) c.
Proof.
  intros Hd Hc. unfold qnum_mul. cbn [qn_name qn_mod qn_val]. f_equal. rewrite !qset_residue. set (m := qn_mod v). set (a := qn_val v).
  assert (G : forall x y, (y = 1 \/ y = -1)%Z -> residue m (residue m x * y) = residue m (x * y)).
  { intros x y [-> | ->]; [rewrite !Z.mul_1_r; apply residue_idem|]. replace (residue m x * -1)%Z with (- residue m x)%Z by ring. rewrite residue_opp. f_equal. ring. }
  assert (S : forall e, e <> ArrNeither -> (arrow_int e = 1 \/ arrow_int e = -1)%Z) by (intros [] He; cbn; auto; congruence).
  assert (N : forall e, e <> ArrNeither -> arrow_neg e <> ArrNeither) by (intros [] He; cbn; congruence).
  rewrite !G by auto. f_equal. rewrite !arrow_neg_int by assumption. ring.
Qed.
Lemma qn_mul_opp q d c : d <> ArrNeither -> c <> ArrNeither -> qn_mul (qn_mul q (arrow_neg d)) (arrow_neg c) = qn_mul (qn_mul q d) c.
Proof. intros Hd Hc. unfold qn_mul. rewrite !map_map. apply map_ext. intros v. now apply qnum_mul_opp. Qed.

Section Opp.
Context {I : Type} (bs : I -> list nat) (qns : I -> list QN) (f : I -> I) (dir dir' : I -> Arrow) (cd : Arrow).
Hypothesis f_bs : forall x, bs (f x) = bs x.
Hypothesis f_qns : forall x, qns (f x) = qns x.
Hypothesis Hcd : cd <> ArrNeither.
Lemma sector_qn_opp cs : (forall x, In x cs -> dir x <> ArrNeither /\ dir' (f x) = arrow_neg (dir x)) -> forall acc b,
  sector_qn qns dir' (arrow_neg cd) acc (map f cs) b = sector_qn qns dir cd acc cs b.
Proof.
  induction cs as [|x cs IH]; intros H acc b; cbn [map sector_qn]; auto. destruct b as [|i b]; auto. rewrite f_qns. destruct (oget (qns x) i) as [q| |]; cbn [obind]; auto.
  destruct (H x (or_introl eq_refl)) as [H1 H2]. rewrite H2, qn_mul_opp by assumption. apply IH. intros y Hy. apply H. now right.
Qed.
Lemma sector_size_opp cs : forall m b, sector_size bs m (map f cs) b = sector_size bs m cs b.
Proof. induction cs as [|x cs IH]; intros m [|i b]; cbn [map sector_size]; auto. rewrite f_bs. destruct (oget (bs x) i); cbn [obind]; auto. Qed.
Lemma build_opp cs : (forall x, In x cs -> dir x <> ArrNeither /\ dir' (f x) = arrow_neg (dir x)) -> forall its qms tab,
  build_loop bs qns dir' (arrow_neg cd) (map f cs) its qms tab = build_loop bs qns dir cd cs its qms tab.
Proof.
  intros H. induction its as [|[b o] its IH]; intros qms tab; cbn [build_loop]; auto. rewrite sector_qn_opp, sector_size_opp by exact H.
  destruct (sector_qn qns dir cd qn0 cs b); cbn [obind]; auto. destruct (sector_size bs 1 cs b); cbn [obind]; auto.
  destruct (find_sector a qms <? length qms).
  - destruct (oget qms _); cbn [obind]; auto. destruct (at_set _ _ _); cbn [obind]; auto. destruct (oupd _ _ _); cbn [obind]; auto.
  - destruct (at_set _ _ _); cbn [obind]; auto.
Qed.
Lemma qcombiner_opp cs : (forall x, In x cs -> dir x <> ArrNeither /\ dir' (f x) = arrow_neg (dir x)) ->
  qcombiner bs qns dir' (arrow_neg cd) (map f cs) = qcombiner bs qns dir cd cs.
Proof.
  intros H. unfold qcombiner. destruct cs as [|x cs]; auto. cbn [map]. change (f x :: map f cs) with (map f (x :: cs)).
  assert (E : map (fun y => length (bs y)) (map f (x :: cs)) = map (fun y => length (bs y)) (x :: cs)) by (rewrite map_map; apply map_ext; intros; now rewrite f_bs).
  cbn [map] in E. cbn [map]. rewrite E. destruct (riter_loop _ _ _ _) as [[l|]| |]; cbn [obind]; auto. apply (build_opp (x :: cs)). exact H.
Qed.
End Opp.

Lemma trav_in {A B} (f : A -> outcome B) l : forall l', traverse f l = Ok l' -> forall b, In b l' <-> exists a, In a l /\ f a = Ok b.
Proof.
  induction l as [|x l IH]; intros l' E b; cbn [traverse] in E.
  - injection E as <-. split; [intros []|intros (a & [] & _)].
  - destruct (f x) as [y| |] eqn:Ex; cbn [obind] in E; try discriminate. destruct (traverse f l) as [t| |] eqn:Et; cbn [obind] in E; try discriminate. injection E as <-.
    specialize (IH t eq_refl b). cbn. rewrite IH. split.
    + intros [<-|(a & Ha & K)]; eauto.
    + intros (a & [<-|Ha] & K); [left; congruence|eauto].
Qed.
Lemma trav_tot {A B} (f : A -> outcome B) l : forall l', traverse f l = Ok l' -> forall a, In a l -> exists b, f a = Ok b.
Proof.
  induction l as [|x l IH]; intros l' E a Ha; cbn [traverse] in E; [contradiction|].
  destruct (f x) as [y| |] eqn:Ex; cbn [obind] in E; try discriminate. destruct (traverse f l) as [t| |] eqn:Et; cbn [obind] in E; try discriminate.
  destruct Ha as [<-|Ha]; eauto.
Qed.
Lemma getBlocks_pairs {R I} (ieq : I -> I -> bool) (bs : I -> list nat) x y (A : qd R) i2 bl : getBlocks ieq bs [x; y] A i2 = Ok bl -> forall i j,
  (exists b, In b bl /\ bi1 b = i /\ bi2 b = j) <-> has_block A (if ieq i2 x then [j; i] else [i; j]).
Proof.
  intros E i j. unfold getBlocks in E. split.
  - intros (b & Hb & Ei & Ej). apply (proj1 (trav_in _ _ _ E b)) in Hb as ([bk o] & Ha & K). unfold has_block. apply in_map_iff. exists (bk, o). split; [|exact Ha]. cbn [fst snd] in *.
    destruct bk as [|a [|c [|]]]; try discriminate. destruct (oget (bs x) a); cbn [obind] in K; try discriminate. destruct (oget (bs y) c); cbn [obind] in K; try discriminate.
    destruct (segment o _ _); cbn [obind] in K; try discriminate. injection K as <-. destruct (ieq i2 x); cbn in Ei, Ej; subst; reflexivity.
  - intros H. unfold has_block in H. apply in_map_iff in H as ([bk o] & Eb & Ha). cbn in Eb. destruct (trav_tot _ _ _ E _ Ha) as (b & K). exists b.
    split; [apply (trav_in _ _ _ E); eauto|]. cbn [fst snd] in K. subst bk. destruct (ieq i2 x);
    (destruct (oget (bs x) _); cbn [obind] in K; try discriminate; destruct (oget (bs y) _); cbn [obind] in K; try discriminate;
     destruct (segment o _ _); cbn [obind] in K; try discriminate; injection K as <-; cbn; auto).
Qed.

Section Q2.
Context {R : Type} (r0 r1 : R) (radd rmul rsub : R -> R -> R) (ropp : R -> R).
Context (RT : ring_theory r0 r1 radd rmul rsub ropp eq).
Add Ring RRhq : RT.
Context (conj : R -> R) (HC : conjugation radd rmul conj).
Context (heev : nat -> list R -> option (list R * list R)).
Hypothesis Hev : exact_heev r0 r1 radd rmul conj heev.
Context {J : Type} (jeq : J -> J -> bool) (jeq_spec : forall a b, jeq a b = true <-> a = b).
Context (jbs : J -> list nat) (jqns : J -> list QN) (M : SmallString -> Z) (Sx : list SmallString) (Sch : Scheme M Sx).
Context (mk : nat -> list (QN * nat) -> J) (keep : list (list R) -> list nat).
Hypothesis Hkeep : keeps keep.
Hypothesis mk_bs : forall n q, jbs (mk n q) = map snd q.
Hypothesis mk_qns : forall n q, jqns (mk n q) = map fst q.
Hypothesis mk_inj : forall n n' q q', mk n q = mk n' q' -> n = n'.
Notation I := (J * nat)%type.
Notation ieq := (ieqp jeq).
Notation ieq_spec := (ieqp_spec jeq jeq_spec).
Notation bs := (bsp jbs).
Notation qns := (qnsp jqns).
Notation total := (total bs).
Notation proper := (proper bs).
Notation ranged := (ranged bs).
Notation qval := (qval r0 bs).
Notation stored := (stored bs).
Notation labelled := (labelled bs qns M Sx).
Notation nblocks := (nblocks bs).
Notation qtensor := (qtensor bs qns M Sx).
Notation sum := (sum_below r0 radd).
Notation kron := (kron r0 r1).
Notation cm := (cm r0).
Notation factored := (factored r0 r1 radd rmul conj).
Notation velt := (velt r0).
Notation mview := (@mview R).
Notation sblock := (nat * nat * list R * list R * list R)%type.
Notation decomposed := (decomposed r0 r1 radd rmul conj).
Notation diaged := (diaged r0 r1 radd rmul conj).
Notation herm_block := (herm_block r0 ropp conj heev).
Notation put_block := (put_block (R:=R) bs).
Notation put_diag := (put_diag (R:=R) bs).
Notation hfill := (hfill (R:=R) jbs).
Notation part := (part r0 bs).
Notation kz := (@kz R).
Notation qel := (qel r0 ieq bs).
Notation sectors := (sectors qns).
Notation qdiag2 := (qdiag2 r0 ropp conj heev jeq jbs jqns mk keep).

Definition hermb (b : nat * nat * mview) (sb : sblock) : Prop := sb_i1 sb = bi1 b /\ sb_i2 sb = bi2 b /\ diaged (bmat b) (sb_u sb) (sb_d sb).
Lemma hblocks_spec bl : (forall b, In b bl -> good (bmat b) /\ rn (bmat b) = cn (bmat b) /\
    forall i j, i < rn (bmat b) -> j < rn (bmat b) -> velt (bmat b) i j = conj (velt (bmat b) j i)) ->
  (exists sl, traverse herm_block bl = Ok sl /\ Forall2 hermb bl sl) \/ (traverse herm_block bl = Err /\ heev_fails heev).
Proof.
  induction bl as [|[[i1 i2] Mx] bl IH]; intros H; cbn [traverse]; [left; exists []; split; [reflexivity|constructor]|].
  destruct (H (i1, i2, Mx) (or_introl eq_refl)) as (G & SQ & HM). cbn [bmat snd] in G, SQ, HM. unfold HermModel.herm_block at 1 3.
  destruct (diagHc_spec r0 r1 radd rmul rsub ropp RT conj HC heev Hev Mx G SQ HM) as [(u & d & E & HD)|(E & K)]; rewrite E; cbn [obind]; auto.
  destruct IH as [(sl & E2 & F)|(E2 & K)]; [intros; apply H; now right| |]; rewrite E2; cbn [obind]; auto.
  left. exists ((i1, i2, u, d, []) :: sl). split; [reflexivity|]. constructor; auto. repeat split; auto; apply HD.
Qed.

(** The loop over the kept blocks only. *)
Fixpoint hfill2 (ai l l' : I) (kb : list (sblock * nat)) (n : nat) (U : qd R) (D : list R) : outcome (qd R * list R) :=
  match kb with
  | (b, k) :: kb' =>
      let! U' := put_block ai l (sb_i1 b) n U (sb_u b) in
      let! D' := put_diag l' l n D (firstn k (sb_d b)) in
      hfill2 ai l l' kb' (S n) U' D'
  | [] => Ok (U, D)
  end.
Lemma hfill_hfill2 ai l l' sl : forall ks n U D, hfill ai l l' sl ks n U D = hfill2 ai l l' (keptb sl ks) n U D.
Proof.
  induction sl as [|c sl IH]; intros [|k ks] n U D; cbn [HermModel.hfill keptb hfill2]; try reflexivity.
  destruct (Nat.eqb_spec k 0); [apply IH|]. cbn [hfill2]. destruct (put_block ai l (sb_i1 c) n U (sb_u c)); cbn [obind]; auto.
  destruct (put_diag l' l n D (firstn k (sb_d c))); cbn [obind]; auto.
Qed.
Lemma hfill2_spec ai l l' kb : bs l = map snd kb -> bs l' = map snd kb -> ai <> l ->
  (forall bk, In bk kb -> 0 < snd bk /\ snd bk <= length (sb_d (fst bk)) /\ sb_i1 (fst bk) < nblocks ai /\
     nth (sb_i1 (fst bk)) (bs ai) 0 * snd bk <= length (sb_u (fst bk))) ->
  forall suf pre U D, kb = pre ++ suf -> stored [ai; l] U ->
  (forall n, n < length kb -> has_block U [sb_i1 (fst (nth n kb kz)); n]) ->
  (forall s, ranged [ai; l] s -> qval [ai; l] U s = part sb_i1 sb_u ai kb (length pre) (s ai) (s l)) ->
  D = concat (map dk pre) ++ repeat r0 (list_sum (map snd suf)) ->
  exists U', hfill2 ai l l' suf (length pre) U D = Ok (U', concat (map dk kb)) /\ stored [ai; l] U' /\ offs U' = offs U /\
    (forall s, ranged [ai; l] s -> qval [ai; l] U' s = part sb_i1 sb_u ai kb (length kb) (s ai) (s l)).
Proof.
  intros EL ER NU HK. induction suf as [|[b k] suf IH]; intros pre U D EK SU BU VU ED.
  - rewrite app_nil_r in EK. subst pre. cbn [hfill2]. cbn [map list_sum fold_right repeat] in ED. rewrite app_nil_r in ED. subst D. exists U. auto 10.
  - assert (Hn : length pre < length kb) by (rewrite EK, app_length; cbn; lia).
    assert (EN : nth (length pre) kb kz = (b, k)) by (rewrite EK, app_nth2, Nat.sub_diag by lia; reflexivity).
    destruct (HK (b, k)) as (K1 & K2 & K3 & K5); [rewrite EK; apply in_or_app; cbn; auto|]. cbn [fst snd] in *.
    pose proof (put_part r0 ieq ieq_spec bs sb_i1 sb_u ai l kb (length pre) U EL NU Hn SU) as PU. cbv zeta in PU. specialize (BU _ Hn) as BU'. rewrite EN in PU, BU'. cbn [fst snd] in PU, BU'.
    destruct (PU BU' K3 K5 VU) as (U1 & E1 & S1 & O1 & V1).
    cbn [hfill2]. rewrite E1. cbn [obind].
    assert (ST : start (map snd kb) (length pre) = length (concat (map dk pre))).
    { rewrite EK, map_app. rewrite <- (map_length snd pre) at 1. rewrite start_app. rewrite length_concat, map_map. f_equal. apply map_ext_in. intros bk Hb.
      unfold dk. rewrite firstn_length. destruct (HK bk) as (_ & Q & _); [rewrite EK; apply in_or_app; auto|]. lia. }
    assert (ENk : nth (length pre) (map snd kb) 0 = k) by (change 0 with (snd kz); rewrite map_nth, EN; reflexivity).
    assert (PD : put_diag l' l (length pre) D (firstn k (sb_d b)) = Ok (concat (map dk (pre ++ [(b, k)])) ++ repeat r0 (list_sum (map snd suf)))).
    { unfold SvdModel.put_diag, diag_bounds. rewrite EL, ER. rewrite select_firstn by (rewrite map_length; lia). cbn [obind]. rewrite (oget_ok 0) by (rewrite map_length; exact Hn). cbn [obind].
      fold (start (map snd kb) (length pre)). rewrite Nat.max_id, Nat.min_id, ENk. destruct (Nat.leb_spec (start (map snd kb) (length pre) + k) (start (map snd kb) (length pre))); [lia|].
      assert (LF : length (firstn k (sb_d b)) = k) by (rewrite firstn_length; lia). cbn [map] in ED. change (list_sum (k :: map snd suf)) with (k + list_sum (map snd suf)) in ED.
      assert (LD : length D = length (concat (map dk pre)) + (k + list_sum (map snd suf))) by (rewrite ED, app_length, repeat_length; reflexivity).
      rewrite segment_ok by (rewrite LF, ST, LD; lia). cbn [obind]. f_equal.
      rewrite map_app, concat_app. cbn [map concat]. rewrite app_nil_r. unfold put_seg. rewrite LF, ST, ED. cbn [snd]. rewrite firstn_app, Nat.sub_diag, firstn_all. cbn [firstn]. rewrite app_nil_r.
      rewrite <- app_assoc. f_equal. change (dk (b, k)) with (firstn k (sb_d b)). f_equal. rewrite skipn_app, skipn_all2 by lia. cbn [app].
      replace (length (concat (map dk pre)) + k - length (concat (map dk pre))) with k by lia. change (list_sum (k :: map snd suf)) with (k + list_sum (map snd suf)). rewrite repeat_app, skipn_app, skipn_all2 by (rewrite repeat_length; lia).
      rewrite repeat_length, Nat.sub_diag. reflexivity. }
    rewrite PD. cbn [obind].
    destruct (IH (pre ++ [(b, k)]) U1 (concat (map dk (pre ++ [(b, k)])) ++ repeat r0 (list_sum (map snd suf)))) as (U' & E & A1 & A3 & A5).
    + rewrite <- app_assoc. exact EK.
    + exact S1.
    + intros n Q. unfold has_block. rewrite O1. apply BU. exact Q.
    + intros s Hs. rewrite app_length, Nat.add_1_r. now apply V1.
    + reflexivity.
    + rewrite app_length, Nat.add_1_r in E. exists U'. rewrite A3, O1. auto 10.
Qed.

Lemma keptb_map (g : sblock -> sblock) sl : forall ks, keptb (map g sl) ks = map (fun bk => (g (fst bk), snd bk)) (keptb sl ks).
Proof. induction sl as [|b sl IH]; intros [|k ks]; cbn [map keptb]; auto. destruct (k =? 0); cbn [map fst snd]; now rewrite IH. Qed.
Lemma part_map (phi : R -> R) (g : sblock -> sblock) side col side' col' (x x' : I) (kb : list (sblock * nat)) : bs x' = bs x -> phi r0 = r0 ->
  (forall b, side' (g b) = side b) -> (forall b m i j, cm m (col' (g b)) i j = phi (cm m (col b) i j)) ->
  forall u v, part side' col' x' (map (fun bk => (g (fst bk), snd bk)) kb) (length kb) u v = phi (part side col x kb (length kb) u v).
Proof.
  intros EB E0 Hs Hc u v. unfold SvdFill.part. rewrite map_map. cbn [snd]. set (j := blk (map (fun bk : sblock * nat => snd bk) kb) v). change (map (fun bk : sblock * nat => snd bk) kb) with (map snd kb) in *. fold j.
  destruct (Nat.ltb_spec j (length kb)) as [Hj|]; auto.
  rewrite (nth_indep _ kz ((fun bk : sblock * nat => (g (fst bk), snd bk)) kz)) by (now rewrite map_length). rewrite (map_nth (fun bk : sblock * nat => (g (fst bk), snd bk))). cbn [fst]. rewrite Hs, EB.
  unfold SvdQn.onb. destruct (_ =? _); auto.
Qed.
Lemma cm_conj0 m a i j : cm m (map conj a) i j = conj (cm m a i j).
Proof. unfold SvdSpec.cm. rewrite <- (map_nth conj). f_equal. symmetry. apply (conj_0 r0 r1 radd rmul rsub ropp RT conj HC). Qed.

Lemma qn0_val n : qn_val_of qn0 n = 0%Z.
Proof. unfold qn0. cbn [qn_val_of qn_name qn_val qnum0]. destruct (ss_eqb _ _); reflexivity. Qed.

Lemma qdiag2_spec debug (tr : bool) dir is A (c : I) p : let c' := primep p c in let A2 := fun u v => qval is A (fun y => if ieq c y then u else v) in
  0 < p -> qtensor dir is A qn0 -> Permutation is [c; c'] -> sectors c -> dir c <> ArrNeither -> dir c' = arrow_neg (dir c) ->
  (forall b, valid (map nblocks is) b -> has_flux qns dir M is b qn0 -> has_block A b) ->
  (forall u v, u < total c -> v < total c -> A2 u v = conj (A2 v u)) -> (forall ql, (mk 0 ql, 0) <> c) ->
  (exists l U ds, let ks := if tr then keep ds else map (@length R) ds in let D := kept ks ds in
     qdiag2 debug tr dir is A = Ok (([c; l], U), (l, p, D)) /\ (exists ql, l = (mk 0 ql, 0)) /\
     qtensor (arrows2 ieq c l (arrow_neg (dir c)) (dir c)) [c; l] U qn0 /\ total l = length D /\ 0 < length D /\
     factored (total c) (total c) A2 (fun u x => conj (qel c l U u x)) D (qel c l U) (discarded ks ds) /\
     (discarded ks ds = [] -> forall i j, i < total c -> j < total c -> sum (length D) (fun r => rmul (conj (qel c l U i r)) (qel c l U j r)) = kron i j)) \/
  (qdiag2 debug tr dir is A = Err /\ heev_fails heev).
Proof.
  intros c' A2 Hp HQ PM SC Dc Dc' FULL HH HN.
  assert (NE : c <> c') by (intros K; apply (f_equal snd) in K; cbn in K; lia).
  assert (Dn : dir c' <> ArrNeither) by (rewrite Dc'; destruct (dir c); cbn; congruence).
  destruct (getBlocks_spec r0 ieq ieq_spec bs qns M Sx Sch dir is A c c' qn0 NE HQ PM SC SC Dc Dn) as (bl & EB & LB & HB & HZ & N1 & N2).
  assert (INc : In c is) by (eapply Permutation_in; [symmetry; exact PM|cbn; auto]).
  pose proof HQ as (HP & HL & HS & _ & HF). assert (LC : labelled [c]) by (intros x [<-|[]]; now apply HL).
  pose proof (total_pos bs c is HP INc) as TC.
  assert (CC : ieq c c = true) by now apply ieq_spec. assert (CC' : ieq c c' = false) by (destruct (ieq c c') eqn:E; auto; apply ieq_spec in E; contradiction).
  assert (ORD : forall s, ranged is s <-> s c < total c /\ s c' < total c).
  { intros s. unfold QdSpec.ranged. split; [intros H; split; [apply H, INc|change (total c) with (total c'); apply H; eapply Permutation_in; [symmetry; exact PM|cbn; auto]]|].
    intros [H1 H2] x Hx. eapply Permutation_in in Hx; [|exact PM]. destruct Hx as [<-|[<-|[]]]; auto. }
  assert (Cx : is = [c; c'] \/ is = [c'; c]).
  { pose proof (Permutation_length PM) as L. destruct is as [|a [|b [|]]]; try discriminate. apply Permutation_length_2_inv. now symmetry. }
  set (pair := fun i j : nat => if ieq c' (hd c is) then [j; i] else [i; j]).
  assert (PAIRS : forall i j, (exists b, In b bl /\ bi1 b = i /\ bi2 b = j) <-> has_block A (pair i j)).
  { intros i j. unfold pair. destruct Cx as [Cx|Cx]; rewrite Cx in EB |- *; cbn [hd]; exact (getBlocks_pairs ieq bs _ _ A c' bl EB i j). }
  assert (FLX : forall i j n, flux_val qns dir is (pair i j) n = (arrow_int (dir c) * qn_val_of (nth i (qns c) qn0) n - arrow_int (dir c) * qn_val_of (nth j (qns c) qn0) n)%Z).
  { intros i j n. unfold pair. destruct Cx as [Cx|Cx]; rewrite Cx; cbn [hd].
    - destruct (ieq c' c) eqn:E; [apply ieq_spec in E; congruence|]. cbn [flux_val]. rewrite Dc', arrow_neg_int by assumption. change (qns c') with (qns c). ring.
    - rewrite (proj2 (ieq_spec c' c') eq_refl). cbn [flux_val]. rewrite Dc', arrow_neg_int by assumption. change (qns c') with (qns c). ring. }
  assert (DIAG : forall b, In b bl -> bi2 b = bi1 b).
  { intros b Hb. assert (HBk : has_block A (pair (bi1 b) (bi2 b))) by (apply PAIRS; eauto). apply HF in HBk. destruct (HB b Hb) as (K1 & K2 & _).
    symmetry. apply (sector_eq bs qns M Sx Sch c); auto. intros n. specialize (HBk n). rewrite FLX, qn0_val in HBk. 
    apply (sign_eq (arrow_int (dir c)) (M n) (- (arrow_int (dir c) * qn_val_of (nth (bi2 b) (qns c) qn0) n))%Z); [apply arrow_sign, Dc|].
    match goal with |- residue _ ?x = residue _ ?y => replace y with 0%Z by ring end. rewrite residue_0, <- HBk. f_equal. ring. }
  assert (ALL : forall i, i < nblocks c -> exists b, In b bl /\ bi1 b = i).
  { intros i Hi. assert (HBk : has_block A (pair i i)).
    - apply FULL.
      + unfold pair. destruct Cx as [Cx|Cx]; rewrite Cx; cbn [hd]; match goal with |- context [if ?b then _ else _] => destruct b end; apply valid2; exact Hi.
      + intros n. rewrite FLX, qn0_val. match goal with |- residue _ ?x = _ => replace x with 0%Z by ring end. apply residue_0.
    - apply PAIRS in HBk as (b & Hb & E & _). eauto. }
  assert (BNE : bl <> []).
  { destruct (blk_lt (bs c) 0 TC) as [K _]. destruct (ALL _ K) as (b & Hb & _). intros ->. contradiction. }
  assert (ONE : offs A <> []) by (intros K; rewrite K in LB; destruct bl; [congruence|discriminate]).
  destruct (C20_div R I bs qns dir M Sx is A qn0 Sch HL) as (q' & EQ & QE); [constructor|destruct Cx as [-> | ->]; discriminate|exact HS|exact ONE|exact HF|].
  destruct (active_pair c p is Hp PM) as (i1 & i2 & EI & EA).
  assert (DE : qdiag2 debug tr dir is A =
      let! bl := traverse herm_block bl in
      let ks := if tr then keep (map sb_d bl) else map (fun b => length (sb_d b)) bl in
      let! iq := new_sectors qns sb_i1 c bl ks in
      let! iq := match iq with
                 | [] => match bl with [] => Err | b :: _ => let! q := oget (qns c) (sb_i1 b) in Ok [(q, 1)] end
                 | _ => Ok iq
                 end in
      let l := (mk 0 iq, 0) in
      let! U0 := qmake r0 bs qns (arrows2 ieq c l (arrow_neg (dir c)) (dir c)) [c; l] qn0 in
      let! D0 := qdiag_make r0 bs (primep p l) l in
      match U0 with
      | Some U0 => let! (U, D) := hfill c l (primep p l) bl ks 0 U0 D0 in Ok (([c; l], U), (l, p, D))
      | None => UB
      end).
  { rewrite EI in EQ, EB |- *. unfold HermModel.qdiag2. rewrite EA, EQ. cbn [obind]. rewrite QE. cbn [negb]. rewrite andb_false_r. fold c'. rewrite EB. reflexivity. }
  rewrite DE. clear DE.
  assert (HBq : forall b, In b bl -> forall x y, x < total c -> y < total c -> blk (bs c) x = bi1 b -> blk (bs c) y = bi1 b -> A2 x y = velt (bmat b) (pos (bs c) x) (pos (bs c) y)).
  { intros b Hb x y Hx Hy Bx By. destruct (HB b Hb) as (_ & _ & _ & _ & _ & K). unfold A2. rewrite K; rewrite ?CC, ?CC'; auto; [apply ORD; rewrite CC, CC'; auto|]. rewrite DIAG by exact Hb. exact By. }
  destruct (hblocks_spec bl) as [(sl & ES & F)|(ES & K)].
  { intros b Hb. destruct (HB b Hb) as (K1 & K2 & G & Rn & Cn & _). split; [exact G|]. rewrite (DIAG b Hb) in Cn. change (bs c') with (bs c) in Cn. split; [congruence|].
    intros i j Hi Hj. rewrite Rn in Hi, Hj. destruct (blk_glue (bs c) (bi1 b) i K1 Hi) as (X1 & X2 & X3). destruct (blk_glue (bs c) (bi1 b) j K1 Hj) as (Y1 & Y2 & Y3).
    pose proof (HH _ _ X3 Y3) as Q. rewrite (HBq b Hb _ _ X3 Y3 X1 Y1), (HBq b Hb _ _ Y3 X3 Y1 X1), X2, Y2 in Q. exact Q. }
  2:{ rewrite ES. cbn [obind]. auto. }
  rewrite ES. cbn [obind]. left. pose proof (F2_len _ _ _ F) as LS.
  set (ks := if tr then keep (map sb_d sl) else map (fun b => length (sb_d b)) sl).
  assert (KS : ks = if tr then keep (map sb_d sl) else map (@length R) (map sb_d sl)) by (unfold ks; destruct tr; auto; now rewrite map_map).
  assert (DP : forall b, In b sl -> sb_d b <> []).
  { intros b Hb E. destruct (F2_in _ _ _ b F Hb) as (b' & Hb' & E1 & E2 & HD). destruct (HB b' Hb') as (_ & _ & (_ & _ & P1 & P2) & _). destruct HD as (L & _). rewrite E in L. cbn in L. lia. }
  assert (SNE : sl <> []) by (intros ->; destruct bl; [congruence|discriminate]).
  assert (KL : length ks = length sl) by (unfold ks; destruct tr; [rewrite (proj1 (Hkeep _))|]; apply map_length).
  assert (LE : forall n z, n < length sl -> nth n ks 0 <= length (sb_d (nth n sl z))).
  { intros n z Hn. unfold ks. destruct tr.
    - destruct (Hkeep (map sb_d sl)) as (_ & KN & _). specialize (KN n). rewrite (nth_indep _ [] (sb_d z)) in KN by (now rewrite map_length). now rewrite map_nth in KN.
    - rewrite (nth_indep _ 0 ((fun b => length (sb_d b)) z)) by (now rewrite map_length). rewrite (map_nth (fun b => length (sb_d b))). lia. }
  assert (KP : exists k, In k ks /\ 0 < k).
  { destruct sl as [|b0 sl0]; [congruence|]. unfold ks. destruct tr.
    - apply Hkeep. exists (sb_d b0). split; [now left|]. apply DP. now left.
    - exists (length (sb_d b0)). split; [now left|]. specialize (DP b0 (or_introl eq_refl)). destruct (sb_d b0); [congruence|cbn; lia]. }
  assert (BF0 : forall b, In b sl -> sb_i1 b < nblocks c /\ sb_i2 b = sb_i1 b /\ exists v, rn v = nth (sb_i1 b) (bs c) 0 /\ cn v = rn v /\ diaged v (sb_u b) (sb_d b) /\
     forall x y, x < total c -> y < total c -> blk (bs c) x = sb_i1 b -> blk (bs c) y = sb_i1 b -> A2 x y = velt v (pos (bs c) x) (pos (bs c) y)).
  { intros b Hb. destruct (F2_in _ _ _ b F Hb) as (b' & Hb' & E1 & E2 & HD). destruct (HB b' Hb') as (K1 & K2 & G & K3 & K4 & K5). rewrite E1, E2, (DIAG b' Hb').
    split; [exact K1|]. split; [reflexivity|]. exists (bmat b'). split; [exact K3|]. split; [rewrite K4, (DIAG b' Hb'), K3; reflexivity|]. split; [exact HD|]. exact (HBq b' Hb'). }
  rewrite (sectors_kb qns sb_i1 c sl) by (intros b Hb; destruct (LC c (or_introl eq_refl)) as [-> _]; now apply BF0). cbn [obind].
  assert (KNE : keptb sl ks <> []) by (apply keptb_ne; auto).
  set (kb := keptb sl ks) in *. set (ql := map (fun bk : sblock * nat => (nth (sb_i1 (fst bk)) (qns c) qn0, snd bk)) kb).
  assert (QNE : exists h t, ql = h :: t) by (unfold ql; destruct kb as [|h t]; [congruence|cbn; eauto]). destruct QNE as (h & t & EQL). rewrite EQL. cbn [obind]. rewrite <- EQL. clear h t EQL.
  set (l := (mk 0 ql, 0) : I). assert (NL : c <> l) by (apply not_eq_sym; apply HN).
  assert (BL : bs l = map snd kb) by (unfold l, bsp; cbn [fst]; rewrite mk_bs; unfold ql; rewrite map_map; reflexivity).
  assert (QL : qns l = map (fun bk : sblock * nat => nth (sb_i1 (fst bk)) (qns c) qn0) kb) by (unfold l, qnsp; cbn [fst]; rewrite mk_qns; unfold ql; rewrite map_map; reflexivity).
  assert (KB : forall bk, In bk kb -> 0 < snd bk /\ In (fst bk) sl /\ snd bk <= length (sb_d (fst bk))).
  { intros [b k] Hb. destruct (keptb_in sl ks b k KL Hb) as (P & n' & Hn & <- & E). cbn [fst snd]. split; [exact P|]. split; [rewrite <- (E b); now apply nth_In|]. pose proof (LE n' b Hn) as Q. rewrite E in Q. exact Q. }
  assert (DN : arrow_neg (dir c) <> ArrNeither) by (destruct (dir c); cbn; congruence). assert (NN : arrow_neg (arrow_neg (dir c)) = dir c) by (destruct (dir c); cbn; congruence).
  destruct (make2 r0 ieq ieq_spec bs qns M Sx Sch sb_i1 c kb l (arrow_neg (dir c)) NL DN) as (U0 & EU & QU & BU & ZU); auto; [exact (proper1 bs c is HP INc)|intros bk Hb; apply BF0, KB, Hb|intros bk Hb; now apply KB|].
  rewrite NN in EU, QU. rewrite EU. cbn [obind]. unfold qdiag_make. change (idim bs (primep p l)) with (list_sum (bs l)). change (idim bs l) with (list_sum (bs l)). rewrite Nat.eqb_refl, BL. cbn [obind].
  rewrite hfill_hfill2. fold kb.
  destruct (hfill2_spec c l (primep p l) kb BL BL NL) with (suf := kb) (pre := @nil (sblock * nat)) (U := U0) (D := repeat r0 (list_sum (map snd kb))) as (U & EF & SU' & OU & VU); auto.
  { intros bk Hb. destruct (KB bk Hb) as (P & Hin & Q). destruct (BF0 _ Hin) as (B1 & B2 & v & Rn & Cn & (L1 & L2 & _) & _). rewrite L1 in Q. rewrite L1, L2, Rn in *.
    split; [exact P|]. split; [lia|]. split; [exact B1|]. apply Nat.mul_le_mono_l; lia. }
  { apply QU. }
  cbn [length] in EF. rewrite EF. cbn [obind].
  assert (ED : concat (map dk kb) = kept ks (map sb_d sl)) by (rewrite kept_kb; reflexivity).
  assert (LD : length (kept ks (map sb_d sl)) = list_sum (map snd kb)).
  { rewrite <- ED, length_concat, map_map. f_equal. apply map_ext_in. intros bk Hb. unfold dk. rewrite firstn_length. destruct (KB bk Hb) as (_ & _ & Q). lia. }
  assert (LP : 0 < list_sum (map snd kb)).
  { destruct kb as [|bk kb']; [congruence|]. cbn [map]. change (list_sum (snd bk :: map snd kb')) with (snd bk + list_sum (map snd kb')). destruct (KB bk (or_introl eq_refl)). lia. }
  assert (TL : total l = list_sum (map snd kb)) by (unfold QdSpec.total; now rewrite BL).
  exists l, U, (map sb_d sl). cbv zeta. rewrite <- KS. rewrite <- ED at 1. split; [reflexivity|]. split; [exists ql; auto|].
  split.
  { destruct QU as (P1 & P2 & P3 & P4 & P5). split; [exact P1|]. split; [exact P2|]. split; [exact SU'|]. split; [exact P4|]. intros b. unfold has_block. rewrite OU. apply P5. }
  rewrite LD, TL. split; [reflexivity|]. split; [exact LP|].
  assert (QP : forall u v, u < total c -> v < list_sum (map snd kb) -> qel c l U u v = part sb_i1 sb_u c kb (length kb) u v).
  { intros u v Hu Hv. apply (qel_part r0 ieq ieq_spec bs sb_i1 sb_u c l U kb); auto. now rewrite TL. }
  (* the blocks as decompositions with values [f (sb_d b)] *)
  assert (GEN : forall (f : list R -> list R) (B2 : nat -> nat -> R), (forall d, length (f d) = length d) ->
     (forall b, In b sl -> bfacts r0 r1 radd rmul conj bs c c' B2 (sb_i1 b, sb_i2 b, map conj (sb_u b), f (sb_d b), sb_u b)) ->
     (forall x y, x < total c -> y < total c -> blk (bs c) x <> blk (bs c) y -> B2 x y = r0) ->
     factored (total c) (total c) B2 (fun u x => conj (qel c l U u x)) (kept ks (map f (map sb_d sl))) (qel c l U) (discarded ks (map f (map sb_d sl)))).
  { intros f B2 Lf HBf HZf. set (g := fun b : sblock => (sb_i1 b, sb_i2 b, map conj (sb_u b), f (sb_d b), sb_u b) : sblock).
    assert (EM : map f (map sb_d sl) = map sb_d (map g sl)) by (now rewrite !map_map). rewrite EM.
    assert (EK : keptb (map g sl) ks = map (fun bk => (g (fst bk), snd bk)) kb) by apply keptb_map.
    assert (EN : map snd (map (fun bk : sblock * nat => (g (fst bk), snd bk)) kb) = map snd kb) by (rewrite map_map; reflexivity).
    change (total c) with (total c') at 2.
    apply (factored_sl r0 r1 radd rmul rsub ropp RT conj HC bs c c' B2 (map g sl) ks).
    - now rewrite map_length.
    - intros n z Hn. rewrite map_length in Hn. rewrite (nth_indep _ z (g (0,0,[],[],[]))) by (now rewrite map_length). rewrite map_nth. cbn [g sb_d fst snd]. rewrite Lf. now apply LE.
    - intros b Hb. apply in_map_iff in Hb as (b0 & <- & Hb0). now apply HBf.
    - intros x y Hx Hy Hb. apply HZf; auto. intros E. destruct (blk_lt (bs c) x Hx) as [Kx _]. destruct (ALL _ Kx) as (b & Hbl & Eb).
      assert (I' : In (bi1 b) (map bi1 bl)) by now apply in_map. rewrite <- (F2_map hermb bi1 sb_i1 bl sl F) in I' by (intros a b0 K; apply K).
      apply in_map_iff in I' as (b0 & E0 & Hb0). destruct (Hb (g b0) (in_map g _ _ Hb0)) as [K|K]; apply K; cbn [g sb_i1 sb_i2 fst snd]; [change (sb_i1 b0 = blk (bs c) x); congruence|].
      change (sb_i2 b0 = blk (bs c) y). destruct (BF0 b0 Hb0) as (_ & -> & _). congruence.
    - rewrite map_map. change (map (fun x => sb_i1 (g x)) sl) with (map sb_i1 sl). rewrite (F2_map hermb bi1 sb_i1 bl sl F); [exact N1|]. intros a b E. apply E.
    - rewrite map_map. change (map (fun x => sb_i2 (g x)) sl) with (map sb_i2 sl). rewrite (F2_map hermb bi2 sb_i2 bl sl F); [exact N2|]. intros a b E. apply E.
    - rewrite EK, EN, map_length. intros u x Hu Hx. rewrite QP by assumption. symmetry. apply (part_map conj g sb_i1 sb_u sb_i1 sb_u c c kb); auto.
      + apply (conj_0 r0 r1 radd rmul rsub ropp RT conj HC).
      + intros b m i j. apply cm_conj0.
    - rewrite EK, EN, map_length. intros u x Hu Hx. change (total c') with (total c) in Hu. rewrite QP by assumption. symmetry.
      assert (PE : forall u v, part sb_i2 sb_v c' (map (fun bk => (g (fst bk), snd bk)) kb) (length kb) u v = part sb_i2 sb_u c kb (length kb) u v).
      { intros a b. apply (part_map (fun r => r) g sb_i2 sb_u sb_i2 sb_v c c' kb); auto. }
      rewrite PE. unfold SvdFill.part. destruct (Nat.ltb_spec (blk (map snd kb) x) (length kb)) as [Hj|]; auto.
      destruct (BF0 (fst (nth (blk (map snd kb) x) kb kz))) as (_ & -> & _); [apply KB, nth_In, Hj|reflexivity]. }
  split.
  - pose proof (GEN (fun d => d) A2) as G. rewrite map_id in G. apply G; auto.
    + intros b Hb. destruct (BF0 b Hb) as (K1 & K2 & v & Rn & Cn & (L1 & L2 & HD & _) & HV). unfold bfacts. cbn [sb_i1 sb_i2 sb_u sb_d sb_v fst snd].
      change (sb_i1 b < nblocks c /\ sb_i2 b < nblocks c' /\ exists v, rn v = nth (sb_i1 b) (bs c) 0 /\ cn v = nth (sb_i2 b) (bs c') 0 /\ decomposed v (map conj (sb_u b)) (sb_d b) (sb_u b) /\
        forall x y, x < total c -> y < total c' -> blk (bs c) x = sb_i1 b -> blk (bs c') y = sb_i2 b -> A2 x y = velt v (pos (bs c) x) (pos (bs c') y)).
      rewrite K2. split; [exact K1|]. split; [exact K1|]. exists v. split; [exact Rn|]. split; [rewrite Cn; exact Rn|]. split; [exact HD|]. exact HV.
    + intros x y Hx Hy NB. apply HZ; [apply ORD; rewrite CC, CC'; auto|]. rewrite CC, CC'. intros b Hb. rewrite (DIAG b Hb). change (bs c') with (bs c).
      destruct (Nat.eq_dec (bi1 b) (blk (bs c) x)) as [E|]; [right; congruence|now left].
  - intros DZ i j Hi Hj.
    assert (G : factored (total c) (total c) kron (fun u x => conj (qel c l U u x)) (map (fun _ => r1) (kept ks (map sb_d sl))) (qel c l U) (map (fun _ => r1) (discarded ks (map sb_d sl)))).
    { rewrite <- kept_map, <- disc_map. apply GEN.
      - intros d. apply map_length.
      - intros b Hb. destruct (BF0 b Hb) as (K1 & K2 & v & Rn & Cn & (L1 & L2 & HD & RO) & HV). set (m := rn v) in *.
        set (w := makeMatRef (map (fun k => kron (k mod m) (k / m)) (seq 0 (m * m))) m m).
        assert (HW : forall a b, a < m -> b < m -> velt w a b = kron a b).
        { intros a b' Ha Hb'. unfold SvdMat.velt, w, makeMatRef. cbn [rs cs vd]. rewrite (nth_seq_map r0 (fun k => kron (k mod m) (k / m))) by nia.
          replace (a * 1 + b' * m) with (a + b' * m) by lia. rewrite Nat.mod_add, Nat.mod_small, Nat.div_add, Nat.div_small by lia. reflexivity. }
        change (sb_i1 b < nblocks c /\ sb_i2 b < nblocks c' /\ exists v, rn v = nth (sb_i1 b) (bs c) 0 /\ cn v = nth (sb_i2 b) (bs c') 0 /\ decomposed v (map conj (sb_u b)) (map (fun _ => r1) (sb_d b)) (sb_u b) /\
          forall x y, x < total c -> y < total c' -> blk (bs c) x = sb_i1 b -> blk (bs c') y = sb_i2 b -> kron x y = velt v (pos (bs c) x) (pos (bs c') y)).
        rewrite K2. split; [exact K1|]. split; [exact K1|]. exists w. split; [exact Rn|]. split; [exact Rn|]. split.
        + destruct HD as (_ & H2 & H3 & _ & H5 & H6 & _). unfold SvdMat.decomposed, w, makeMatRef. cbn [rn cn]. fold w. rewrite Cn in *. fold m in H2, H3, H5, H6. rewrite Nat.min_id in *. rewrite !map_length in *.
          split; [exact L1|]. split; [exact H2|]. split; [exact H3|]. 
          assert (N1' : forall r, r < m -> nth r (map (fun _ => r1) (sb_d b)) r0 = r1).
          { intros r Hr. rewrite (nth_indep _ r0 ((fun _ => r1) r0)) by (rewrite map_length; lia). now rewrite (map_nth (fun _ : R => r1)). }
          split; [|split; [exact H5|split; [exact H6|]]].
          * intros a b' Ha Hb'. change (velt w a b' = sum m (fun r => rmul (rmul (cm m (map conj (sb_u b)) a r) (nth r (map (fun _ => r1) (sb_d b)) r0)) (cm m (sb_u b) b' r))).
            rewrite HW by assumption. rewrite <- RO by assumption. apply sum_ext. intros r Hr. rewrite N1', cm_conj0 by assumption. ring.
          * intros r Hr. rewrite N1' by assumption. apply (conj_1 r0 r1 radd rmul rsub ropp RT conj HC).
        + intros x y Hx Hy Bx By. change (bs c') with (bs c) in *. change (total c') with (total c) in Hy. destruct (blk_lt (bs c) x Hx) as [_ Px]. destruct (blk_lt (bs c) y Hy) as [_ Py].
          rewrite Bx in Px. rewrite By in Py. rewrite <- Rn in Px, Py. fold m in Px, Py. rewrite HW by assumption. unfold SvdSpec.kron.
          destruct (Nat.eqb_spec x y) as [->|NEq]; [now rewrite Nat.eqb_refl|]. destruct (Nat.eqb_spec (pos (bs c) x) (pos (bs c) y)) as [Ep|]; auto. elim NEq.
          rewrite (glue_blk (bs c) x), (glue_blk (bs c) y), Bx, By, Ep. reflexivity.
      - intros x y Hx Hy NB. unfold SvdSpec.kron. destruct (Nat.eqb_spec x y); [congruence|reflexivity]. }
    rewrite DZ in G. destruct G as (K & E & HA & _ & _ & _ & _ & _ & EKt & EEt & HUk & HVk). destruct E as [|]; [|discriminate].
    specialize (HA i j Hi Hj). assert (LK : length K = list_sum (map snd kb)) by (rewrite <- LD; apply (f_equal (@length R)) in EKt; now rewrite !map_length in EKt).
    rewrite HA, (rsum_nth r0 r1 radd rmul rsub ropp RT K (z0 r0)), LK. cbn [SvdRank.rsum fold_right map].
    match goal with |- ?a = radd ?b r0 => transitivity b; [|ring] end. apply sum_ext. intros r Hr.
    rewrite HUk, HVk by lia. assert (T1 : td (nth r K (z0 r0)) = r1).
    { assert (In (td (nth r K (z0 r0))) (map (fun _ : R => r1) (kept ks (map sb_d sl)))) as Q by (rewrite EKt; apply in_map, nth_In; lia). apply in_map_iff in Q as (? & <- & _). reflexivity. }
    rewrite T1. ring.
Qed.
End Q2.

Section Qdiag.
Context {R : Type} (r0 r1 : R) (radd rmul rsub : R -> R -> R) (ropp : R -> R).
Context (RT : ring_theory r0 r1 radd rmul rsub ropp eq).
Add Ring RRhq2 : RT.
Context (conj : R -> R) (HC : conjugation radd rmul conj).
Context (heev : nat -> list R -> option (list R * list R)).
Hypothesis Hev : exact_heev r0 r1 radd rmul conj heev.
Context {J : Type} (jeq : J -> J -> bool) (jeq_spec : forall a b, jeq a b = true <-> a = b).
Context (jbs : J -> list nat) (jqns : J -> list QN) (M : SmallString -> Z) (Sx : list SmallString) (Sch : Scheme M Sx).
Context (mk : nat -> list (QN * nat) -> J) (keep : list (list R) -> list nat).
Hypothesis Hkeep : keeps keep.
Hypothesis mk_bs : forall n q, jbs (mk n q) = map snd q.
Hypothesis mk_qns : forall n q, jqns (mk n q) = map fst q.
Hypothesis mk_inj : forall n n' q q', mk n q = mk n' q' -> n = n'.
Notation I := (J * nat)%type.
Notation ieq := (ieqp jeq).
Notation ieq_spec := (ieqp_spec jeq jeq_spec).
Notation bs := (bsp jbs).
Notation qns := (qnsp jqns).
Notation total := (total bs).
Notation proper := (proper bs).
Notation ranged := (ranged bs).
Notation qval := (qval r0 bs).
Notation labelled := (labelled bs qns M Sx).
Notation nblocks := (nblocks bs).
Notation qtensor := (qtensor bs qns M Sx).
Notation qel := (qel r0 ieq bs).
Notation qdiag := (qdiag r0 ropp conj heev jeq jbs jqns mk keep).

Lemma J_primed p (c : I) is tab s : QCombProofs.J bs (primep p c) (map (primep p) is) tab s = QCombProofs.J bs c is tab (primed p s).
Proof.
  assert (EB : blockof bs (map (primep p) is) s = blockof bs is (primed p s)) by (unfold QdSpec.blockof; rewrite map_map; reflexivity).
  assert (EP : placeof bs (map (primep p) is) s = placeof bs is (primed p s)).
  { unfold QdSpec.placeof, QdSpec.dimsof. rewrite ?map_map. reflexivity. }
  unfold QCombProofs.J, kof. rewrite EB, EP, map_map. reflexivity.
Qed.

(** The arrows of U. *)
Definition eig_arrows (dir : I -> Arrow) (L : list I) (l : I) (dirU : I -> Arrow) : Prop :=
  dirU l = comb_dir dir None L /\ forall x, In x L -> dirU x = arrow_neg (dir x).

Lemma qdiag_spec debug (tr : bool) dir p L AA A : qtensor dir AA A qn0 -> paired p L AA -> (forall x, In x L -> dir x <> ArrNeither /\ dir (prime p x) = arrow_neg (dir x)) ->
  hermitian conj total p L AA (qval AA A) -> (forall n d k, ~ In (mk n d, k) AA) ->
  (exists is Uix U l ds, let ks := if tr then keep ds else map (@length R) ds in let D := kept ks ds in
     qdiag debug tr dir AA A = Ok ((Uix, U), (l, p, D)) /\ Permutation is L /\ (exists dirU, qtensor dirU Uix U qn0 /\ eig_arrows dir is l dirU) /\
     ~ In l AA /\ ~ In (prime p l) AA /\ snd l = 0 /\ total l = length D /\ 0 < length D /\ (forall x, In x Uix <-> x = l \/ In x L) /\
     eig_of r0 r1 radd rmul conj ieq total rsub p AA is (qval AA A) (qval Uix U) l D ds ks) \/
  (qdiag debug tr dir AA A = Err /\ heev_fails heev).
Proof.
  intros HT HP HD HH Hfr. pose proof HT as (HPr & HLb & _). pose proof HPr as [ND Hpr]. destruct (find_pairs_spec jeq jeq_spec p L AA ND HP) as (is & EF & PI). pose proof (paired_perm p L is AA PI HP) as HPi.
  assert (InL : forall x, In x is <-> In x L) by (intros x; split; apply Permutation_in; [exact PI|now symmetry]).
  assert (HHi : hermitian conj total p is AA (qval AA A)) by (intros s s' Hs Hx; apply HH; auto; intros x Hi; apply Hx, InL, Hi).
  assert (HDi : forall x, In x is -> dir x <> ArrNeither /\ dir (primep p x) = arrow_neg (dir x)) by (intros x Hx; apply HD, InL, Hx).
  assert (PP : 0 < p) by (eapply p_pos; eauto).
  assert (I1 : incl is AA) by (intros x Hx; eapply inL; eauto). assert (I2 : incl (map (primep p) is) AA) by (intros x Hx; apply in_map_iff in Hx as (y & <- & Hy); apply (inLp p is AA HPi _ Hy)).
  assert (DJ : forall x, In x is -> ~ In x (map (primep p) is)) by (intros x Hx; eapply disjLp; eauto).
  pose proof (Permutation_NoDup (proj1 (proj2 HPi)) ND) as NDD. assert (N1 : NoDup is) by (eapply nda_l; eauto). assert (N2 : NoDup (map (primep p) is)) by (eapply nda_r; eauto).
  assert (isne : is <> []) by (destruct HPi; assumption).
  assert (P1 : proper is) by exact (sub_proper bs is AA N1 I1 HPr). assert (P1' : proper (map (primep p) is)) by exact (sub_proper bs _ AA N2 I2 HPr).
  assert (L1 : labelled is) by (intros x Hx; apply HLb, I1, Hx). assert (L1' : labelled (map (primep p) is)) by (intros x Hx; apply HLb, I2, Hx).
  unfold HermModel.qdiag. rewrite EF. cbn [obind]. set (dc := comb_dir dir None is) in *.
  assert (CD : dc <> ArrNeither) by apply comb_dir_ne.
  destruct (C17_qn_made bs qns M Sx Sch dir dc is isne P1 L1) as (qm & tab & Eu). rewrite Eu. cbn [obind].
  set (c := (mk 1 qm, 0) : I) in *. set (Rc := comb_dirs ieq dir c dc) in *. set (Rp := fun x => arrow_neg (Rc (unprimep p x))) in *.
  assert (cNA : ~ In c AA) by apply Hfr. assert (cNA' : ~ In (primep p c) AA) by apply Hfr.
  assert (cne : c <> primep p c) by (intros K; apply (f_equal snd) in K; cbn in K; lia).
  assert (EBc : bs c = map snd qm) by apply mk_bs. assert (EQc : qns c = map fst qm) by apply mk_qns.
  assert (QC : qcombines bs qns M Sx dir dc c is tab).
  { exists qm. split; [exact Eu|]. split; [exact EBc|]. split; [exact EQc|]. split; [constructor; auto|]. split; [exact P1|]. split; [exact L1|]. split; [exact CD|]. intros x Hx. now apply HDi. }
  assert (NegNe : forall d, d <> ArrNeither -> arrow_neg d <> ArrNeither) by (intros [] Hd; cbn; congruence).
  assert (QP : qcombines bs qns M Sx dir (arrow_neg dc) (primep p c) (map (primep p) is) tab).
  { exists qm. split; [rewrite <- Eu; apply qcombiner_opp; auto|]. split; [exact EBc|]. split; [exact EQc|]. split; [constructor; auto|]. split; [exact P1'|]. split; [exact L1'|]. split; [auto|].
    intros x Hx. apply in_map_iff in Hx as (y & <- & Hy). destruct (HDi y Hy) as [K ->]. auto. }
  assert (QN : qcombines bs qns M Sx (fun x => arrow_neg (dir x)) (arrow_neg dc) c is tab).
  { exists qm. split; [rewrite <- Eu; rewrite <- (map_id is) at 1; apply (qcombiner_opp bs qns (fun x => x)); auto; intros x Hx; split; auto; now apply HDi|].
    split; [exact EBc|]. split; [exact EQc|]. split; [constructor; auto|]. split; [exact P1|]. split; [exact L1|]. split; [auto|]. intros x Hx. apply NegNe. now apply HDi. }
  assert (RcC : Rc c = dc) by (unfold Rc, comb_dirs; now rewrite (proj2 (ieq_spec c c) eq_refl)).
  assert (RcX : forall x, In x AA -> Rc x = arrow_neg (dir x)).
  { intros x Hx. unfold Rc, comb_dirs. destruct (ieq x c) eqn:E; auto. apply ieq_spec in E. subst x. contradiction. }
  assert (UP : forall x : I, unprimep p (primep p x) = x) by (intros [j a]; unfold unprimep, primep; cbn [fst snd]; f_equal; lia).
  destruct (qn_full r0 ieq ieq_spec bs qns M Sx Sch dir dc c is tab QC) as (JV & _ & CM & _).
  destruct (qn_full r0 ieq ieq_spec bs qns M Sx Sch dir (arrow_neg dc) (primep p c) (map (primep p) is) tab QP) as (_ & _ & CMp & _).
  destruct (qn_full r0 ieq ieq_spec bs qns M Sx Sch _ (arrow_neg dc) c is tab QN) as (_ & _ & _ & UN).
  set (JJ := QCombProofs.J bs c is tab) in *.
  destruct (CM debug dir Rc AA A qn0 HT cNA I1) as (M1 & A1 & E1 & Q1 & (q1 & T1 & F1 & _) & V1); auto.
  { split; [exact RcC|]. intros x Hx. apply RcX, I1, Hx. }
  assert (q1 = qn0) as -> by (apply F1; now right). rewrite E1. cbn [obind].
  set (dir1 := dirC ieq dir Rc AA) in *.
  assert (HvN1 : ~ In (primep p c) M1) by (intros K; apply Q1 in K as [K|[K _]]; [congruence|contradiction]).
  assert (IVN : incl (map (primep p) is) M1) by (intros x Hx; apply Q1; right; split; [apply I2, Hx|intros K; exact (DJ x K Hx)]).
  destruct (CMp debug dir1 Rp M1 A1 qn0 T1 HvN1 IVN) as (M2 & A2 & E2 & Q2 & (q2 & T2 & F2 & FULL) & V2).
  { split; [unfold Rp; now rewrite UP, RcC|]. intros x Hx. apply in_map_iff in Hx as (y & <- & Hy). unfold Rp. rewrite UP, RcX by (apply I1, Hy). f_equal. symmetry. now apply HDi. }
  { intros x Hx. apply (dirC_in ieq ieq_spec), I2, Hx. }
  assert (q2 = qn0) as -> by (apply F2; now right). rewrite E2. cbn [obind].
  assert (P2 : Permutation M2 [c; primep p c]).
  { apply NoDup_Permutation; [apply T2| |].
    - constructor; [cbn; intuition congruence|constructor; [cbn; auto|constructor]].
    - intros x. rewrite Q2, Q1. cbn. split.
      + intros [->|[[->|[K1 K2]] K3]]; auto. exfalso. pose proof (Permutation_in _ (proj1 (proj2 HPi)) K1) as K. apply in_app_or in K. tauto.
      + intros [<-|[<-|[]]]; auto. right. split; auto. }
  set (dir2 := dirC ieq dir1 Rp M1) in *.
  assert (D2c : dir2 c = dc). { unfold dir2. rewrite (dirC_in ieq ieq_spec) by (apply Q1; now left). unfold dir1. rewrite (dirC_out ieq ieq_spec) by exact cNA. exact RcC. }
  assert (D2p : dir2 (primep p c) = arrow_neg dc). { unfold dir2. rewrite (dirC_out ieq ieq_spec) by exact HvN1. unfold Rp. now rewrite UP, RcC. }
  assert (NUm : numbering total is (total c) JJ) by exact JV.
  assert (pdimT : forall p x, total (prime p x) = total x) by reflexivity.
  assert (Hp : forall x, In x AA -> 0 < total x) by (intros x Hx; exact (total_pos bs x AA HPr Hx)).
  assert (VA : forall s, ranged AA s -> qval AA A s = qval M2 A2 (fun y => if ieq c y then JJ s else Np p JJ s)).
  { intros s Hs. rewrite <- V1 by exact Hs. rewrite <- V2.
    - rewrite J_primed. fold JJ. apply qval_eq. apply map_ext_in. intros x Hx. apply (Permutation_in _ P2) in Hx. destruct Hx as [<-|[<-|[]]].
      + rewrite (override_ne ieq ieq_spec) by congruence. rewrite (override_self ieq ieq_spec), (proj2 (ieq_spec c c) eq_refl). reflexivity.
      + rewrite (override_self ieq ieq_spec). destruct (ieq c (primep p c)) eqn:E; [apply ieq_spec in E; contradiction|]. unfold Np. apply NUm. intros y Hy. unfold primed. apply (override_ne ieq ieq_spec). intros K. apply cNA. rewrite <- K. apply (inLp p is AA HPi _ Hy).
    - intros x Hx. apply Q1 in Hx as [->|[Hx _]].
      + rewrite (override_self ieq ieq_spec). apply NUm. intros y Hy. apply Hs, I1, Hy.
      + rewrite (override_ne ieq ieq_spec); [apply Hs, Hx|]. intros ->. contradiction. }
  set (A2f := fun u v => qval M2 A2 (fun y => if ieq c y then u else v)) in *.
  assert (HM2 : forall u v, u < total c -> v < total c -> A2f u v = conj (A2f v u)).
  { apply (herm_mat conj ieq total ieq_spec pdimT p is AA (total c) JJ HPi ND NUm (qval AA A) A2f); auto. }
  destruct (qdiag2_spec r0 r1 radd rmul rsub ropp RT conj HC heev Hev jeq jeq_spec jbs jqns M Sx Sch mk keep Hkeep mk_bs mk_qns debug tr dir2 M2 A2 c p PP T2 P2)
    as [(l & U & ds & E & (ql & El) & TU & TL & DP & HF & HCp)|(E & K1)].
  { exact (C17_qn_sectors bs qns M Sx Sch dir dc c is tab QC). } { now rewrite D2c. } { now rewrite D2c, D2p. } { exact FULL. } { exact HM2. }
  { intros q0 K. apply (f_equal fst) in K. cbn in K. apply mk_inj in K. discriminate. }
  2:{ rewrite E. cbn [obind]. auto. }
  cbv zeta in *. set (ks := if tr then keep ds else map (@length R) ds) in *. set (D := kept ks ds) in *.
  rewrite E. cbn [obind fst snd]. rewrite D2c in TU.
  assert (lA : ~ In l AA) by (rewrite El; apply Hfr). assert (cl : c <> l) by (rewrite El; intros K; apply (f_equal fst) in K; cbn in K; apply mk_inj in K; discriminate).
  destruct (UN debug (arrows2 ieq c l (arrow_neg dc) dc) Rc [c; l] U qn0 TU) as (Uix & U' & EU & MU & (qU & TUx & FU) & VU).
  { now left. } { intros x Hx [<-|[<-|[]]]; [apply cNA, I1, Hx|apply lA, I1, Hx]. }
  { split; [rewrite RcC, neg_neg; auto|]. intros x Hx. apply RcX, I1, Hx. } { apply (arrows_x ieq ieq_spec). }
  rewrite EU. cbn [obind]. left. exists is, Uix, U', l, ds. cbv zeta. fold ks. fold D. split; [reflexivity|]. split; [exact PI|].
  rewrite (FU (or_intror eq_refl)) in TUx.
  assert (MU' : forall x, In x Uix <-> x = l \/ In x is).
  { intros x. rewrite MU. cbn. split; [intros [K|[[<-|[<-|[]]] K]]; try tauto|]. intros [->|K]; auto. }
  split.
  { eexists. split; [exact TUx|]. split.
    - rewrite (dirC_in ieq ieq_spec) by (cbn; auto). now apply (arrows_l ieq ieq_spec).
    - intros x Hx. rewrite (dirC_out ieq ieq_spec); [apply RcX, I1, Hx|]. intros [<-|[<-|[]]]; [apply cNA, I1, Hx|apply lA, I1, Hx]. }
  split; [exact lA|]. split; [rewrite El; apply Hfr|]. split; [now rewrite El|]. split; [exact TL|]. split; [exact DP|]. split; [intros x; rewrite MU'; now rewrite InL|].
  assert (HUe : forall s x, ranged is s -> x < length D -> qval Uix U' (override ieq s l x) = qel c l U (JJ s) x).
  { intros s x Hs Hx. rewrite VU.
    - rewrite (qel_val r0 ieq ieq_spec bs) by exact cl. f_equal.
      + rewrite (override_self ieq ieq_spec). apply NUm. intros y Hy. apply (override_ne ieq ieq_spec). intros ->. apply lA, I1, Hy.
      + rewrite (override_ne ieq ieq_spec) by congruence. apply (override_self ieq ieq_spec).
    - intros y Hy. apply MU' in Hy as [->|Hy]; [rewrite (override_self ieq ieq_spec), TL; exact Hx|].
      rewrite (override_ne ieq ieq_spec); [apply Hs, Hy|]. intros ->. apply lA, I1, Hy. }
  apply (eig_ok r0 r1 radd rmul rsub ropp RT conj HC ieq total ieq_spec pdimT p is AA (total c) JJ HPi ND Hp NUm (qval AA A) (qval Uix U') A2f (qel c l U) l ds ks HF VA); auto.
  intros s s' Hss. apply qval_eq. apply map_ext. exact Hss.
Qed.
End Qdiag.
