(** Lemmas for the direct sum of tensors with quantum numbers. *)
From Coq Require Import List ZArith Lia Bool Arith Permutation Sorted Ring.
From Verif Require Import Util RangeModel RangeSpec RangeProofs RangeProps TensorModel TensorSpec TensorProofs SemProofs
  ContractModel DenseModel DenseProofs LabelProofs SmallStringModel QnModel QnSpec QnProofs QnProps QdModel QdSpec QdProofs QdFlux QdAdd
  QdKernel QdEntries QdLoop QdSum QdDense ProductProps ContractProps QdProps QdContractProps DiagProofs QCombProps QDirectSumModel.
Import ListNotations.
Open Scope outcome_scope.
Local Arguments Nat.sub : simpl never.

(** ** blocks of a concatenation *)
Lemma blk_app : forall pre l post v, v < list_sum l ->
  blk (pre ++ l ++ post) (list_sum pre + v) = length pre + blk l v /\ pos (pre ++ l ++ post) (list_sum pre + v) = pos l v.
Proof.
  assert (B : forall l post v, v < list_sum l -> blk (l ++ post) v = blk l v /\ pos (l ++ post) v = pos l v).
  { induction l as [|n l IH]; intros post v Hv; [cbn in Hv; lia|]. cbn [app blk pos]. change (list_sum (n :: l)) with (n + list_sum l) in Hv.
    destruct (Nat.ltb_spec v n); auto. destruct (IH post (v - n) ltac:(lia)) as [-> ->]. auto. }
  induction pre as [|n pre IH]; intros l post v Hv; cbn [app blk pos length].
  - change (list_sum []) with 0. cbn [Nat.add]. now apply B.
  - change (list_sum (n :: pre)) with (n + list_sum pre). destruct (Nat.ltb_spec (n + list_sum pre + v) n); [lia|].
    replace (n + list_sum pre + v - n) with (list_sum pre + v) by lia. destruct (IH l post v Hv) as [-> ->]. auto.
Qed.
Lemma nth_mid {A} (pre l post : list A) b d : b < length l -> nth (length pre + b) (pre ++ l ++ post) d = nth b l d.
Proof. intros H. rewrite app_nth2 by lia. replace (length pre + b - length pre) with b by lia. now rewrite app_nth1. Qed.
Lemma list_sum_app a b : list_sum (a ++ b) = list_sum a + list_sum b.
Proof. apply List.list_sum_app. Qed.

Section Proofs.
Context {R : Type} (r0 r1 : R) (radd rmul : R -> R -> R) (is0 : R -> bool).
Context (SR : semi_ring_theory r0 r1 radd rmul (@eq R)).
Context (is0_spec : forall x, is0 x = true -> x = r0).
Add Ring RRqd : SR.
Context {I : Type} (ieq : I -> I -> bool) (ieq_spec : forall a b, ieq a b = true <-> a = b).
Context (bs : I -> list nat) (qns : I -> list QN) (M : SmallString -> Z) (S : list SmallString) (Sch : Scheme M S).
Context (srt : forall X : Type, (X -> X -> bool) -> list X -> list X) (Hsrt : sorts srt).
Notation total := (total bs).
Notation proper := (proper bs).
Notation ranged := (ranged bs).
Notation qval := (qval r0 bs).
Notation stored := (stored bs).
Notation labelled := (labelled bs qns M S).
Notation qtimes := (qtimes r0 r1 radd rmul is0 ieq bs srt).
Notation sumn := (sumn r0 radd).

(** ** the unit matrix *)
Lemma fill_eye_ok m : 0 < m -> forall iis D, (forall ii, In ii iis -> ii < m) -> length D = m * m ->
  exists D', fill_eye r1 m iis D = Ok D' /\ length D' = length D /\
    forall p, nth p D' r0 = if existsb (fun ii => p =? ii + m * ii) iis then r1 else nth p D r0.
Proof.
  intros Hm. induction iis as [|ii iis IH]; intros D Hi HL; [exists D; auto|]. cbn [fill_eye].
  assert (Hii : ii < m) by (apply Hi; now left). assert (ii + m * ii < length D) by nia.
  rewrite oupd_ok by auto. cbn [obind].
  destruct (IH (upd (ii + m * ii) r1 D)) as (D' & E & L & H'). { intros; apply Hi; now right. } { now rewrite upd_length. }
  exists D'. split; [exact E|]. split; [now rewrite L, upd_length|]. intros p. rewrite H'. cbn [existsb].
  destruct (existsb _ iis); [now rewrite orb_true_r|]. rewrite orb_false_r.
  destruct (Nat.eqb_spec p (ii + m * ii)) as [->|N]; [now rewrite nth_upd_eq|]. rewrite nth_upd_neq by congruence. reflexivity.
Qed.
Lemma eye_ok m : 0 < m -> exists D, eye r0 r1 m m = Ok D /\ length D = m * m /\
  forall p q, p < m -> q < m -> nth (p + m * q) D r0 = if p =? q then r1 else r0.
Proof.
  intros Hm. unfold eye. rewrite Nat.min_id.
  destruct (fill_eye_ok m Hm (seq 0 m) (repeat r0 (m * m))) as (D & E & L & H).
  { intros ii Hi. apply in_seq in Hi. lia. } { apply repeat_length. }
  exists D. split; [exact E|]. split; [rewrite L; apply repeat_length|]. intros p q Hp Hq. rewrite H.
  replace (nth _ (repeat r0 _) r0) with r0 by (symmetry; apply nth_repeat).
  assert (EE : existsb (fun ii => p + m * q =? ii + m * ii) (seq 0 m) = (p =? q)).
  { apply eq_true_iff_eq. rewrite existsb_exists, Nat.eqb_eq. split.
    - intros (ii & Hi & E2). apply in_seq in Hi. apply Nat.eqb_eq in E2.
      assert (p = ii).
      { rewrite <- (Nat.mod_small p m), <- (Nat.mod_small ii m) by lia.
        rewrite <- (Nat.mod_add p q m), <- (Nat.mod_add ii ii m) by lia. f_equal. lia. }
      subst ii. nia.
    - intros ->. exists q. split; [apply in_seq; lia|apply Nat.eqb_refl]. }
  now rewrite EE.
Qed.

(** ** the tensors that select the parts of the summed index *)
Section Selector.
Context (dir : I -> Arrow) (x k : I) (pre post : list nat) (qpre qpost : list QN).
Hypothesis Nxk : x <> k.
Hypothesis Hp : proper [x; k].
Hypothesis HL : labelled [x; k].
Hypothesis Hb : bs k = pre ++ bs x ++ post.
Hypothesis Hq : qns k = qpre ++ qns x ++ qpost.
Hypothesis Hlen : length qpre = length pre.
Hypothesis Hdir : dir x = arrow_neg (dir k).
Hypothesis Hdk : dir k <> ArrNeither.
Notation off := (length pre).

Lemma kx_valid b : b < length (bs x) -> valid (map (nblocks bs) [x; k]) [b; off + b].
Proof. intros H. cbn [map]. constructor; [exact H|]. constructor; [|constructor]. unfold nblocks. rewrite Hb, !app_length. lia. Qed.
Lemma kx_flux b n : b < length (bs x) -> flux_val qns dir [x; k] [b; off + b] n = 0%Z.
Proof.
  intros H. cbn [flux_val]. rewrite Hq, <- Hlen, nth_mid by (rewrite (proj1 (HL x (or_introl eq_refl))); exact H).
  rewrite Hdir. destruct (dir k) eqn:Ed; cbn [arrow_neg arrow_int]; try congruence; lia.
Qed.

Lemma fill_some : forall m a (d : qd R), a + m <= length (bs x) -> stored [x; k] d ->
  (forall b, b < length (bs x) -> has_block d [b; off + b]) ->
  exists d', fill_blocks r0 r1 bs qns dir x k (seq a m) (off + a) (Some d) = Ok (Some d') /\ stored [x; k] d' /\ offs d' = offs d /\
    forall s, ranged [x; k] s -> qval [x; k] d' s =
      if (a <=? blk (bs x) (s x)) && (blk (bs x) (s x) <? a + m) && (blk (bs k) (s k) =? off + blk (bs x) (s x))
      then (if pos (bs x) (s x) =? pos (bs k) (s k) then r1 else r0) else qval [x; k] d s.
Proof.
  induction m as [|m IH]; intros a d Ha Hd Hall; cbn [seq fill_blocks].
  - exists d. split; [reflexivity|]. split; [exact Hd|]. split; [reflexivity|]. intros s Hs.
    destruct (Nat.leb_spec a (blk (bs x) (s x))); cbn [andb]; auto. destruct (Nat.ltb_spec (blk (bs x) (s x)) (a + 0)); auto. lia.
  - assert (Ha' : a < length (bs x)) by lia.
    rewrite (oget_ok 0) by exact Ha'. cbn [obind]. rewrite (oget_ok 0) by (rewrite Hb, !app_length; lia). cbn [obind].
    assert (Ek : nth (off + a) (bs k) 0 = nth a (bs x) 0) by (rewrite Hb; apply nth_mid; exact Ha'). rewrite Ek.
    set (m0 := nth a (bs x) 0) in *.
    assert (Pm : 0 < m0). { destruct (proj2 Hp x (or_introl eq_refl)) as [_ F]. rewrite Forall_forall in F. apply F. now apply nth_In. }
    destruct (eye_ok m0 Pm) as (D & ED & LD & HD). rewrite ED. cbn [obind].
    unfold get_block. cbn [obind].
    pose proof (Hall a Ha') as Hblk. apply in_fst in Hblk as (o & Ho).
    rewrite (getBlock_in bs [x; k] d [a; off + a] o Hd Ho) by discriminate. cbn [obind].
    destruct (stored_bound bs _ _ _ _ Hd Ho) as [V LB]. cbn [sz] in LB. rewrite Ek in LB. fold m0 in LB. rewrite segment_ok by lia. cbn [obind].
    set (beta := fun y => if ieq y x then a else off + a).
    assert (Eb : [a; off + a] = map beta [x; k]).
    { unfold beta. cbn [map]. rewrite (ieq_refl ieq ieq_spec), (ieq_neq ieq ieq_spec) by congruence. reflexivity. }
    rewrite Eb in Ho.
    destruct (qval_put r0 bs [x; k] d beta o D Hd Ho) as (S1 & V1 & V2).
    { rewrite LD, <- Eb. cbn [sz]. rewrite Ek. fold m0. lia. }
    set (d1 := mkQD (offs d) (put_seg o D (store d))) in *.
    destruct (IH (Datatypes.S a) d1 ltac:(lia) S1 Hall) as (d' & E' & S' & O' & V').
    exists d'. replace (off + Datatypes.S a) with (Datatypes.S (off + a)) in E' by lia. split; [exact E'|]. split; [exact S'|]. split; [exact O'|].
    intros s Hs. rewrite V' by exact Hs.
    pose proof (V1 s Hs) as V1s. pose proof (V2 s Hs) as V2s. clear V1 V2.
    set (bx := blk (bs x) (s x)) in *. set (bk := blk (bs k) (s k)) in *.
    assert (EBS : blockof bs [x; k] s = [bx; bk]) by reflexivity.
    destruct (Nat.eqb_spec bk (off + bx)) as [Qk|Qk]; rewrite ?andb_true_r, ?andb_false_r.
    + destruct (Nat.eq_dec bx a) as [Qa|Qa].
      * assert (EB : blockof bs [x; k] s = map beta [x; k]) by (rewrite EBS, <- Eb; congruence).
        rewrite Qa. destruct (Nat.leb_spec (Datatypes.S a) a); [lia|]. cbn [andb]. rewrite Nat.leb_refl. destruct (Nat.ltb_spec a (a + Datatypes.S m)); [|lia]. cbn [andb].
        rewrite V1s by exact EB. unfold elt. cbn [map colmajor]. unfold bdim, inpos, beta. rewrite (ieq_refl ieq ieq_spec). fold m0. rewrite Nat.mul_0_r, Nat.add_0_r.
        assert (P1 : pos (bs x) (s x) < m0). { unfold m0. rewrite <- Qa. apply blk_lt. apply Hs. now left. }
        assert (P2 : pos (bs k) (s k) < m0). { rewrite <- Ek, <- Qa, <- Qk. apply blk_lt. apply Hs. right; now left. }
        apply HD; auto.
      * rewrite V2s. 2:{ rewrite EBS, <- Eb. congruence. }
        destruct (Nat.leb_spec (Datatypes.S a) bx), (Nat.leb_spec a bx), (Nat.ltb_spec bx (Datatypes.S a + m)), (Nat.ltb_spec bx (a + Datatypes.S m)); cbn [andb]; auto; lia.
    + apply V2s. rewrite EBS, <- Eb. intros Q. injection Q as Q1 Q2. lia.
Qed.

Lemma selector_ok : exists D, selector r0 r1 bs qns dir x k off = Ok D /\ stored [x; k] D /\
  (forall b, has_block D b -> has_flux qns dir M [x; k] b qn0) /\
  (forall b, b < length (bs x) -> has_block D [b; off + b]) /\
  forall s, ranged [x; k] s -> qval [x; k] D s = if s k =? list_sum pre + s x then r1 else r0.
Proof.
  unfold selector.
  assert (Px : bs x <> []) by (apply (proj2 Hp); now left).
  assert (P0 : 0 < length (bs x)) by (destruct (bs x); [congruence|cbn; lia]).
  destruct (block_qn_flux bs qns dir M S Sch [x; k] [0; off + 0] qn0 HL (kx_valid 0 P0) ltac:(constructor)) as (q & Eq & Cq & Fq & _).
  destruct (qmake_spec r0 bs qns dir M S Sch [x; k] q HL ltac:(intros y Hy; apply (proj2 Hp); exact Hy) Cq ltac:(discriminate)) as (d0 & E0 & S0 & B0 & Z0).
  assert (Vq : forall n, qn_val_of q n = 0%Z). { intros n. rewrite <- (Fq n), kx_flux by exact P0. apply residue_0. }
  assert (Hall : forall b, b < length (bs x) -> has_block d0 [b; off + b]).
  { intros b Hbb. apply B0. split; [now apply kx_valid|]. intros n. rewrite kx_flux by exact Hbb. rewrite residue_0. symmetry. apply Vq. }
  destruct (fill_some (length (bs x)) 0 d0 ltac:(lia) S0 Hall) as (D & E & SD & OD & VD).
  assert (EN : fill_blocks r0 r1 bs qns dir x k (seq 0 (length (bs x))) off None = fill_blocks r0 r1 bs qns dir x k (seq 0 (length (bs x))) (off + 0) (Some d0)).
  { rewrite Nat.add_0_r in *. destruct (length (bs x)) as [|m]; [lia|]. cbn [seq fill_blocks]. unfold get_block. rewrite Eq. cbn [obind]. rewrite E0. reflexivity. }
  rewrite EN, E. cbn [obind]. exists D. split; [reflexivity|]. split; [exact SD|]. split; [|split].
  - intros b Hbb. unfold has_block in Hbb. rewrite OD in Hbb. apply B0 in Hbb as [_ Hf]. intros n. rewrite (Hf n), Vq. apply qn0_val.
  - intros b Hbb. unfold has_block. rewrite OD. now apply Hall.
  - intros s Hs. rewrite VD by exact Hs.
    assert (Hx : s x < list_sum (bs x)) by (apply Hs; now left). assert (Hk : s k < list_sum (bs k)) by (apply Hs; right; now left).
    destruct (blk_lt (bs x) (s x) Hx) as [Lb _]. cbn [Nat.leb andb]. destruct (Nat.ltb_spec (blk (bs x) (s x)) (0 + length (bs x))); [|lia]. cbn [andb].
    destruct (blk_app pre (bs x) post (s x) Hx) as [B1 B2]. rewrite <- Hb in B1, B2.
    destruct (Nat.eqb_spec (s k) (list_sum pre + s x)) as [Q|Q].
    + rewrite Q, B1, B2, !Nat.eqb_refl. reflexivity.
    + destruct (Nat.eqb_spec (blk (bs k) (s k)) (off + blk (bs x) (s x))) as [Q1|Q1].
      * destruct (Nat.eqb_spec (pos (bs x) (s x)) (pos (bs k) (s k))) as [Q2|Q2]; auto. exfalso. apply Q.
        apply (blk_pos_inj (bs k)); auto; try congruence. rewrite Hb, !list_sum_app. lia.
      * destruct d0 as [o0 st0]. cbn [store] in Z0. rewrite Z0. apply qval_zeros.
Qed.

Notation qtensor := (qtensor bs qns M S).
(** Multiplying a tensor that has x by it. *)
Lemma step_ok da L (A : qd R) q junk cj : qtensor da L A q -> In x L -> ~ In k L -> da x <> ArrNeither -> dir x = arrow_neg (da x) ->
  exists D N C, selector r0 r1 bs qns dir x k off = Ok D /\ qtimes da dir L A [x; k] D junk cj = Ok (N, C) /\
    qtensor (dirC ieq da dir L) N C q /\ (offs C = [] <-> offs A = []) /\
    (forall y, In y N <-> y = k \/ (In y L /\ y <> x)) /\
    forall s, ranged N s -> qval N C s =
      if (list_sum pre <=? s k) && (s k <? list_sum pre + total x) then qval L A (override ieq s x (s k - list_sum pre)) else r0.
Proof.
  intros (PL & LL & SA & Cq & FA) Hx Hk Nx Dx.
  destruct selector_ok as (D & ED & SD & FD & BD & VD).
  exists D, (only ieq L [x; k] ++ only ieq [x; k] L).
  assert (HN : forall y, In y (only ieq L [x; k] ++ only ieq [x; k] L) <-> y = k \/ (In y L /\ y <> x)).
  { intros y. rewrite (in_N ieq ieq_spec bs). cbn [In]. split.
    - intros [[H1 H2]|[[H1|[H1|[]]] H2]].
      + right. split; auto.
      + exfalso. apply H2. now rewrite <- H1.
      + left. auto.
    - intros [->|[H1 H2]]; [right; auto|left; split; auto; intros [K|[K|[]]]; subst; contradiction]. }
  assert (HD : forall y, In y L -> In y [x; k] -> da y = ArrIn /\ dir y = ArrOut \/ da y = ArrOut /\ dir y = ArrIn).
  { intros y Hy [<-|[<-|[]]]; [|contradiction]. rewrite Dx. destruct (da x) eqn:E; cbn; auto. congruence. }
  destruct (qcontract_spec R r0 r1 radd rmul is0 SR is0_spec I ieq ieq_spec bs srt Hsrt L A [x; k] D junk cj PL Hp SA SD) as (C & EC & SC & VC & BC).
  exists C. split; [exact ED|].
  assert (NeL : L <> []) by (intros ->; contradiction).
  assert (EQ : qtimes da dir L A [x; k] D junk cj = Ok (only ieq L [x; k] ++ only ieq [x; k] L, C)).
  { unfold QdModel.qtimes. destruct L as [|y L]; [congruence|].
    rewrite (proj2 (checkArrows_opp ieq ieq_spec da dir (y :: L) [x; k])) by (intros z H1 H2; destruct (HD z H1 H2) as [[-> ->]|[-> ->]]; discriminate).
    cbn [obind]. exact EC. }
  split; [exact EQ|]. split; [|split; [|split; [exact HN|]]].
  - split; [apply proper_N; auto|]. split.
    { intros y Hy. apply HN in Hy as [->|[Hy _]]; [apply HL; right; now left|now apply LL]. }
    split; [exact SC|]. split; [exact Cq|]. intros b Hbb n.
    rewrite (C22_flux R r0 r1 radd rmul is0 SR is0_spec I ieq ieq_spec bs srt Hsrt qns M S Sch da dir L [x; k] A D junk cj q qn0 _ C LL HL Cq ltac:(constructor) PL Hp SA SD NeL ltac:(discriminate) HD FA FD EQ b Hbb n).
    pose proof (isval_add M S Sch _ _ _ _ (isval_self M S Sch q Cq) (isval0 M S)) as [_ K]. rewrite K, Z.add_0_r.
    symmetry. destruct (isval_self M S Sch q Cq) as [_ K2]. apply K2.
  - destruct (offs A) as [|[a o] l] eqn:EA.
    { split; [reflexivity|]. intros _. destruct (offs C) as [|[c o] l] eqn:EO; auto. exfalso.
      assert (Hc : has_block C c) by (unfold has_block; rewrite EO; now left). apply BC in Hc. cbn in Hc. destruct Hc. }
    split; [|discriminate]. 
    assert (Va : valid (map (nblocks bs) L) a). { pose proof (stored_valid bs L A SA) as SV. rewrite EA in SV. inversion SV; subst. auto. }
    destruct (beta_of bs ieq ieq_spec L a (proj1 PL) Va) as (beta & ->).
    assert (Bx : beta x < length (bs x)). { apply inrange_valid in Va. apply (Va x Hx). }
    set (beta' := fun y => if ieq y k then off + beta x else beta y).
    assert (Ba : map beta L = map beta' L).
    { apply map_ext_in. intros y Hy. unfold beta'. rewrite (ieq_neq ieq ieq_spec); auto. congruence. }
    assert (Bk : [beta x; off + beta x] = map beta' [x; k]).
    { unfold beta'. cbn [map]. rewrite (ieq_refl ieq ieq_spec), (ieq_neq ieq ieq_spec) by auto. reflexivity. }
    assert (Hc : has_block C (cblock ieq L [x; k] (map beta L) [beta x; off + beta x])).
    { apply BC. rewrite map_map. apply in_map_iff. exists (mkentry ieq bs L [x; k] (map beta L) [beta x; off + beta x]). split; [reflexivity|].
      apply in_entries. exists (map beta L), [beta x; off + beta x]. split; [now left|]. split; [now apply BD|]. split; [|reflexivity].
      apply matches_iff; auto; [apply PL|apply Hp|apply map_length|]. exists beta'. auto. }
    intros E. unfold has_block in Hc. rewrite E in Hc. destruct Hc.
  - intros s Hs. rewrite VC by exact Hs.
    assert (Hsk : s k < total k) by (apply Hs, HN; auto).
    assert (EP : Permutation (common ieq L [x; k]) [x]).
    { apply NoDup_Permutation; [apply NoDup_filter, PL|constructor; [intros []|constructor]|]. intros y.
      rewrite (in_common ieq ieq_spec). cbn [In]. split.
      - intros [H1 [H2|[H2|[]]]]; auto. subst. contradiction.
      - intros [<-|[]]. auto. }
    rewrite (sum_over_perm r0 r1 radd rmul SR ieq total ieq_spec (common ieq L [x; k]) [x]); auto.
    2:{ intros u v Huv. f_equal; apply qval_eq; apply map_ext; auto. }
    2:{ apply NoDup_filter, PL. }
    cbn [TensorSpec.sum_over].
    assert (EK : forall v, override ieq s x v k = s k). { intros v. unfold override. now rewrite (ieq_neq ieq ieq_spec). }
    assert (EJ : forall v, override ieq s x v x = v). { intros v. unfold override. now rewrite (ieq_refl ieq ieq_spec). }
    transitivity (sumn (total x) (fun v => if s k =? list_sum pre + v then qval L A (override ieq s x v) else r0)).
    { apply sumn_ext. intros v Hv. rewrite VD.
      - rewrite EK, EJ. destruct (s k =? list_sum pre + v); ring.
      - intros y [<-|[<-|[]]]; rewrite ?EK, ?EJ; auto. }
    destruct (Nat.leb_spec (list_sum pre) (s k)) as [Lk|Lk]; cbn [andb].
    + destruct (Nat.ltb_spec (s k) (list_sum pre + total x)) as [Lt|Lt].
      * rewrite <- (sumn_pick r0 r1 radd rmul SR (total x) (s k - list_sum pre) (fun v => qval L A (override ieq s x v))) by lia.
        apply sumn_ext. intros v Hv. destruct (Nat.eqb_spec (s k) (list_sum pre + v)); destruct (Nat.eqb_spec v (s k - list_sum pre)); auto; lia.
      * apply (sumn_zero r0 r1 radd rmul SR). intros v Hv. destruct (Nat.eqb_spec (s k) (list_sum pre + v)); auto; lia.
    + apply (sumn_zero r0 r1 radd rmul SR). intros v Hv. destruct (Nat.eqb_spec (s k) (list_sum pre + v)); auto; lia.
Qed.
End Selector.
End Proofs.
