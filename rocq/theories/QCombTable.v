(** The table of a combiner with quantum numbers: which part of which block of the combined index
    every combination of blocks is given. *)
From Coq Require Import List ZArith Lia Bool Arith Permutation Sorted.
From Verif Require Import Util RangeModel RangeSpec RangeProofs TensorModel TensorSpec TensorProofs SemProofs
  ContractModel DenseModel SmallStringModel QnModel QnSpec QnProofs QdModel QdSpec QdProofs QdFlux QdAdd ProductProps CombinerModel QCombModel.
Import ListNotations.
Open Scope outcome_scope.
Local Arguments Nat.sub : simpl never.

Lemma nth_upd {A} (i j : nat) (x : A) l d : i < length l -> nth j (upd i x l) d = if j =? i then x else nth j l d.
Proof.
  revert i j. induction l as [|y l IH]; intros [|i] [|j] H; cbn in *; auto; try lia. apply IH. lia.
Qed.

Section Table.
Context {I : Type} (bs : I -> list nat) (qns : I -> list QN) (dir : I -> Arrow) (cdir : Arrow).
Context (M : SmallString -> Z) (S : list SmallString).
Hypothesis Sch : Scheme M S.
Notation nblocks := (nblocks bs).
Notation sz := (sz bs).
Notation isval := (isval M S).
Notation flux_val := (flux_val qns dir).
Notation labelled := (labelled bs qns M S).

(** The charge the combined index gives a combination of blocks. *)
Definition cflux (cs : list I) (b : list nat) (n : SmallString) : Z := (flux_val cs b n * arrow_int cdir)%Z.

Lemma sector_qn_val : forall cs b, labelled cs -> valid (map nblocks cs) b -> forall q f, isval q f ->
  exists q', sector_qn qns dir cdir q cs b = Ok q' /\ isval q' (fun n => (f n + cflux cs b n)%Z).
Proof.
  induction cs as [|x cs IH]; intros b HL V q f Hq; inversion V as [|? i ? b' Hi V']; subst; cbn [sector_qn].
  - exists q. split; auto. eapply isval_ext; [exact Hq|]. intros; unfold cflux; cbn [QdFlux.flux_val]; ring.
  - destruct (HL x (or_introl eq_refl)) as [L C]. unfold QdSpec.nblocks in Hi. rewrite (oget_ok qn0) by lia. cbn [obind].
    rewrite Forall_forall in C. assert (Cq : Charges M S (nth i (qns x) qn0)) by (apply C, nth_In; lia).
    destruct (IH b' ltac:(intros y Hy; apply HL; right; exact Hy) V' _ _
      (isval_add M S Sch _ _ _ _ Hq (isval_mul M S Sch _ _ cdir (isval_mul M S Sch _ _ (dir x) (isval_self M S Sch _ Cq))))) as (q' & E & H).
    exists q'. split; [exact E|]. eapply isval_ext; [exact H|]. intros n. unfold cflux. cbn. ring.
Qed.
Lemma sector_size_spec : forall cs b m, valid (map nblocks cs) b -> sector_size bs m cs b = Ok (m * sz cs b).
Proof.
  induction cs as [|x cs IH]; intros b m V; inversion V as [|? i ? b' Hi V']; subst; cbn [sector_size QdSpec.sz].
  - f_equal. lia.
  - unfold QdSpec.nblocks in Hi. rewrite (oget_ok 0) by lia. cbn [obind]. rewrite IH by auto. f_equal. lia.
Qed.
Lemma find_sector_le q : forall qms, find_sector q qms <= length qms.
Proof. induction qms as [|x l IH]; cbn; auto. destruct (qn_eqb (fst x) q); lia. Qed.
Lemma find_sector_eq q : forall qms, find_sector q qms < length qms -> qn_eqb (fst (nth (find_sector q qms) qms (qn0, 0))) q = true.
Proof. induction qms as [|x l IH]; cbn; intros H; [lia|]. destruct (qn_eqb (fst x) q) eqn:E; auto. apply IH. lia. Qed.
Lemma find_sector_ne q : forall qms j, j < find_sector q qms -> qn_eqb (fst (nth j qms (qn0, 0))) q = false.
Proof. induction qms as [|x l IH]; cbn; intros j H; [lia|]. destruct (qn_eqb (fst x) q) eqn:E; [lia|]. destruct j; auto. apply IH. lia. Qed.

Definition tblk (tab : list brange) (k : nat) : nat := fst (fst (nth k tab (0, 0, 0))).
Definition tst (tab : list brange) (k : nat) : nat := snd (fst (nth k tab (0, 0, 0))).
Definition tex (tab : list brange) (k : nat) : nat := snd (nth k tab (0, 0, 0)).

(** After the first j combinations of blocks. *)
Definition tinv (cs : list I) (j : nat) (qms : list (QN * nat)) (tab : list brange) : Prop :=
  let e := map nblocks cs in
  (forall k, k < j -> tblk tab k < length qms /\ tex tab k = sz cs (decode e k) /\
     tst tab k + tex tab k <= snd (nth (tblk tab k) qms (qn0, 0)) /\
     isval (fst (nth (tblk tab k) qms (qn0, 0))) (cflux cs (decode e k))) /\
  (forall k k', k < k' -> k' < j -> tblk tab k = tblk tab k' -> tst tab k + tex tab k <= tst tab k') /\
  (forall n p, n < length qms -> p < snd (nth n qms (qn0, 0)) -> exists k, k < j /\ tblk tab k = n /\ tst tab k <= p < tst tab k + tex tab k) /\
  (forall n n', n < n' -> n' < length qms -> qn_eqb (fst (nth n qms (qn0, 0))) (fst (nth n' qms (qn0, 0))) = false) /\
  (forall n, n < length qms -> Charges M S (fst (nth n qms (qn0, 0)))) /\
  (forall n, n < length qms -> exists k, k < j /\ tblk tab k = n).

Lemma entry_upd tab j v k : j < length tab ->
  nth k (upd j v tab) (0, 0, 0) = if k =? j then v else nth k tab (0, 0, 0).
Proof. intros. now apply nth_upd. Qed.

Lemma build_loop_spec cs : labelled cs -> let e := map nblocks cs in
  forall r j qms tab, j + r = size e -> length tab = size e -> tinv cs j qms tab ->
  exists qms' tab', build_loop bs qns dir cdir cs (map (fun k => (decode e k, k)) (seq j r)) qms tab = Ok (qms', tab') /\
    length tab' = size e /\ tinv cs (size e) qms' tab'.
Proof.
  intros HL e. induction r as [|r IH]; intros j qms tab Hj LT INV.
  - cbn [seq map build_loop]. exists qms, tab. replace (size e) with j in * by lia. auto.
  - cbn [seq map build_loop]. assert (Hjs : j < size e) by lia. assert (LJ : j < length tab) by lia.
    assert (V : valid (map nblocks cs) (decode e j)) by (apply decode_valid; exact Hjs).
    destruct (sector_qn_val cs (decode e j) HL V qn0 _ (isval0 M S)) as (q & Eq & Hq). rewrite Eq. cbn [obind].
    assert (Hq' : isval q (cflux cs (decode e j))) by (eapply isval_ext; [exact Hq|intros; ring]). clear Hq.
    rewrite sector_size_spec by exact V. cbn [obind]. rewrite Nat.mul_1_l. set (m := sz cs (decode e j)) in *.
    destruct INV as (I1 & I2 & I3 & I4 & I5 & I6). fold e in I1, I2, I3, I4.
    assert (AS : forall v, at_set j v tab = Ok (upd j v tab)).
    { intros v. unfold at_set. destruct (Nat.ltb_spec j (length tab)); [reflexivity|lia]. }
    set (n := find_sector q qms) in *. destruct (Nat.ltb_spec n (length qms)) as [Hn|Hn].
    + rewrite (oget_ok (qn0, 0)) by exact Hn. cbn [obind]. rewrite AS. cbn [obind]. rewrite oupd_ok by exact Hn. cbn [obind].
      set (x := nth n qms (qn0, 0)) in *. set (tab' := upd j (n, snd x, m) tab). set (qms' := upd n (fst x, snd x + m) qms).
      assert (LQ : length qms' = length qms) by (unfold qms'; apply upd_length).
      assert (NQ : forall i, nth i qms' (qn0, 0) = if i =? n then (fst x, snd x + m) else nth i qms (qn0, 0)) by (intros i; apply nth_upd; exact Hn).
      assert (F1 : forall i, fst (nth i qms' (qn0, 0)) = fst (nth i qms (qn0, 0))).
      { intros i. rewrite NQ. destruct (Nat.eqb_spec i n) as [->|]; reflexivity. }
      assert (TB : forall k, k <> j -> nth k tab' (0, 0, 0) = nth k tab (0, 0, 0)).
      { intros k Hk. unfold tab'. rewrite entry_upd by exact LJ. destruct (Nat.eqb_spec k j); [congruence|reflexivity]. }
      assert (TJ : nth j tab' (0, 0, 0) = (n, snd x, m)) by (unfold tab'; rewrite entry_upd by exact LJ; rewrite Nat.eqb_refl; reflexivity).
      assert (B : forall k, k <> j -> tblk tab' k = tblk tab k /\ tst tab' k = tst tab k /\ tex tab' k = tex tab k).
      { intros k Hk. unfold tblk, tst, tex. rewrite TB by exact Hk. auto. }
      assert (BJ : tblk tab' j = n /\ tst tab' j = snd x /\ tex tab' j = m) by (unfold tblk, tst, tex; rewrite TJ; auto).
      apply (IH (Datatypes.S j) qms' tab'); [lia|unfold tab'; rewrite upd_length; exact LT|].
      destruct BJ as (BJ1 & BJ2 & BJ3). split; [|split; [|split; [|split; [|split]]]].
      * intros k Hk. destruct (Nat.eq_dec k j) as [->|Ne].
        -- fold e m. rewrite BJ1, BJ2, BJ3, F1, NQ, Nat.eqb_refl, LQ. cbn [snd fst]. split; [exact Hn|]. split; [reflexivity|]. split; [lia|].
           fold x. destruct Hq' as [CQ KQ]. pose proof (find_sector_eq q qms Hn) as EQ. fold n x in EQ.
           pose proof (proj1 (qn_eqb_iff M S (fst x) q Sch (I5 n Hn) CQ) EQ) as EQ'. split; [apply I5; exact Hn|]. intros t. rewrite EQ'. apply KQ.
        -- destruct (B k Ne) as (-> & -> & ->). destruct (I1 k ltac:(lia)) as (K1 & K2 & K3 & K4). rewrite LQ, F1. split; [exact K1|]. split; [exact K2|]. split; [|exact K4].
           rewrite NQ. destruct (Nat.eqb_spec (tblk tab k) n) as [Q|Q]; [|exact K3]. cbn [snd]. rewrite Q in K3. fold x in K3. lia.
      * intros k k' Hk Hk' E. destruct (Nat.eq_dec k' j) as [->|Ne].
        -- destruct (B k ltac:(lia)) as (B1 & B2 & B3). rewrite B1 in E. rewrite B2, B3, BJ2. rewrite BJ1 in E.
           destruct (I1 k ltac:(lia)) as (_ & _ & K3 & _). rewrite E in K3. exact K3.
        -- destruct (B k ltac:(lia)) as (B1 & B2 & B3). destruct (B k' Ne) as (B1' & B2' & B3'). rewrite B1, B1' in E. rewrite B2, B3, B2'. apply I2; auto. lia.
      * intros i p Hi Hp. rewrite LQ in Hi. rewrite NQ in Hp. destruct (Nat.eqb_spec i n) as [Q|Ne].
        -- subst i. cbn [snd] in Hp. destruct (Nat.lt_ge_cases p (snd x)) as [C|C].
           ++ destruct (I3 n p Hi C) as (k & K1 & K2 & K3). exists k. destruct (B k ltac:(lia)) as (-> & -> & ->). split; [lia|]. auto.
           ++ exists j. rewrite BJ1, BJ2, BJ3. split; [lia|]. split; [reflexivity|]. lia.
        -- destruct (I3 i p Hi Hp) as (k & K1 & K2 & K3). exists k. destruct (B k ltac:(lia)) as (-> & -> & ->). split; [lia|]. auto.
      * intros i i' Hi Hi'. rewrite LQ in Hi'. rewrite !F1. apply I4; auto.
      * intros i Hi. rewrite F1. apply I5. lia.
      * intros i Hi. rewrite LQ in Hi. destruct (I6 i Hi) as (k & K1 & K2). exists k. split; [lia|]. destruct (B k ltac:(lia)) as (-> & _). exact K2.
    + assert (En : n = length qms) by (pose proof (find_sector_le q qms); unfold n in *; lia).
      rewrite AS. cbn [obind]. set (tab' := upd j (n, 0, m) tab). set (qms' := qms ++ [(q, m)]).
      assert (LQ : length qms' = Datatypes.S (length qms)) by (unfold qms'; rewrite app_length; cbn; lia).
      assert (NQ : forall i, i < length qms -> nth i qms' (qn0, 0) = nth i qms (qn0, 0)) by (intros i Hi; unfold qms'; now rewrite app_nth1).
      assert (NN : nth n qms' (qn0, 0) = (q, m)) by (unfold qms'; rewrite app_nth2 by lia; replace (n - length qms) with 0 by lia; reflexivity).
      assert (TB : forall k, k <> j -> nth k tab' (0, 0, 0) = nth k tab (0, 0, 0)).
      { intros k Hk. unfold tab'. rewrite entry_upd by exact LJ. destruct (Nat.eqb_spec k j); [congruence|reflexivity]. }
      assert (TJ : nth j tab' (0, 0, 0) = (n, 0, m)) by (unfold tab'; rewrite entry_upd by exact LJ; rewrite Nat.eqb_refl; reflexivity).
      assert (B : forall k, k <> j -> tblk tab' k = tblk tab k /\ tst tab' k = tst tab k /\ tex tab' k = tex tab k).
      { intros k Hk. unfold tblk, tst, tex. rewrite TB by exact Hk. auto. }
      assert (BJ : tblk tab' j = n /\ tst tab' j = 0 /\ tex tab' j = m) by (unfold tblk, tst, tex; rewrite TJ; auto).
      apply (IH (Datatypes.S j) qms' tab'); [lia|unfold tab'; rewrite upd_length; exact LT|].
      destruct BJ as (BJ1 & BJ2 & BJ3). split; [|split; [|split; [|split; [|split]]]].
      * intros k Hk. destruct (Nat.eq_dec k j) as [->|Ne].
        -- fold e m. rewrite BJ1, BJ2, BJ3, NN, LQ. cbn [snd fst]. split; [lia|]. split; [reflexivity|]. split; [lia|exact Hq'].
        -- destruct (B k Ne) as (-> & -> & ->). destruct (I1 k ltac:(lia)) as (K1 & K2 & K3 & K4). rewrite LQ, NQ by exact K1. split; [lia|]. auto.
      * intros k k' Hk Hk' E. destruct (Nat.eq_dec k' j) as [->|Ne].
        -- destruct (B k ltac:(lia)) as (B1 & B2 & B3). rewrite B1, BJ1 in E. destruct (I1 k ltac:(lia)) as (K1 & _). lia.
        -- destruct (B k ltac:(lia)) as (B1 & B2 & B3). destruct (B k' Ne) as (B1' & B2' & B3'). rewrite B1, B1' in E. rewrite B2, B3, B2'. apply I2; auto. lia.
      * intros i p Hi Hp. destruct (Nat.eq_dec i n) as [Q|Ne].
        -- subst i. rewrite NN in Hp. cbn [snd] in Hp. exists j. rewrite BJ1, BJ2, BJ3. split; [lia|]. split; [reflexivity|]. lia.
        -- rewrite NQ in Hp by lia. destruct (I3 i p ltac:(lia) Hp) as (k & K1 & K2 & K3). exists k. destruct (B k ltac:(lia)) as (-> & -> & ->). split; [lia|]. auto.
      * intros i i' Hi Hi'. destruct (Nat.eq_dec i' n) as [Q|Ne].
        -- subst i'. rewrite NN, NQ by lia. cbn [fst]. apply find_sector_ne. fold n. exact Hi.
        -- rewrite !NQ by lia. apply I4; lia.
      * intros i Hi. destruct (Nat.eq_dec i n) as [Q|Ne]; [rewrite Q, NN; apply Hq'|]. rewrite NQ by lia. apply I5. lia.
      * intros i Hi. destruct (Nat.eq_dec i n) as [Q|Ne]; [exists j; split; [lia|congruence]|]. destruct (I6 i ltac:(lia)) as (k & K1 & K2). exists k. split; [lia|].
        destruct (B k ltac:(lia)) as (-> & _). exact K2.
Qed.

Lemma loop_exact cs : cs <> [] -> (forall x, In x cs -> bs x <> []) ->
  let rg := range_init (map (fun x => length (bs x)) cs) in let e := map nblocks cs in
  riter_loop (Datatypes.S (dim rg)) 0 rg (riter_begin 0 rg) = Ok (Some (map (fun k => (decode e k, k)) (seq 0 (size e)))) /\ dim rg = size e.
Proof.
  intros Hn Hp rg e.
  assert (EX : map ext rg = e) by (unfold rg, range_init, e; apply map_ext_range_init).
  assert (Hpos : forall d, In d e -> 0 < d).
  { intros d Hd. apply in_map_iff in Hd as (x & <- & Hx). specialize (Hp x Hx). unfold QdSpec.nblocks. destruct (bs x); [congruence|cbn; lia]. }
  assert (Hr : rg <> []).
  { intros Q. apply (f_equal (map ext)) in Q. rewrite EX in Q. destruct cs; [congruence|discriminate]. }
  pose proof (size_pos e Hpos) as HS.
  pose proof (riter_loop_spec 0 rg Hr (size e) 0) as E. cbv zeta in E. rewrite EX in E. specialize (E ltac:(lia) HS).
  rewrite decode_zero in E by auto. rewrite dot_repeat0, shift_repeat0 in E.
  assert (LE : length e = length rg) by (rewrite <- EX, map_length; reflexivity). rewrite LE in E.
  rewrite dim_size, EX. split; [|reflexivity]. unfold riter_begin. rewrite E. do 2 f_equal. apply map_ext_in. intros k Hk. apply in_seq in Hk.
  f_equal.
  - unfold shift. rewrite <- map_id. apply map_ext. intros; lia.
  - unfold rg. change (map (fun x => length (bs x)) cs) with e. rewrite dot_range_init by apply decode_length. apply enc_decode. lia.
Qed.

Theorem qcombiner_spec cs : cs <> [] -> (forall x, In x cs -> bs x <> []) -> labelled cs ->
  exists qms tab, qcombiner bs qns dir cdir cs = Ok (qms, tab) /\ length tab = size (map nblocks cs) /\ tinv cs (size (map nblocks cs)) qms tab.
Proof.
  intros Hn Hp HL. destruct (loop_exact cs Hn Hp) as [E ED]. cbv zeta in E, ED. unfold qcombiner.
  destruct cs as [|x cs]; [congruence|]. remember (x :: cs) as cs' eqn:Ecs. rewrite E. cbn [obind]. rewrite ED.
  apply (build_loop_spec cs' HL (size (map nblocks cs')) 0); [lia|apply repeat_length|].
  split; [intros; lia|]. split; [intros; lia|]. split; [cbn; intros; lia|]. split; [cbn; intros; lia|]. split; cbn; intros; lia.
Qed.
End Table.
