From Coq Require Import List ZArith Bool Lia.
From Verif Require Import Util SweepsModel.
Import ListNotations.
Local Open Scope Z_scope.

(** ** sweepnext *)
Definition zrange (a : Z) (n : nat) : list Z := map (fun k => a + Z.of_nat k) (seq 0 n).

Lemma zrange_S a n : zrange a (S n) = a :: zrange (a + 1) n.
Proof.
  unfold zrange. simpl. f_equal; [lia|]. rewrite <- seq_shift, map_map. apply map_ext. intros; lia.
Qed.

Lemma in_zrange a n x : In x (zrange a n) <-> a <= x < a + Z.of_nat n.
Proof.
  unfold zrange. rewrite in_map_iff. split.
  - intros (k & <- & Hk). apply in_seq in Hk. lia.
  - intros H. exists (Z.to_nat (x - a)). split; [lia|]. apply in_seq. lia.
Qed.

Lemma zrange_snoc a n : zrange a (S n) = zrange a n ++ [a + Z.of_nat n].
Proof. unfold zrange. rewrite seq_S, map_app. reflexivity. Qed.

Lemma zrange_NoDup a n : NoDup (zrange a n).
Proof.
  revert a. induction n as [|n IH]; intros a; [constructor|]. rewrite zrange_S. constructor; auto.
  rewrite in_zrange. lia.
Qed.

(** second half: from b down to min_b *)
Lemma half2 N nc mb (k : nat) : forall b fuel, b = mb + Z.of_nat k -> (fuel >= k + 3)%nat ->
  exists l, sweep_loop fuel N nc mb (b, 2) = Some l /\ l = map (fun x => (x, 2)) (rev (zrange mb (S k))).
Proof.
  induction k as [|k IH]; intros b fuel Hb Hf.
  - destruct fuel as [|[|fuel]]; try lia. cbn [sweep_loop snd]. 
    replace (2 <=? 2) with true by reflexivity. unfold sweepnext.
    replace (2 =? 1) with false by reflexivity.
    destruct (Z.eqb_spec (b + -1) (mb - 1)); [|lia].
    cbn [snd]. replace (2 + 1 <=? 2) with false by reflexivity.
    eexists; split; [reflexivity|]. simpl. rewrite Hb. reflexivity.
  - destruct fuel as [|fuel]; try lia. cbn [sweep_loop snd].
    replace (2 <=? 2) with true by reflexivity. unfold sweepnext at 1.
    replace (2 =? 1) with false by reflexivity.
    destruct (Z.eqb_spec (b + -1) (mb - 1)); [lia|].
    destruct (IH (b + -1) fuel) as (l & E & El); [lia|lia|]. rewrite E.
    eexists; split; [reflexivity|]. rewrite (zrange_snoc mb (S k)), rev_app_distr. simpl rev at 1. simpl map at 1.
    cbn [app map]. f_equal; [f_equal; lia|auto].
Qed.

Lemma half1 N nc mb (m : nat) (k : nat) : forall b fuel,
  N + 1 - nc = mb + Z.of_nat m -> b + Z.of_nat k = N + 1 - nc -> b >= mb -> (fuel >= k + m + 4)%nat ->
  exists l, sweep_loop fuel N nc mb (b, 1) = Some l /\
    l = map (fun x => (x, 1)) (zrange b (S k)) ++ map (fun x => (x, 2)) (rev (zrange mb (S m))).
Proof.
  induction k as [|k IH]; intros b fuel Hm Hb Hge Hf.
  - destruct fuel as [|fuel]; try lia. cbn [sweep_loop snd].
    replace (1 <=? 2) with true by reflexivity. unfold sweepnext at 1.
    replace (1 =? 1) with true by reflexivity.
    destruct (Z.eqb_spec (b + 1) (N + 2 - nc)); [|lia].
    replace (b + 1 - 1) with b by lia. replace (1 + 1) with 2 by lia.
    destruct (half2 N nc mb m b fuel) as (l & E & El); [lia|lia|]. rewrite E.
    eexists; split; [reflexivity|]. rewrite El. rewrite (zrange_S b 0). reflexivity.
  - destruct fuel as [|fuel]; try lia. cbn [sweep_loop snd].
    replace (1 <=? 2) with true by reflexivity. unfold sweepnext at 1.
    replace (1 =? 1) with true by reflexivity.
    destruct (Z.eqb_spec (b + 1) (N + 2 - nc)); [lia|].
    destruct (IH (b + 1) fuel) as (l & E & El); [lia|lia|lia|lia|]. rewrite E.
    eexists; split; [reflexivity|]. rewrite El. rewrite (zrange_S b (S k)). reflexivity.
Qed.

Lemma sweep_diverges N nc mb fuel : forall b, N + 2 - nc <= b -> sweep_loop fuel N nc mb (b, 1) = None.
Proof.
  induction fuel as [|fuel IH]; intros b Hb; auto. cbn [sweep_loop snd].
  replace (1 <=? 2) with true by reflexivity. unfold sweepnext.
  replace (1 =? 1) with true by reflexivity.
  destruct (Z.eqb_spec (b + 1) (N + 2 - nc)); [lia|]. rewrite IH by lia. reflexivity.
Qed.

(** ** periodicWrap *)
Lemma wrap_up_spec N (k : nat) : 1 <= N -> forall j, j < 1 -> Z.of_nat k = - ((j - 1) / N) ->
  forall fuel, (fuel > k)%nat -> wrap_up fuel j N = Some ((j - 1) mod N + 1).
Proof.
  intros HN. induction k as [|k IH]; intros j Hj Hk fuel Hf.
  - exfalso. assert ((j - 1) / N < 0) by (apply Z.div_lt_upper_bound; lia). lia.
  - destruct fuel as [|fuel]; [lia|]. cbn [wrap_up]. destruct (Z.ltb_spec j 1); [|lia].
    assert (E : (j + N - 1) / N = (j - 1) / N + 1).
    { replace (j + N - 1) with ((j - 1) + 1 * N) by lia. rewrite Z.div_add by lia. reflexivity. }
    assert (M : (j + N - 1) mod N = (j - 1) mod N).
    { replace (j + N - 1) with ((j - 1) + 1 * N) by lia. apply Z.mod_add. lia. }
    destruct (Z.ltb_spec (j + N) 1).
    + rewrite <- M. apply IH; lia.
    + destruct fuel as [|fuel].
      * assert (k = 0%nat) by lia. subst. exfalso. assert (0 <= (j + N - 1) / N) by (apply Z.div_pos; lia). lia.
      * cbn [wrap_up]. destruct (Z.ltb_spec (j + N) 1); [lia|]. f_equal.
        rewrite <- M. rewrite Z.mod_small by lia. lia.
Qed.

Lemma wrap_down_spec N (k : nat) : 1 <= N -> forall j, 1 <= j -> Z.of_nat k = (j - 1) / N ->
  forall fuel, (fuel > k)%nat -> wrap_down fuel j N = Some ((j - 1) mod N + 1).
Proof.
  intros HN. induction k as [|k IH]; intros j Hj Hk fuel Hf; (destruct fuel as [|fuel]; [lia|]); cbn [wrap_down].
  - assert (j <= N). { pose proof (Z.div_mod (j - 1) N ltac:(lia)). pose proof (Z.mod_pos_bound (j - 1) N ltac:(lia)). nia. }
    destruct (Z.ltb_spec N j); [lia|]. rewrite Z.mod_small by lia. f_equal. lia.
  - assert (N < j).
    { destruct (Z_lt_le_dec N j); auto. rewrite Z.div_small in Hk by lia. lia. }
    destruct (Z.ltb_spec N j); [|lia].
    assert (E : (j - N - 1) / N = (j - 1) / N - 1).
    { replace (j - N - 1) with ((j - 1) + (-1) * N) by lia. rewrite Z.div_add by lia. lia. }
    assert (M : (j - N - 1) mod N = (j - 1) mod N).
    { replace (j - N - 1) with ((j - 1) + (-1) * N) by lia. apply Z.mod_add. lia. }
    rewrite <- M. apply IH; lia.
Qed.

Lemma wrap_up_stuck fuel : forall j, j < 1 -> wrap_up fuel j 0 = None.
Proof.
  induction fuel as [|fuel IH]; intros j Hj; auto. cbn [wrap_up].
  destruct (Z.ltb_spec j 1); [|lia]. apply IH. lia.
Qed.

(** ** SweepSetter *)
Section Setter.
Context {T : Type}.
Variable d : T.

(** after [len l] values: positions 1..len l hold l (cut at the end of v) *)
Lemma upd_len {A} n (x : A) l : length (upd n x l) = length l.
Proof. apply upd_length. Qed.

(** Invariant: v0 original vector, w the values written so far (all of them, including the
    ignored ones beyond the end) *)
Definition Inv (v0 : list T) (w : list T) (s : setter T) : Prop :=
  length (sv s) = length v0 /\
  sj s = 1 + Z.min (Z.of_nat (length w)) (nsweep_of v0) /\
  (forall i, (1 <= i < length v0)%nat -> (i <= length w)%nat -> nth i (sv s) d = nth (i - 1) w d) /\
  (forall i, (i = 0 \/ i > length w)%nat -> nth i (sv s) d = nth i v0 d) /\
  (Z.of_nat (length w) <= nsweep_of v0 -> w <> [] -> slast s = last w d).

Lemma Inv_val v0 w s x : (2 <= length v0)%nat -> Inv v0 w s ->
  Inv v0 (w ++ [x]) (set_val s x).
Proof.
  intros H2 (HL & HJ & H1 & H0 & HS). unfold nsweep_of in *. unfold set_val, nsweep_of. rewrite HL.
  destruct (Z.ltb_spec (Z.of_nat (length v0) - 1) (sj s)) as [Hlt|Hge].
  - assert (Hw : Z.of_nat (length v0) - 1 <= Z.of_nat (length w)) by lia.
    unfold Inv, nsweep_of. rewrite app_length. simpl length. repeat split; auto; try lia.
    + intros i Hi Hiw. rewrite app_nth1 by lia. apply H1; lia.
    + intros i Hi. apply H0. lia.
  - assert (Hw : Z.of_nat (length w) < Z.of_nat (length v0) - 1) by lia.
    assert (Hj : Z.to_nat (sj s) = S (length w)) by lia.
    unfold Inv, nsweep_of; cbn [sv sj slast]. unfold vset. rewrite upd_length, app_length, Hj. simpl length.
    repeat split; auto; try lia.
    + intros i Hi Hiw. destruct (Nat.eq_dec i (S (length w))) as [->|Hne].
      * rewrite nth_upd_eq by lia. rewrite app_nth2 by lia. replace (S (length w) - 1 - length w)%nat with 0%nat by lia. reflexivity.
      * rewrite nth_upd_neq by lia. rewrite app_nth1 by lia. apply H1; lia.
    + intros i Hi. rewrite nth_upd_neq by lia. apply H0; lia.
    + intros _ _. now rewrite last_last.
Qed.

Lemma Inv_repeat v0 k : forall w s, (2 <= length v0)%nat -> w <> [] -> Inv v0 w s ->
  Inv v0 (w ++ repeat (last w d) k) (repeat_loop k s).
Proof.
  induction k as [|k IH]; intros w s H2 Hne HI; [simpl; rewrite app_nil_r; auto|].
  pose proof HI as (HL & HJ & H1 & H0 & HS). cbn [repeat_loop].
  destruct (Z.ltb_spec (nsweep_of (sv s)) (sj s)) as [Hlt|Hge].
  - unfold nsweep_of in *. rewrite HL in Hlt.
    unfold Inv, nsweep_of. rewrite app_length, repeat_length. repeat split; auto; try lia.
    + intros i Hi Hiw. rewrite app_nth1 by lia. apply H1; lia.
    + intros i Hi. apply H0. lia.
  - assert (Hw : Z.of_nat (length w) <= nsweep_of v0) by (unfold nsweep_of in *; rewrite HL in Hge; lia).
    rewrite (HS Hw Hne).
    assert (E : mkSetter (vset (sv s) (sj s) (last w d)) (sj s + 1) (last w d) = set_val s (last w d)).
    { unfold set_val. destruct (Z.ltb_spec (nsweep_of (sv s)) (sj s)); [lia|]. reflexivity. }
    rewrite E. pose proof (Inv_val v0 w s (last w d) H2 HI) as HI'.
    specialize (IH (w ++ [last w d]) _ H2 ltac:(destruct w; discriminate) HI').
    rewrite last_last, <- app_assoc in IH. exact IH.
Qed.

Lemma Inv_new (v : list T) : (2 <= length v)%nat ->
  exists s, setter_new v = Ok s /\ Inv v [] s.
Proof.
  intros H2. unfold setter_new, oget. destruct (nth_error v 1) eqn:E.
  - eexists. split; [reflexivity|]. unfold Inv, nsweep_of; cbn [sv sj slast length]. repeat split; auto; try lia; try (intros; lia); try congruence.
  - apply nth_error_None in E. lia.
Qed.

(** filling loop *)
Lemma func_loop_spec (f : Z -> Z -> T) k : forall s,
  1 <= sj s -> (Z.of_nat k >= nsweep_of (sv s) - sj s + 1) ->
  let s' := func_loop k f s in
  length (sv s') = length (sv s) /\
  (forall i, (i < length (sv s))%nat ->
     nth i (sv s') d = if Z.of_nat i <? sj s then nth i (sv s) d else f (Z.of_nat i) (nsweep_of (sv s))) /\
  sj s' = Z.max (sj s) (nsweep_of (sv s) + 1).
Proof.
  induction k as [|k IH]; intros s Hj Hk; cbn [func_loop]; cbv zeta.
  - split; [auto|split].
    + intros i Hi. unfold nsweep_of in *. destruct (Z.ltb_spec (Z.of_nat i) (sj s)); auto. lia.
    + lia.
  - destruct (Z.leb_spec (sj s) (nsweep_of (sv s))) as [Hle|Hgt].
    + set (s1 := mkSetter (vset (sv s) (sj s) (f (sj s) (nsweep_of (sv s)))) (sj s + 1) (slast s)).
      assert (HL1 : length (sv s1) = length (sv s)) by (unfold s1, vset; simpl; apply upd_length).
      assert (HN1 : nsweep_of (sv s1) = nsweep_of (sv s)) by (unfold nsweep_of; now rewrite HL1).
      destruct (IH s1) as (A & B & C); [simpl; lia|rewrite HN1; simpl; lia|].
      rewrite HN1, HL1 in *. split; [auto|split].
      * intros i Hi. rewrite B by auto. unfold s1 at 1 2; cbn [sj sv].
        destruct (Z.ltb_spec (Z.of_nat i) (sj s + 1)), (Z.ltb_spec (Z.of_nat i) (sj s)); try lia; auto.
        -- unfold vset. rewrite nth_upd_neq by lia. reflexivity.
        -- assert (Z.of_nat i = sj s) by lia. unfold vset. replace (Z.to_nat (sj s)) with i by lia.
           rewrite nth_upd_eq by lia. now f_equal.
      * rewrite C. simpl. lia.
    + split; [auto|split].
      * intros i Hi. unfold nsweep_of in *. destruct (Z.ltb_spec (Z.of_nat i) (sj s)); auto. lia.
      * lia.
Qed.

Lemma last_nth' (l : list T) : l <> [] -> last l d = nth (length l - 1) l d.
Proof.
  intros H. destruct (exists_last H) as (l' & x & ->). rewrite last_last, app_length. simpl.
  rewrite app_nth2 by lia. replace (length l' + 1 - 1 - length l')%nat with 0%nat by lia. reflexivity.
Qed.

(** the destructor *)
Lemma finish_spec v0 w s i : (2 <= length v0)%nat -> w <> [] -> Inv v0 w s -> (1 <= i < length v0)%nat ->
  length (setter_finish s) = length v0 /\
  nth 0 (setter_finish s) d = nth 0 v0 d /\
  nth i (setter_finish s) d = nth (Nat.min i (length w) - 1) w d.
Proof.
  intros H2 Hne (HL & HJ & H1 & H0 & HS) Hi. unfold setter_finish. unfold nsweep_of in HJ.
  destruct (func_loop_spec (fun _ _ => slast s) (length (sv s)) s) as (A & B & C); [lia|unfold nsweep_of; lia|].
  rewrite HL in *. split; [auto|split].
  - rewrite B by lia. destruct (Z.ltb_spec (Z.of_nat 0) (sj s)); [|lia]. apply H0. auto.
  - rewrite B by lia. destruct (Z.ltb_spec (Z.of_nat i) (sj s)).
    + rewrite H1 by lia. f_equal. lia.
    + rewrite HS; auto; [|unfold nsweep_of; lia]. rewrite last_nth' by auto. f_equal. lia.
Qed.
End Setter.

(** ** tableInit *)
Lemma table_fill_spec x k : forall i v, (i + k <= length v)%nat ->
  length (table_fill i k x v) = length v /\
  forall j, (j < length v)%nat -> nth j (table_fill i k x v) (0, 0) =
    if ((i <=? j) && (j <? i + k))%nat%bool then x else nth j v (0, 0).
Proof.
  induction k as [|k IH]; intros i v Hl; simpl.
  - split; auto. intros j Hj. destruct (Nat.leb_spec i j), (Nat.ltb_spec j (i + 0)); simpl; auto; lia.
  - destruct (IH (S i) (upd i x v)) as [A B]; [rewrite upd_length; lia|]. rewrite upd_length in *.
    split; auto. intros j Hj. rewrite B by auto.
    destruct (Nat.eq_dec j i) as [->|Hne].
    + rewrite nth_upd_eq by lia. destruct (Nat.leb_spec (S i) i), (Nat.leb_spec i i), (Nat.ltb_spec i (i + S k)); simpl; auto; lia.
    + rewrite nth_upd_neq by lia.
      destruct (Nat.leb_spec (S i) j), (Nat.ltb_spec j (S i + k)), (Nat.leb_spec i j), (Nat.ltb_spec j (i + S k)); simpl; auto; lia.
Qed.

(** rows before the first one with maxdim 0 *)
Fixpoint good_rows (rows : list (Z * Z)) : list (Z * Z) :=
  match rows with
  | [] => []
  | r :: t => if fst r =? 0 then [] else r :: good_rows t
  end.

Lemma table_read_spec n : forall i rows v, (1 <= i)%nat -> (i + n <= length v)%nat ->
  exists v', table_read i rows n v = ((i - 1) + Nat.min n (length (good_rows rows)), v')%nat /\
    length v' = length v /\
    (forall j, (j < i)%nat -> nth j v' (0, 0) = nth j v (0, 0)) /\
    (forall j, (i <= j < i + Nat.min n (length (good_rows rows)))%nat -> nth j v' (0, 0) = nth (j - i) (good_rows rows) (0, 0)).
Proof.
  induction n as [|n IH]; intros i rows v Hi Hl; simpl.
  - exists v. rewrite Nat.add_0_r. repeat split; auto. intros j Hj; lia.
  - destruct rows as [|r rows]; simpl.
    + exists v. rewrite Nat.add_0_r. repeat split; auto. intros j Hj; lia.
    + destruct (fst r =? 0) eqn:E; simpl.
      * exists (upd i r v). rewrite Nat.add_0_r, upd_length. repeat split; auto; [|intros j Hj; lia].
        intros j Hj. rewrite nth_upd_neq by lia. reflexivity.
      * destruct (IH (S i) rows (upd i r v)) as (v' & E' & L' & A & B); [lia|rewrite upd_length; lia|].
        exists v'. rewrite E', upd_length in *. split; [f_equal; lia|]. split; [auto|]. split.
        -- intros j Hj. rewrite A by lia. rewrite nth_upd_neq by lia. reflexivity.
        -- intros j Hj. destruct (Nat.eq_dec j i) as [->|].
           ++ rewrite A by lia. rewrite nth_upd_eq by lia. rewrite Nat.sub_diag. reflexivity.
           ++ rewrite B by lia. replace (j - i)%nat with (S (j - S i)) by lia. reflexivity.
Qed.

Lemma tableInit_spec nsweep rows i : (1 <= i <= nsweep)%nat -> good_rows rows <> [] ->
  nth i (tableInit nsweep rows) (0, 0) = nth (Nat.min i (length (good_rows rows)) - 1) (good_rows rows) (0, 0).
Proof.
  intros Hi Hne. unfold tableInit.
  destruct (table_read_spec nsweep 1 rows (repeat (0, 0) (nsweep + 1))) as (v' & E & L & A & B); [lia|rewrite repeat_length; lia|].
  rewrite E. rewrite repeat_length in L. set (g := good_rows rows) in *. simpl (1 - 1 + _)%nat.
  assert (Hg : (1 <= length g)%nat) by (destruct g; [congruence|simpl; lia]).
  set (m := Nat.min nsweep (length g)) in *.
  destruct (table_fill_spec (nth m v' (0, 0)) (nsweep - m) (m + 1) v') as [_ F]; [lia|].
  rewrite F by lia. destruct (Nat.leb_spec (m + 1) i), (Nat.ltb_spec i (m + 1 + (nsweep - m))); cbn [andb]; try lia.
  - rewrite B by lia. f_equal. lia.
  - rewrite B by lia. f_equal. lia.
Qed.
