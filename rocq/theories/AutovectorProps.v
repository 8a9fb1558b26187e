(** Property C29: autovector is a total map. *)
From Coq Require Import List ZArith Bool Lia.
From Verif Require Import Util AutovectorModel AutovectorProofs.
Import ListNotations.
Local Open Scope Z_scope.

(** A program's use of one autovector: writes and clears. *)
Inductive av_op (T : Type) := Write (i : Z) (x : T) | Clear.
Arguments Write {T}. Arguments Clear {T}.
Definition run_av {T} (d : T) (v : AV T) (op : av_op T) : outcome (AV T) :=
  match op with Write i x => av_set d v i x | Clear => Ok (av_clear v) end.
Fixpoint run_avs {T} (d : T) (v : AV T) (ops : list (av_op T)) : outcome (AV T) :=
  match ops with [] => Ok v | op :: r => obind (run_av d v op) (fun v' => run_avs d v' r) end.
(** The last value written at k since the last clear, [init] if there is none and no clear. *)
Fixpoint last_written {T} (d : T) (ops : list (av_op T)) (init : T) (k : Z) : T :=
  match ops with
  | [] => init
  | Write i x :: r => last_written d r (if k =? i then x else init) k
  | Clear :: r => last_written d r d k
  end.

Lemma run_avs_spec {T} (d : T) ops : forall v m, Inv d v m ->
  exists v', run_avs d v ops = Ok v' /\ Inv d v' (fun k => last_written d ops (m k) k).
Proof.
  induction ops as [|[i x|] ops IH]; intros v m HI; simpl.
  - eauto.
  - destruct (set_spec d v m i x HI) as (v1 & E & HI1 & _). rewrite E. cbn [obind].
    destruct (IH v1 _ HI1) as (v' & E' & HI'). eauto.
  - apply (IH (av_clear v) (fun _ => d)). left. auto.
Qed.

Theorem C29_history : forall {T} (d : T) ops k,
  exists v, run_avs d av_new ops = Ok v /\ av_get d v k = Ok (last_written d ops d k).
Proof.
  intros T d ops k. destruct (run_avs_spec d ops av_new _ (new_spec d)) as (v & E & HI).
  exists v. split; auto. now rewrite (Inv_get d v _ k HI).
Qed.

Theorem C29_history_range : forall {T} (d t : T) a b ops k, a <= b + 1 ->
  exists v0 v, av_range a b t = Ok v0 /\ run_avs d v0 ops = Ok v /\
    av_get d v k = Ok (last_written d ops (if (a <=? k) && (k <=? b) then t else d) k).
Proof.
  intros T d t a b ops k H. destruct (range_spec d a b t H) as (v0 & E0 & _ & _ & HI0).
  destruct (run_avs_spec d ops v0 _ HI0) as (v & E & HI). exists v0, v. repeat split; auto.
  now rewrite (Inv_get d v _ k HI).
Qed.

(** mini() and maxi() are the smallest and largest position written (no clear). *)
Theorem C29_bounds : forall {T} (d : T) i0 x0 (ws : list (Z * T)),
  exists v, run_avs d av_new (Write i0 x0 :: map (fun p => Write (fst p) (snd p)) ws) = Ok v /\
    mini v = fold_left (fun m p => Z.min (fst p) m) ws i0 /\
    maxi v = fold_left (fun m p => Z.max (fst p) m) ws i0 /\
    (forall k x, mini v <= k <= maxi v -> av_get d v k = Ok x -> av_fast v k = Ok x).
Proof.
  intros T d i0 x0 ws. cbn [run_avs run_av].
  destruct (set_spec d av_new _ i0 x0 (new_spec d)) as (v & E & HI & Hne & HA & _). rewrite E. cbn [obind].
  destruct (HA eq_refl) as [Hmi Hma]. clear E HA. revert v i0 Hmi Hma Hne HI.
  assert (G : forall ws v m a b, mini v = a -> maxi v = b -> dat v <> [] -> Inv d v m ->
    exists v', run_avs d v (map (fun p => Write (fst p) (snd p)) ws) = Ok v' /\
      mini v' = fold_left (fun m p => Z.min (fst p) m) ws a /\
      maxi v' = fold_left (fun m p => Z.max (fst p) m) ws b /\ dat v' <> [] /\ exists m', Inv d v' m').
  { clear. induction ws as [|[i x] ws IH]; intros v m a b Ha Hb Hne HI; simpl.
    - exists v. eauto 6.
    - destruct (set_spec d v m i x HI) as (v1 & E & HI1 & Hne1 & _ & HB). rewrite E. cbn [obind].
      destruct (HB Hne) as [H1 H2]. rewrite Ha in H1. rewrite Hb in H2. apply (IH v1 _ _ _ H1 H2 Hne1 HI1). }
  intros v i0 Hmi Hma Hne HI. destruct (G ws v _ i0 i0 Hmi Hma Hne HI) as (v' & E & H1 & H2 & H3 & m' & HI').
  exists v'. repeat split; auto. intros k x Hk Hx. rewrite (Inv_get d v' m' k HI') in Hx. inversion Hx; subst.
  destruct HI' as [[K _]|(_ & A1 & A2 & A3 & A4 & _)]; [congruence|]. unfold av_fast. rewrite (zget_ok d) by lia. now rewrite A4.
Qed.

Fixpoint zsum (k : nat) (i : Z) (f : Z -> Z) : Z := match k with O => 0 | S k' => f i + zsum k' (i + 1) f end.

Lemma zsum_zero k : forall i f, (forall j, i <= j < i + Z.of_nat k -> f j = 0) -> zsum k i f = 0.
Proof. induction k as [|k IH]; intros i f H; cbn [zsum]; auto. rewrite H by lia. rewrite IH; [lia|]. intros; apply H; lia. Qed.
Lemma zsum_app k l : forall i f, zsum (k + l) i f = zsum k i f + zsum l (i + Z.of_nat k) f.
Proof. induction k as [|k IH]; intros i f; cbn [zsum Nat.add]; [now rewrite Z.add_0_r|]. rewrite IH. replace (i + 1 + Z.of_nat k) with (i + Z.of_nat (S k)) by lia. lia. Qed.

Lemma dot_spec : forall a b ma mb (lo : Z) (n : nat), Inv 0 a ma -> Inv 0 b mb ->
  dat a <> [] -> dat b <> [] ->
  lo <= Z.max (mini a) (mini b) -> Z.min (maxi a) (maxi b) < lo + Z.of_nat n ->
  (forall k, av_get 0 a k = Ok (ma k)) /\ (forall k, av_get 0 b k = Ok (mb k)) /\
  av_dot a b = Ok (zsum n lo (fun k => ma k * mb k)).
Proof.
  intros a b ma mb lo n HA HB Hna Hnb H1 H2.
  split; [intros k; now apply Inv_get|]. split; [intros k; now apply Inv_get|]. unfold av_dot.
  set (lo' := Z.max (mini a) (mini b)) in *. set (hi' := Z.min (maxi a) (maxi b)) in *.
  destruct HA as [[K _]|(_ & A1 & A2 & A3 & A4 & A5 & _)]; [congruence|].
  destruct HB as [[K _]|(_ & B1 & B2 & B3 & B4 & B5 & _)]; [congruence|].
  assert (L : forall k i res, lo' <= i -> i + Z.of_nat k <= hi' + 1 ->
    dot_loop k i a b res = Ok (res + zsum k i (fun q => ma q * mb q))).
  { induction k as [|k IH]; intros i res Hi Hk; cbn [dot_loop zsum]; [f_equal; lia|].
    unfold av_fast. rewrite !(zget_ok 0) by lia. cbn [obind]. rewrite <- A4, <- B4 by lia.
    rewrite IH by lia. f_equal. lia. }
  destruct (Z_lt_ge_dec hi' lo') as [Hempty|Hfull].
  - replace (Z.to_nat (hi' - lo' + 1)) with 0%nat by lia. simpl. f_equal. symmetry. apply zsum_zero.
    intros j Hj. destruct (Z_lt_ge_dec j lo').
    + assert (j < mini a \/ j < mini b) as [Q|Q] by lia; [rewrite (A5 j)|rewrite (B5 j)]; try lia.
    + assert (maxi a < j \/ maxi b < j) as [Q|Q] by lia; [rewrite (A5 j)|rewrite (B5 j)]; try lia.
  - rewrite L by lia. f_equal. rewrite Z.add_0_l.
    replace n with (Z.to_nat (lo' - lo) + (Z.to_nat (hi' - lo' + 1) + Z.to_nat (lo + Z.of_nat n - hi' - 1)))%nat by lia.
    rewrite !zsum_app. rewrite (zsum_zero (Z.to_nat (lo' - lo))).
    + rewrite (zsum_zero (Z.to_nat (lo + Z.of_nat n - hi' - 1))).
      * replace (lo + Z.of_nat (Z.to_nat (lo' - lo))) with lo' by lia. lia.
      * intros j Hj. assert (maxi a < j \/ maxi b < j) as [Q|Q] by lia; [rewrite (A5 j)|rewrite (B5 j)]; try lia.
    + intros j Hj. assert (j < mini a \/ j < mini b) as [Q|Q] by lia; [rewrite (A5 j)|rewrite (B5 j)]; try lia.
Qed.

(** dot multiplies position by position; positions outside either range count as zero:
    summing over any interval that covers the common range gives the same. *)
Definition writes {T} (ws : list (Z * T)) : list (av_op T) := map (fun p => Write (fst p) (snd p)) ws.
Theorem C29_dot : forall wa wb, wa <> [] -> wb <> [] ->
  exists a b, run_avs 0 av_new (writes wa) = Ok a /\ run_avs 0 av_new (writes wb) = Ok b /\
    forall (lo : Z) (n : nat), lo <= Z.max (mini a) (mini b) -> Z.min (maxi a) (maxi b) < lo + Z.of_nat n ->
      av_dot a b = Ok (zsum n lo (fun k => last_written 0 (writes wa) 0 k * last_written 0 (writes wb) 0 k)).
Proof.
  intros wa wb Ha Hb.
  assert (G : forall w, w <> [] -> exists v, run_avs 0 av_new (writes w) = Ok v /\ dat v <> [] /\
     Inv 0 v (fun k => last_written 0 (writes w) 0 k)).
  { clear. intros w Hw. destruct (run_avs_spec 0 (writes w) av_new _ (new_spec 0)) as (v & E & HI).
    exists v. repeat split; auto. clear HI.
    assert (N : forall w v0 v m, Inv 0 v0 m -> dat v0 <> [] -> run_avs 0 v0 (writes w) = Ok v -> dat v <> []).
    { clear. induction w as [|[i x] w IH]; intros v0 v m HI Hne E; simpl in E; [congruence|].
      destruct (set_spec 0 v0 m i x HI) as (v1 & E1 & HI1 & Hne1 & _). rewrite E1 in E. cbn [obind] in E. eapply IH; eauto. }
    destruct w as [|[i x] w]; [congruence|]. simpl in E.
    destruct (set_spec 0 av_new _ i x (new_spec 0)) as (v1 & E1 & HI1 & Hne1 & _). rewrite E1 in E. cbn [obind] in E.
    eapply N; eauto. }
  destruct (G wa Ha) as (a & Ea & Na & Ia). destruct (G wb Hb) as (b & Eb & Nb & Ib).
  exists a, b. split; [auto|split; [auto|]]. intros lo n H1 H2. eapply dot_spec; eauto.
Qed.

(** clear() empties the data but not the bounds: size() still counts the old positions and
    dot reads freed storage. *)
Theorem C29_clear_size_refuted :
  exists v, av_set 0 av_new 3 7 = Ok v /\ av_size (av_clear v) = 1 /\ av_dot (av_clear v) v = UB.
Proof. eexists. split; [reflexivity|]. split; reflexivity. Qed.

Example C29_nonvacuous :
  exists v, run_avs 0 av_new [Write (-4) 3; Write 5 2; Write 100 1; Write (-90) 8] = Ok v /\
    av_get 0 v (-4) = Ok 3 /\ av_get 0 v 5 = Ok 2 /\ av_get 0 v 6 = Ok 0 /\ av_get 0 v 1000 = Ok 0 /\
    mini v = -90 /\ maxi v = 100.
Proof. eexists. split; [vm_compute; reflexivity|]. repeat split. Qed.

Print Assumptions C29_history.
Print Assumptions C29_history_range.
Print Assumptions C29_bounds.
Print Assumptions C29_dot.
Print Assumptions C29_clear_size_refuted.
