(** Properties C31 (sweep parameters), C32 (sweep order), C46 (wrap-around). *)
From Coq Require Import List ZArith Bool Lia.
From Verif Require Import Util SweepsModel SweepsProofs.
Import ListNotations.
Local Open Scope Z_scope.

(** ** C31 *)
(** The values the user wrote, with "x, Args("Repeat",n)" standing for n copies of x. *)
Fixpoint written {T} (prev : list T) (d : T) (l : list (item T)) : list T :=
  match l with
  | [] => prev
  | Val x :: l' => written (prev ++ [x]) d l'
  | Repeat n :: l' => written (prev ++ repeat (last prev d) (Z.to_nat (n - 1))) d l'
  | _ :: l' => written prev d l'
  end.
Definition no_func {T} (i : item T) : Prop := match i with Func _ => False | _ => True end.

(** setter() = x1, ..., xk gives sweep i the i-th value, and the last one from there on. *)
Theorem C31_setter : forall {T} (d : T) (v : list T) x (l : list (item T)) i,
  (2 <= length v)%nat -> Forall no_func l -> (1 <= i < length v)%nat ->
  let w := written [] d (Val x :: l) in
  exists v', setter_assign v (Val x :: l) = Ok v' /\ length v' = length v /\
    nth i v' d = nth (Nat.min i (length w) - 1) w d.
Proof.
  intros T d v x l i H2 HF Hi w.
  destruct (Inv_new d v H2) as (s & E & HI). unfold setter_assign. rewrite E. cbn [obind set_items set_item].
  assert (HX : Inv d v [x] (set_val s x)) by (apply (Inv_val d v [] s x); auto).
  assert (HG : forall l w0 s0, Forall no_func l -> w0 <> [] -> Inv d v w0 s0 ->
     exists s', set_items s0 l = Ok s' /\ Inv d v (written w0 d l) s' /\ written w0 d l <> []).
  { clear - H2. induction l as [|it l IH]; intros w0 s0 HF Hne HI; simpl; [eauto|].
    inversion HF; subst. destruct it as [y|n| |f]; simpl.
    - apply IH; auto. { intros K; apply app_eq_nil in K as [K _]; auto. } now apply Inv_val.
    - unfold set_repeat. pose proof HI as (_ & HJ & _).
      destruct (Z.eqb_spec (sj s0) 1) as [E|_].
      { exfalso. unfold nsweep_of in HJ. destruct w0; [congruence|]. simpl length in HJ. lia. }
      cbn [obind]. apply IH; auto. { intros K; apply app_eq_nil in K as [K _]; auto. } now apply Inv_repeat.
    - apply IH; auto.
    - contradiction. }
  destruct (HG l [x] (set_val s x)) as (s' & E' & HI' & Hne'); auto; [discriminate|].
  rewrite E'. cbn [obind]. eexists; split; [reflexivity|].
  destruct (finish_spec d v _ s' i H2 Hne' HI' Hi) as (A & _ & C). split; auto.
Qed.

(** A trailing function object sets all remaining sweeps. *)
Theorem C31_setter_function : forall {T} (d : T) (v xs : list T) f i,
  (2 <= length v)%nat -> (1 <= i < length v)%nat ->
  exists v', setter_assign v (map Val xs ++ [Func f]) = Ok v' /\ length v' = length v /\
    nth i v' d = if (i <=? length xs)%nat then nth (i - 1) xs d else f (Z.of_nat i) (Z.of_nat (length v) - 1).
Proof.
  intros T d v xs f i H2 Hi.
  destruct (Inv_new d v H2) as (s & E & HI). unfold setter_assign. rewrite E. cbn [obind].
  assert (HG : forall l w0 s0, Inv d v w0 s0 ->
     exists s', set_items s0 (map Val l ++ [Func f]) = Ok (set_func s' f) /\ Inv d v (w0 ++ l) s').
  { clear - H2. induction l as [|y l IH]; intros w0 s0 HI; simpl.
    - exists s0. rewrite app_nil_r. auto.
    - destruct (IH (w0 ++ [y]) (set_val s0 y)) as (s' & E & HI'); [now apply Inv_val|].
      exists s'. rewrite <- app_assoc in HI'. auto. }
  destruct (HG xs [] s HI) as (s' & E' & HI'). rewrite E'. cbn [obind].
  eexists; split; [reflexivity|]. destruct HI' as (HL & HJ & H1 & H0 & HS). simpl app in *.
  unfold nsweep_of in HJ.
  destruct (func_loop_spec d f (length (sv s')) s') as (A & B & C); [lia|unfold nsweep_of; lia|].
  unfold setter_finish, set_func. set (s2 := func_loop (length (sv s')) f s') in *.
  set (s3 := mkSetter (sv s2) (sj s2) (last (sv s2) (slast s2))).
  destruct (func_loop_spec d (fun _ _ => slast s3) (length (sv s3)) s3) as (A3 & B3 & C3).
  { simpl. lia. } { unfold nsweep_of. simpl sj. unfold nsweep_of in C. lia. }
  simpl sv in *. split; [congruence|]. rewrite B3 by lia. simpl sj.
  unfold nsweep_of in C. destruct (Z.ltb_spec (Z.of_nat i) (sj s2)); [|lia].
  rewrite B by lia. unfold nsweep_of. rewrite HL.
  destruct (Z.ltb_spec (Z.of_nat i) (sj s')), (Nat.leb_spec i (length xs)); try lia; auto.
Qed.

(** The table constructor: sweep i takes row i, rows missing at the end repeat the last. *)
Theorem C31_table : forall nsweep rows i, (1 <= i <= nsweep)%nat ->
  rows <> [] -> (forall r, In r rows -> fst r <> 0) ->
  nth i (tableInit nsweep rows) (0, 0) = nth (Nat.min i (length rows) - 1) rows (0, 0).
Proof.
  intros nsweep rows i Hi Hne Hr.
  assert (E : good_rows rows = rows).
  { clear - Hr. induction rows as [|r rows IH]; auto. simpl.
    destruct (Z.eqb_spec (fst r) 0); [exfalso; apply (Hr r); simpl; auto|]. rewrite IH; auto.
    intros r' H'. apply Hr. now right. }
  rewrite <- E at 2 3. apply tableInit_spec; auto. now rewrite E.
Qed.

(** RampM runs from start to end, monotonically and between its end points. *)
Theorem C31_ramp : forall start_m end_m nwarm nsweep sw,
  0 <= start_m <= end_m -> 2 <= nsweep -> nwarm <> 0 -> 1 <= sw <= nsweep ->
  exists m, rampM start_m end_m nwarm sw nsweep = Ok m /\ start_m <= m <= end_m /\
    (sw = 1 -> m = start_m) /\ (sw = nsweep -> m = end_m) /\
    (forall sw' m', sw <= sw' <= nsweep -> rampM start_m end_m nwarm sw' nsweep = Ok m' -> m <= m').
Proof.
  intros a b nw ns sw Hab Hns Hnw Hsw. unfold rampM.
  set (w := if nw <? 0 then ns else Z.min (nw + 1) ns).
  assert (Hw : 2 <= w <= ns) by (unfold w; destruct (Z.ltb_spec nw 0); lia).
  assert (Q : forall s, 1 <= s <= w ->
    a <= (a * (w - 1) + (s - 1) * (b - a)) ÷ (w - 1) <= b /\
    (a * (w - 1) + (s - 1) * (b - a)) ÷ (w - 1) = (a * (w - 1) + (s - 1) * (b - a)) / (w - 1)).
  { intros s Hs. assert (P : 0 <= (s - 1) * (b - a)) by nia.
    rewrite Z.quot_div_nonneg by nia. split; [|auto]. split.
    - apply Z.div_le_lower_bound; nia.
    - apply Z.div_le_upper_bound; nia. }
  destruct (Z.leb_spec sw w) as [Hle|Hgt].
  - destruct (Z.eqb_spec (w - 1) 0); [lia|]. eexists; split; [reflexivity|].
    destruct (Q sw) as [Q1 Q2]; [lia|]. split; [auto|]. split; [|split].
    + intros ->. replace (a * (w - 1) + (1 - 1) * (b - a)) with (a * (w - 1)) by ring. apply Z.quot_mul. lia.
    + intros ->. assert (w = ns) by lia. rewrite H.
      replace (a * (ns - 1) + (ns - 1) * (b - a)) with (b * (ns - 1)) by ring. apply Z.quot_mul. lia.
    + intros sw' m' Hs' E'. destruct (Z.leb_spec sw' w) as [Hle'|Hgt'].
      * inversion E'; subst m'. destruct (Q sw') as [Q1' Q2']; [lia|]. rewrite Q2, Q2'.
        apply Z.div_le_mono; nia.
      * inversion E'; subst. lia.
  - eexists; split; [reflexivity|]. split; [lia|]. split; [lia|]. split; [auto|].
    intros sw' m' Hs' E'. destruct (Z.leb_spec sw' w); [lia|]. inversion E'; lia.
Qed.

(** ... but a single sweep (or Warmup=0) divides zero by zero. *)
Theorem C31_ramp_single_sweep_refuted : forall start_m end_m,
  rampM start_m end_m (-1) 1 1 = UB /\ (forall nsweep, 1 <= nsweep -> rampM start_m end_m 0 1 nsweep = UB).
Proof.
  intros a b. split; [reflexivity|]. intros ns H. unfold rampM.
  replace (0 <? 0) with false by reflexivity. replace (Z.min (0 + 1) ns) with 1 by lia. reflexivity.
Qed.

(** ExpM with base p/q >= 1 stays between start and end and grows, as long as the power
    fits an int; ... *)
Theorem C31_expramp : forall start_m end_m p q sw,
  1 <= start_m <= end_m -> 1 <= q <= p -> 1 <= sw ->
  Z.quot (start_m * p ^ (sw - 1)) (q ^ (sw - 1)) <= INT_MAX ->
  exists m, expM start_m end_m p q sw = Ok m /\ start_m <= m <= end_m /\
    (forall sw' m', 1 <= sw' <= sw -> expM start_m end_m p q sw' = Ok m' -> m' <= m).
Proof.
  intros a b p q sw Hab Hqp Hsw HI.
  assert (G : forall k, 0 <= k -> a <= Z.quot (a * p ^ k) (q ^ k) /\ Z.quot (a * p ^ k) (q ^ k) = (a * p ^ k) / (q ^ k)).
  { intros k Hk. assert (0 < q ^ k) by (apply Z.pow_pos_nonneg; lia).
    assert (q ^ k <= p ^ k) by (apply Z.pow_le_mono_l; lia).
    rewrite Z.quot_div_nonneg by nia. split; auto. apply Z.div_le_lower_bound; nia. }
  assert (M : forall k l, 0 <= k <= l -> (a * p ^ k) / (q ^ k) <= (a * p ^ l) / (q ^ l)).
  { intros k l Hkl. assert (Qk : 0 < q ^ k) by (apply Z.pow_pos_nonneg; lia).
    assert (Ql : 0 < q ^ l) by (apply Z.pow_pos_nonneg; lia).
    replace l with (k + (l - k)) by lia. rewrite !Z.pow_add_r by lia.
    set (Pk := p ^ k). set (Qk' := q ^ k) in *. set (D := q ^ (l - k)). set (E := p ^ (l - k)).
    assert (0 < D) by (apply Z.pow_pos_nonneg; lia). assert (D <= E) by (apply Z.pow_le_mono_l; lia).
    assert (0 <= Pk) by (apply Z.pow_nonneg; lia).
    rewrite <- (Z.div_mul_cancel_r (a * Pk) Qk' D) by lia.
    apply Z.div_le_mono; nia. }
  unfold expM. destruct (G (sw - 1)) as [G1 G2]; [lia|].
  set (e := Z.quot (a * p ^ (sw - 1)) (q ^ (sw - 1))) in *.
  destruct (Z.ltb_spec INT_MAX e); [lia|]. assert (HM : INT_MAX = 2147483647) by reflexivity. destruct (Z.ltb_spec e (- INT_MAX - 1)); [lia|].
  cbn [orb]. destruct (Z.leb_spec e 0); [lia|]. eexists; split; [reflexivity|]. split; [lia|].
  intros sw' m' Hs' E'. destruct (G (sw' - 1)) as [G1' G2']; [lia|].
  set (e' := Z.quot (a * p ^ (sw' - 1)) (q ^ (sw' - 1))) in *.
  assert (e' <= e) by (rewrite G2, G2'; apply M; lia).
  destruct (Z.ltb_spec INT_MAX e'); [lia|]. destruct (Z.ltb_spec e' (- INT_MAX - 1)); [lia|]. cbn [orb] in E'.
  destruct (Z.leb_spec e' 0); [lia|]. inversion E'. lia.
Qed.

(** ... ordinary arguments overflow the conversion to int. *)
Theorem C31_expramp_overflow_refuted : expM 10 1000 2 1 40 = UB.
Proof. reflexivity. Qed.

(** sweeps.maxdim() on an object with no sweeps reads past its vector. *)
Theorem C31_setter_no_sweeps_refuted : forall (v : list Z) l, length v = 1%nat -> setter_assign v l = UB.
Proof. intros [|x [|y v]] l H; try discriminate. reflexivity. Qed.

Example C31_nonvacuous :
  setter_assign [0; 0; 0; 0; 0; 0] [Val 10; Val 20; Repeat 2; Val 100] = Ok [0; 10; 20; 20; 100; 100] /\
  rampM 10 50 (-1) 3 5 = Ok 30 /\ expM 10 100 2 1 3 = Ok 40 /\
  tableInit 4 [(10, 1); (20, 2)] = [(0, 0); (10, 1); (20, 2); (20, 2); (20, 2)].
Proof. repeat split. Qed.

Print Assumptions C31_setter.
Print Assumptions C31_setter_function.
Print Assumptions C31_table.
Print Assumptions C31_ramp.
Print Assumptions C31_ramp_single_sweep_refuted.
Print Assumptions C31_expramp.
Print Assumptions C31_expramp_overflow_refuted.
Print Assumptions C31_setter_no_sweeps_refuted.

(** ** C32 *)

(** The sweep visits min_b, ..., N+1-nc left to right, then back, and stops. *)
Theorem C32_sweep_visits : forall N nc mb,
  mb <= N + 1 - nc ->
  exists fuel, forall f, (f >= fuel)%nat ->
    sweep_loop f N nc mb (mb, 1) =
      Some (map (fun b => (b, 1)) (zrange mb (Z.to_nat (N + 2 - nc - mb))) ++
            map (fun b => (b, 2)) (rev (zrange mb (Z.to_nat (N + 2 - nc - mb))))).
Proof.
  intros N nc mb H. set (m := Z.to_nat (N + 1 - nc - mb)).
  exists (m + m + 4)%nat. intros f Hf.
  destruct (half1 N nc mb m m mb f) as (l & E & El); [lia|lia|lia|lia|].
  rewrite E, El. replace (Z.to_nat (N + 2 - nc - mb)) with (S m) by lia. reflexivity.
Qed.

(** For the ordinary two-site sweep: every bond 1..N-1 exactly once in each direction. *)
Theorem C32_every_bond_twice : forall N, 2 <= N ->
  exists l, (exists fuel, sweep_loop fuel N 2 1 (1, 1) = Some l) /\ NoDup l /\
    forall b ha, In (b, ha) l <-> (1 <= b <= N - 1) /\ (ha = 1 \/ ha = 2).
Proof.
  intros N HN. destruct (C32_sweep_visits N 2 1) as (fuel & H); [lia|].
  eexists. split; [exists fuel; apply H; lia|]. split.
  - replace (Z.to_nat (N + 2 - 2 - 1)) with (Z.to_nat (N - 1)) by lia.
    set (r := zrange 1 (Z.to_nat (N - 1))). assert (Hr : NoDup r) by apply zrange_NoDup.
    assert (Hm : forall (l : list Z) (h : Z), NoDup l -> NoDup (map (fun b => (b, h)) l)).
    { intros l h Hl. induction Hl; simpl; constructor; auto. rewrite in_map_iff. intros (y & E & Hy). inversion E; subst. contradiction. }
    assert (Hrev : NoDup (rev r)) by (apply NoDup_rev; auto).
    pose proof (Hm r 1 Hr) as N1. pose proof (Hm (rev r) 2 Hrev) as N2.
    apply NoDup_app_intro; auto. intros [u h] K1 K2. apply in_map_iff in K1 as (y & E & _).
    apply in_map_iff in K2 as (y' & E' & _). congruence.
  - intros b ha. rewrite in_app_iff, !in_map_iff. split.
    + intros [(y & E & Hy)|(y & E & Hy)]; inversion E; subst; rewrite <- ?in_rev in Hy; apply in_zrange in Hy; lia.
    + intros [Hb [->| ->]]; [left|right]; exists b; (split; [reflexivity|]); rewrite <- ?in_rev; apply in_zrange; lia.
Qed.

(** A chain shorter than the number of centre sites: the loop never ends. *)
Theorem C32_too_short_refuted : forall N nc, N < nc -> forall fuel, sweep_loop fuel N nc 1 (1, 1) = None.
Proof. intros N nc H fuel. apply sweep_diverges. lia. Qed.

Example C32_nonvacuous :
  sweep_loop 20 4 2 1 (1, 1) = Some [(1,1); (2,1); (3,1); (3,2); (2,2); (1,2)].
Proof. reflexivity. Qed.

Print Assumptions C32_sweep_visits.
Print Assumptions C32_every_bond_twice.
Print Assumptions C32_too_short_refuted.

(** ** C46 *)
Theorem C46_periodicWrap : forall j N, 1 <= N ->
  exists fuel r, (forall f, (f >= fuel)%nat -> periodicWrap f j N = Some r) /\
    1 <= r <= N /\ (exists k, r = j + k * N).
Proof.
  intros j N HN. exists (S (Z.to_nat (Z.abs ((j - 1) / N)))), ((j - 1) mod N + 1).
  split; [|split].
  - intros f Hf. unfold periodicWrap. destruct (Z.ltb_spec j 1).
    + assert ((j - 1) / N < 0) by (apply Z.div_lt_upper_bound; lia).
      apply (wrap_up_spec N (Z.to_nat (- ((j - 1) / N)))); lia.
    + assert (0 <= (j - 1) / N) by (apply Z.div_pos; lia).
      destruct (Z.ltb_spec N j).
      * apply (wrap_down_spec N (Z.to_nat ((j - 1) / N))); lia.
      * rewrite Z.mod_small by lia. f_equal. lia.
  - pose proof (Z.mod_pos_bound (j - 1) N ltac:(lia)). lia.
  - exists (- ((j - 1) / N)). pose proof (Z.div_mod (j - 1) N ltac:(lia)). nia.
Qed.

Theorem C46_periodicWrap_zero_refuted : forall j, j < 1 -> forall fuel, periodicWrap fuel j 0 = None.
Proof.
  intros j H fuel. unfold periodicWrap. destruct (Z.ltb_spec j 1); [|lia]. apply wrap_up_stuck. auto.
Qed.

(** MPS positions: -1 is the last site, -k the k-th from the end; anything outside the
    tensor array is an error. *)
Theorem C46_negative_positions : forall N i, 0 <= N ->
  (1 <= i <= N -> mps_position N i = Ok i /\ mps_position N (- i) = Ok (N + 1 - i)) /\
  (N + 2 <= i -> mps_position N i = Err) /\ (i < - N - 1 -> mps_position N i = Err).
Proof.
  intros N i HN. unfold mps_position. split; [|split]; intros H.
  - destruct (Z.ltb_spec i 0), (Z.ltb_spec (- i) 0); try lia.
    destruct (Z.leb_spec 0 i), (Z.ltb_spec i (N + 2)); try lia.
    destruct (Z.leb_spec 0 (N + - i + 1)), (Z.ltb_spec (N + - i + 1) (N + 2)); try lia.
    cbn [andb]. split; f_equal; lia.
  - destruct (Z.ltb_spec i 0); [lia|]. destruct (Z.leb_spec 0 i), (Z.ltb_spec i (N + 2)); try lia; reflexivity.
  - destruct (Z.ltb_spec i 0); [|lia]. destruct (Z.leb_spec 0 (N + i + 1)), (Z.ltb_spec (N + i + 1) (N + 2)); try lia; reflexivity.
Qed.

Example C46_nonvacuous : periodicWrap 10 (-7) 5 = Some 3 /\ periodicWrap 10 13 5 = Some 3 /\ mps_position 5 (-1) = Ok 5.
Proof. repeat split. Qed.

Print Assumptions C46_periodicWrap.
Print Assumptions C46_periodicWrap_zero_refuted.
Print Assumptions C46_negative_positions.
