(** C41: adding matrix product states, two or any number. *)
From Coq Require Import ZArith List Bool Arith Lia Ring.
From Verif Require Import Util BigSum MpsModel MpsTensor MpsSpec MpsProofs SumModel SumProofs.
Import ListNotations.
Local Open Scope outcome_scope.

Section C41.
Context {R : Type} (r0 r1 : R) (radd rmul rsub : R -> R -> R) (ropp : R -> R).
Context (RT : ring_theory r0 r1 radd rmul rsub ropp eq).
Add Ring RRsp : RT.
Notation tensor := (@tensor R).
Notation amp := (amplitude r0 r1 radd rmul).

(** What is assumed of orthogonalize with nothing truncated: a returned state is the
    same state, and ResultIsZero is only thrown for the zero state. *)
Definition orthogonalize_ok (o : list tensor -> @ores R) : Prop :=
  forall ts, proper ts ->
  match o ts with
  | Ok (Some ts') => proper ts' /\ sites ts' = sites ts /\ forall c, Forall2 lt c (sites ts) -> amp ts' c = amp ts c
  | Ok None => forall c, Forall2 lt c (sites ts) -> amp ts c = r0
  | _ => True
  end.
(** v_1 + (v_2 + ... ) at a configuration. *)
Fixpoint sum_amps (c : list nat) (ts : list (list tensor)) : R :=
  match ts with [] => r0 | t :: ts' => radd (amp t c) (sum_amps c ts') end.

Lemma F2_len : forall (c d : list nat), Forall2 lt c d -> length c = length d.
Proof. intros c d H. induction H; cbn; congruence. Qed.
Lemma sites_len : forall ts : list tensor, length (sites ts) = length ts.
Proof. intros. unfold sites. apply map_length. Qed.

(** The tensors built for L+R, before any compression, are an exact representation of
    the sum: every amplitude is the sum of the two; it never fails for two states on
    the same two or more sites. *)
Theorem C41_add : forall ls rs : list tensor, proper ls -> proper rs -> sites ls = sites rs -> 2 <= length ls ->
  exists zs, addAssumeOrth r0 r1 radd rmul ls rs = Ok zs /\ proper zs /\ sites zs = sites ls /\
    forall c, length c = length ls -> amp zs c = radd (amp ls c) (amp rs c).
Proof.
  intros ls rs P1 P2 S N. destruct (addAssumeOrth_ok r0 r1 radd rmul ls rs P1 P2 S N) as (zs & E).
  destruct (addAssumeOrth_spec r0 r1 radd rmul rsub ropp RT _ _ _ E P1 P2) as (A & B & C & D). exists zs. auto.
Qed.
(** States on different sites or of different length are refused, not added. *)
Theorem C41_mismatch : forall ls rs zs : list tensor, proper ls -> proper rs ->
  addAssumeOrth r0 r1 radd rmul ls rs = Ok zs -> sites ls = sites rs.
Proof. intros ls rs zs P1 P2 H. symmetry. apply (addAssumeOrth_spec r0 r1 radd rmul rsub ropp RT _ _ _ H P1 P2). Qed.

Section Orth.
Variable o : list tensor -> @ores R.
Hypothesis o_ok : orthogonalize_ok o.
Notation plus := (plusEq r0 r1 radd rmul o).

Lemma plus_spec : forall dims (x y z : @state R), plus x y = Ok z ->
  proper (fst x) /\ sites (fst x) = dims -> proper (fst y) /\ sites (fst y) = dims ->
  (proper (fst z) /\ sites (fst z) = dims) /\
  forall c, Forall2 lt c dims -> amp (fst z) c = radd (amp (fst x) c) (amp (fst y) c).
Proof.
  intros dims [xs bx] [ys by_] z H [Px Sx] [Py Sy]. unfold plusEq in H. cbn [fst snd] in *.
  assert (Hx : exists l', (if bx then Ok (Some xs) else o xs) = Ok l' /\
     match l' with Some ts => proper ts /\ sites ts = dims /\ (forall c, Forall2 lt c dims -> amp ts c = amp xs c)
                 | None => forall c, Forall2 lt c dims -> amp xs c = r0 end).
  { destruct bx; [exists (Some xs); split; [reflexivity|auto]|]. pose proof (o_ok xs Px) as Ox. cbv beta iota in H.
    destruct (o xs) as [[ts|]| |]; try discriminate H; rewrite Sx in Ox.
    - exists (Some ts). split; [reflexivity|exact Ox].
    - exists None. split; [reflexivity|exact Ox]. }
  assert (Hy : forall r', (if by_ then Ok (Some ys) else o ys) = Ok r' ->
     match r' with Some ts => proper ts /\ sites ts = dims /\ (forall c, Forall2 lt c dims -> amp ts c = amp ys c)
                 | None => forall c, Forall2 lt c dims -> amp ys c = r0 end).
  { intros r' E. destruct by_; [injection E as <-; auto|]. pose proof (o_ok ys Py) as Oy. rewrite E in Oy. rewrite <- Sy.
    destruct r' as [ts|]; [destruct Oy as (A & B & C); auto|exact Oy]. }
  destruct Hx as (l' & E1 & Hx). rewrite E1 in H. cbn [obind] in H. destruct l' as [xs'|].
  2:{ injection H as <-. split; [auto|]. intros c Hc. cbn [fst]. rewrite (Hx c Hc). ring. }
  destruct (if by_ then Ok (Some ys) else o ys) as [r'| |] eqn:E2; try discriminate. specialize (Hy r' eq_refl). cbn [obind] in H.
  destruct Hx as (P1 & S1 & A1). destruct r' as [ys'|].
  2:{ injection H as <-. cbn [fst]. split; [auto|]. intros c Hc. rewrite (A1 c Hc), (Hy c Hc). ring. }
  destruct Hy as (P2 & S2 & A2). unfold add_orth in H.
  destruct (addAssumeOrth r0 r1 radd rmul xs' ys') as [zs| |] eqn:E3; try discriminate. cbn [obind] in H.
  destruct (addAssumeOrth_spec r0 r1 radd rmul rsub ropp RT _ _ _ E3 P1 P2) as (P3 & S3 & _ & A3).
  pose proof (o_ok zs P3) as Oz. destruct (o zs) as [[ts|]| |] eqn:E4; try discriminate. cbn [obind] in H. injection H as <-. cbn [fst].
  destruct Oz as (P4 & S4 & A4). split; [split; congruence|]. intros c Hc.
  assert (Hl : length c = length xs') by (rewrite <- sites_len, S1; apply F2_len; exact Hc).
  rewrite A4 by congruence. rewrite A3 by assumption. rewrite A1, A2 by assumption. reflexivity.
Qed.

(** Summing any number of states gives the sum of all amplitudes. *)
Theorem C41_sum : forall (dflt : @state R) (dims : list nat) (ts : list (@state R)) (s : @state R), ts <> [] ->
  Forall (fun x => proper (fst x) /\ sites (fst x) = dims) ts ->
  sum_vector plus dflt ts = Ok s ->
  proper (fst s) /\ sites (fst s) = dims /\
  forall c, Forall2 lt c dims -> amp (fst s) c = sum_amps c (map fst ts).
Proof.
  intros dflt dims ts s N F H.
  pose (good := fun x : @state R => proper (fst x) /\ sites (fst x) = dims).
  assert (X : forall c, Forall2 lt c dims -> good s /\ amp (fst s) c = sum_amps c (map fst ts)).
  { intros c Hc. destruct ts as [|t ts]; [congruence|].
    destruct (sum_fuel_val plus dflt radd good (fun x v => amp (fst x) c = v)) with
      (n := length (t :: ts)) (ts := t :: ts) (s := s) (v := amp (fst t) c) (vs := map (fun x => amp (fst x) c) ts) as (G1 & G2); auto.
    - intros; ring.
    - intros x y z v w Gx Gy <- <- E. destruct (plus_spec dims x y z E Gx Gy) as (G & A). split; [exact G|]. apply A. exact Hc.
    - constructor; [reflexivity|]. clear. induction ts; cbn; constructor; auto.
    - split; [exact G1|]. rewrite G2. cbn [map sum_amps]. clear F N H G1 G2. generalize (amp (fst t) c) as v. induction ts as [|u us IH]; intros v; cbn [map total sum_amps]; [ring|].
      rewrite IH. reflexivity. }
  assert (G : good s).
  { destruct ts as [|t ts]; [congruence|].
    destruct (sum_fuel_val plus dflt (fun _ _ : unit => tt) good (fun _ _ => True)) with
      (n := length (t :: ts)) (ts := t :: ts) (s := s) (v := tt) (vs := map (fun _ => tt) ts) as (G1 & _); auto.
    - intros x y z [] [] Gx Gy _ _ E. split; [|exact I]. apply (plus_spec dims x y z E Gx Gy).
    - constructor; auto. clear. induction ts; cbn; constructor; auto. }
  destruct G as (G1 & G2). split; [exact G1|]. split; [exact G2|]. intros c Hc. apply X. exact Hc.
Qed.

(** It always ends, and succeeds whenever orthogonalize returns: no order of the pairwise additions
    can run forever or fail. *)
Theorem C41_terminates : forall (dflt : @state R) (dims : list nat) (ts : list (@state R)), ts <> [] -> 2 <= length dims ->
  (forall x, proper x -> exists x', o x = Ok (Some x')) ->
  Forall (fun x => proper (fst x) /\ sites (fst x) = dims) ts ->
  exists s, sum_vector plus dflt ts = Ok s.
Proof.
  intros dflt dims ts N D Ho F.
  destruct (sum_fuel_ok plus dflt (fun x => proper (fst x) /\ sites (fst x) = dims)) with (n := length ts) (ts := ts) as (s & E & _); auto; [|exists s; exact E].
  intros x y Gx Gy. assert (E : exists z, plus x y = Ok z).
  { unfold plusEq. destruct x as [xs bx]. destruct y as [ys by_]. cbn [fst snd] in *. destruct Gx as (Px & Sx). destruct Gy as (Py & Sy).
    assert (K : forall (b : bool) xs, proper xs -> sites xs = dims -> exists xs', (if b then Ok (Some xs) else o xs) = Ok (Some xs') /\ proper xs' /\ sites xs' = dims).
    { intros b us Pu Su. destruct b; [eauto|]. destruct (Ho us Pu) as (us' & E). pose proof (o_ok us Pu) as Hu. rewrite E in Hu.
      destruct Hu as (A & B & _). exists us'. repeat split; [exact E|exact A|congruence]. }
    destruct (K bx xs Px Sx) as (xs' & -> & Px' & Sx'). cbn [obind]. destruct (K by_ ys Py Sy) as (ys' & -> & Py' & Sy'). cbn [obind].
    unfold add_orth. destruct (addAssumeOrth_ok r0 r1 radd rmul xs' ys' Px' Py') as (zs & Ez); [congruence|rewrite <- sites_len, Sx'; exact D|].
    rewrite Ez. cbn [obind]. destruct (addAssumeOrth_spec r0 r1 radd rmul rsub ropp RT _ _ _ Ez Px' Py') as (P3 & _).
    destruct (Ho zs P3) as (zs' & ->). cbn. eauto. }
  destruct E as (z & E). exists z. split; [exact E|]. apply (plus_spec dims x y z E Gx Gy).
Qed.
End Orth.

(** Failure: states of a single site cannot be added. *)
Theorem C41_one_site_refuted : forall x y : tensor, addAssumeOrth r0 r1 radd rmul [x] [y] = Err.
Proof. reflexivity. Qed.
(** Failure: the sum of no states is a default constructed object, which is not a state
    on any sites. *)
Theorem C41_empty_refuted : forall (o : list tensor -> @ores R) dflt,
  sum_vector (plusEq r0 r1 radd rmul o) dflt [] = Ok dflt.
Proof. reflexivity. Qed.
End C41.

(** Three states of two sites with link dimensions 1 and 2 are summed exactly. *)
Definition c41_t (l r k : nat) : @tensor Z :=
  mkT l 2 r true (fun a s b => Z.of_nat (k + 2 * a + 3 * s + 5 * b))%Z.
Definition c41_s (d k : nat) : @state Z := ([c41_t 1 d k; c41_t d 1 (k + 1)], Nat.eqb k 1).
Definition c41_o : list (@tensor Z) -> @ores Z := fun ts => Ok (Some ts).
Example C41_nonvacuous :
  orthogonalize_ok 0%Z 1%Z Z.add Z.mul c41_o /\
  Forall (fun x => proper (fst x) /\ sites (fst x) = [2; 2]) [c41_s 1 1; c41_s 2 2; c41_s 3 5] /\
  exists s, sum_vector (plusEq 0%Z 1%Z Z.add Z.mul c41_o) ([], false) [c41_s 1 1; c41_s 2 2; c41_s 3 5] = Ok s /\
    map (amplitude 0%Z 1%Z Z.add Z.mul (fst s)) [[0;0]; [0;1]; [1;0]; [1;1]]
    = [303; 423; 405; 579]%Z.
Proof.
  split; [intros ts P; cbn; auto|]. split; [repeat constructor|]. eexists. split; vm_compute; reflexivity.
Qed.

Print Assumptions C41_add.
Print Assumptions C41_mismatch.
Print Assumptions C41_sum.
Print Assumptions C41_terminates.
Print Assumptions C41_one_site_refuted.
Print Assumptions C41_empty_refuted.
