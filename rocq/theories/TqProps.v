(** Property C72: totalQN is the quantum number of every configuration in the state, and what checkQNs checks. *)
From Coq Require Import List ZArith Lia Bool Arith Permutation Sorted Ring.
From Verif Require Import Util BigSum SmallStringModel QnModel QnSpec QnProofs QnProps RangeSpec QdModel QdSpec QdProofs QdFlux QdAdd QdProps ProductProps QCombProps
  TqSpec TqModel TqProofs.
Import ListNotations.
Local Open Scope nat_scope.
Local Open Scope outcome_scope.

Section Props.
Context {R : Type} (r0 r1 : R) (radd rmul rsub : R -> R -> R) (ropp : R -> R) (RT : ring_theory r0 r1 radd rmul rsub ropp eq).
Add Ring RRtqp : RT.
Context {I : Type} (ieq : I -> I -> bool) (ieq_spec : forall a b, ieq a b = true <-> a = b).
Context (bs : I -> list nat) (qns : I -> list QN) (M : SmallString -> Z) (S : list SmallString) (Sch : Scheme M S).
Notation qt := (qt R I).
Notation conserves := (conserves bs qns M S).
Notation qamp := (qamp r0 r1 radd rmul ieq bs).
Notation charge := (charge bs qns).
Notation checkQNs := (checkQNs ieq qns).

(** All tensors conserve the quantum numbers, and those outside leftLim+1 .. rightLim-1 have zero flux.  Then totalQN
    succeeds, and every configuration of nonzero amplitude has exactly this quantum number, for every charge. *)
Theorem C72_totalQN : forall (ts : list qt) qs l r os ls,
  Forall2 conserves ts qs -> network ts os ls -> l + 1 <= r -> r <= length ts + 1 ->
  (forall j q, nth_error qs j = Some q -> j + 1 <= l \/ r <= j + 1 -> qn_eqb q qn0 = true) ->
  exists Q, totalQN qns ts l r = Ok Q /\
    forall s, qamp ts ls s <> r0 -> forall n, qn_val_of Q n = residue (M n) (charge os s n).
Proof.
  intros ts qs l r os ls F N Hl Hr Z.
  destruct (total_charge r0 r1 radd rmul rsub ropp RT ieq ieq_spec bs qns M S Sch ts qs l r os ls F N Hl Hr) as (Q & E & _ & H).
  { intros j q Ej [K|K]; apply (Z j q Ej); [left; lia|right; exact K]. }
  exists Q. auto.
Qed.

(** So the limits do not matter for a state that is not 0: two pairs of limits with this property give equal results,
    and so do two networks with a common configuration (before and after moving the centre, say). *)
Theorem C72_limits : forall (ts ts' : list qt) qs qs' l r l' r' os ls ls' s Q Q',
  Forall2 conserves ts qs -> network ts os ls -> l + 1 <= r -> r <= length ts + 1 ->
  (forall j q, nth_error qs j = Some q -> j + 1 <= l \/ r <= j + 1 -> qn_eqb q qn0 = true) ->
  Forall2 conserves ts' qs' -> network ts' os ls' -> l' + 1 <= r' -> r' <= length ts' + 1 ->
  (forall j q, nth_error qs' j = Some q -> j + 1 <= l' \/ r' <= j + 1 -> qn_eqb q qn0 = true) ->
  totalQN qns ts l r = Ok Q -> totalQN qns ts' l' r' = Ok Q' ->
  qamp ts ls s <> r0 -> qamp ts' ls' s <> r0 -> qn_eqb Q Q' = true.
Proof.
  intros ts ts' qs qs' l r l' r' os ls ls' s Q Q' F N Hl Hr Z F' N' Hl' Hr' Z' E E' A A'.
  destruct (total_charge r0 r1 radd rmul rsub ropp RT ieq ieq_spec bs qns M S Sch ts qs l r os ls F N Hl Hr) as (Q1 & E1 & C1 & H1).
  { intros j q Ej [K|K]; apply (Z j q Ej); [left; lia|right; exact K]. }
  destruct (total_charge r0 r1 radd rmul rsub ropp RT ieq ieq_spec bs qns M S Sch ts' qs' l' r' os ls' F' N' Hl' Hr') as (Q2 & E2 & C2 & H2).
  { intros j q Ej [K|K]; apply (Z' j q Ej); [left; lia|right; exact K]. }
  rewrite E in E1. injection E1 as <-. rewrite E' in E2. injection E2 as <-.
  apply (qn_eqb_iff M S); auto. intros n. rewrite (H1 s A), (H2 s A'). reflexivity.
Qed.

(** checkQNs returns true exactly if some tensor has all arrows alike, the first such tensor is the centre, every other
    one has div 0, and the links point away from the centre: left of it the right link is incoming and the left link
    outgoing, right of it the left link incoming and the right link outgoing. *)
Theorem C72_checkQNs : forall ts : list qt, Forall (fun t => NoDup (qis t)) ts ->
  (checkQNs ts = Ok true <->
   exists c t, nth_error ts c = Some t /\ qis t <> [] /\ one_arrow t /\
     (forall j u, j < c -> nth_error ts j = Some u -> qis u <> [] /\ ~ one_arrow u) /\
     (forall j u, j <> c -> nth_error ts j = Some u -> exists q, qdiv qns u = Ok q /\ qn_eqb q qn0 = true) /\
     (forall j a b, nth_error ts j = Some a -> nth_error ts (j + 1) = Some b ->
        (j < c -> link_arrow a b ArrIn) /\ (j + 1 < c -> link_arrow b a ArrOut) /\
        (c <= j -> link_arrow b a ArrIn) /\ (c < j -> link_arrow a b ArrOut))).
Proof.
  intros ts ND. unfold TqModel.checkQNs, findCenter.
  assert (ndup : forall j u, nth_error ts j = Some u -> NoDup (qis u)).
  { intros j u E. rewrite Forall_forall in ND. apply ND. eapply nth_error_In; eauto. }
  assert (RD : forall j a b d, nth_error ts j = Some a -> nth_error ts (j + 1) = Some b -> (right_dir ieq ts (j + 1) = Ok d <-> link_arrow a b d)).
  { intros j a b d Ea Eb. unfold right_dir. assert (j + 1 < length ts) by (apply nth_error_Some; congruence).
    destruct (Nat.eqb_spec (j + 1) (length ts)); [lia|]. rewrite (at_site_ok ts j a Ea), (at_site_ok ts (j + 1) b Eb). cbn [obind].
    apply common_dir_spec; eauto. }
  assert (LD : forall j a b d, nth_error ts j = Some a -> nth_error ts (j + 1) = Some b -> (left_dir ieq ts (j + 1 + 1) = Ok d <-> link_arrow b a d)).
  { intros j a b d Ea Eb. unfold left_dir. destruct (Nat.eqb_spec (j + 1 + 1) 1); [lia|]. replace (j + 1 + 1 - 1) with (j + 1) by lia.
    rewrite (at_site_ok ts (j + 1) b Eb), (at_site_ok ts j a Ea). cbn [obind]. apply common_dir_spec; eauto. }
  assert (ZD : forall c j u, nth_error ts j = Some u -> j <> c -> (zero_div qns ts (c + 1) (j + 1) = Ok true <-> exists q, qdiv qns u = Ok q /\ qn_eqb q qn0 = true)).
  { intros c j u E NE. unfold zero_div. destruct (Nat.eqb_spec (j + 1) (c + 1)); [lia|]. rewrite (at_site_ok ts j u E). cbn [obind]. split.
    - destruct (alloc u); [|discriminate]. cbn [negb]. intros H. destruct (qdiv qns u) as [q| |]; cbn [obind] in H; try discriminate. exists q. split; congruence.
    - intros (q & Eq & Z). assert (A : alloc u = true). { unfold alloc, qdiv in *. destruct (qis u); [discriminate|reflexivity]. }
      rewrite A. cbn [negb]. rewrite Eq. cbn [obind]. rewrite Z. reflexivity. }
  split.
  - intros H. destruct (findCenter_from ts 1) as [[c1|]| |] eqn:EC; cbn [obind] in H; try discriminate.
    apply findCenter_spec in EC as (c & t & -> & Et & Nt & Ot & B). replace (1 + c) with (c + 1) in H by lia.
    destruct (every (seq 1 (length ts)) _) as [[|]| |] eqn:E1; cbn [obind] in H; try discriminate.
    destruct (every (seq 1 (c + 1 - 1)) _) as [[|]| |] eqn:E2; cbn [obind] in H; try discriminate.
    apply every_true in E1, E2, H. rewrite Forall_forall in E1, E2, H.
    exists c, t. split; [exact Et|]. split; [exact Nt|]. split; [exact Ot|]. split; [exact B|]. split.
    + intros j u NE Eu. apply (ZD c j u Eu NE). apply E1. apply in_seq. assert (j < length ts) by (apply nth_error_Some; congruence). lia.
    + intros j a b Ea Eb. assert (j + 1 < length ts) by (apply nth_error_Some; congruence).
      assert (L : forall i, i < c -> left_arrows ieq ts (i + 1) = Ok true) by (intros i Hi; apply E2, in_seq; lia).
      assert (Rr : forall i, c < i -> i < length ts -> right_arrows ieq ts (i + 1) = Ok true) by (intros i Hi Hi'; apply H, in_rev; rewrite rev_involutive; apply in_seq; lia).
      split; [|split; [|split]].
      * intros K. specialize (L j K). unfold left_arrows in L. destruct (right_dir ieq ts (j + 1)) as [d| |] eqn:Ed; cbn [obind] in L; try discriminate.
        destruct (arrow_eqb d ArrIn) eqn:Ea'; [|discriminate]. apply arrow_eqb_spec in Ea'. subst. apply (RD j a b _ Ea Eb), Ed.
      * intros K. specialize (L (j + 1) K). unfold left_arrows in L. destruct (right_dir ieq ts (j + 1 + 1)) as [d| |] eqn:Ed; cbn [obind] in L; try discriminate.
        destruct (arrow_eqb d ArrIn); [|discriminate]. cbn [negb] in L. destruct (Nat.ltb_spec 1 (j + 1 + 1)); [|lia].
        destruct (left_dir ieq ts (j + 1 + 1)) as [d'| |] eqn:Ed'; cbn [obind] in L; try discriminate.
        apply (LD j a b _ Ea Eb). rewrite Ed'. f_equal. apply arrow_eqb_spec. congruence.
      * intros K. specialize (Rr (j + 1) ltac:(lia) ltac:(lia)). unfold right_arrows in Rr.
        destruct (if j + 1 + 1 <? length ts then _ else _) as [[|]| |]; cbn [obind] in Rr; try discriminate.
        destruct (left_dir ieq ts (j + 1 + 1)) as [d'| |] eqn:Ed'; cbn [obind] in Rr; try discriminate.
        apply (LD j a b _ Ea Eb). rewrite Ed'. f_equal. apply arrow_eqb_spec. congruence.
      * intros K. specialize (Rr j K ltac:(lia)). unfold right_arrows in Rr. destruct (Nat.ltb_spec (j + 1) (length ts)); [|lia].
        destruct (right_dir ieq ts (j + 1)) as [d| |] eqn:Ed; cbn [obind] in Rr; try discriminate.
        destruct (arrow_eqb d ArrOut) eqn:Ea'; [|discriminate]. apply arrow_eqb_spec in Ea'. subst. apply (RD j a b _ Ea Eb), Ed.
  - intros (c & t & Et & Nt & Ot & B & Z & A).
    assert (EC : findCenter_from ts 1 = Ok (Some (c + 1))). { apply findCenter_spec. exists c, t. split; [lia|]. auto. }
    assert (Lc : c < length ts) by (apply nth_error_Some; congruence).
    rewrite EC. cbn [obind]. assert (E1 : every (seq 1 (length ts)) (zero_div qns ts (c + 1)) = Ok true).
    { apply every_true, Forall_forall. intros i Hi. apply in_seq in Hi. destruct (Nat.eq_dec i (c + 1)) as [->|NE].
      - unfold zero_div. rewrite Nat.eqb_refl. reflexivity.
      - destruct (nth_error ts (i - 1)) as [u|] eqn:Eu; [|apply nth_error_None in Eu; lia]. replace i with (i - 1 + 1) by lia.
        assert (NE' : i - 1 <> c) by lia. apply (ZD c (i - 1) u Eu NE'). apply (Z (i - 1) u NE' Eu). }
    rewrite E1. cbn [obind]. assert (E2 : every (seq 1 (c + 1 - 1)) (left_arrows ieq ts) = Ok true).
    { apply every_true, Forall_forall. intros i Hi. apply in_seq in Hi. destruct i as [|j]; [lia|].
      destruct (nth_error ts j) as [a|] eqn:Ea; [|apply nth_error_None in Ea; lia].
      destruct (nth_error ts (j + 1)) as [b|] eqn:Eb; [|apply nth_error_None in Eb; lia].
      destruct (A j a b Ea Eb) as (A1 & _). replace (Datatypes.S j) with (j + 1) by lia. unfold left_arrows.
      rewrite (proj2 (RD j a b ArrIn Ea Eb) (A1 ltac:(lia))). cbn [obind arrow_eqb negb].
      destruct (Nat.ltb_spec 1 (j + 1)); [|reflexivity]. destruct j as [|j]; [lia|].
      destruct (nth_error ts j) as [a'|] eqn:Ea'; [|apply nth_error_None in Ea'; lia]. replace (Datatypes.S j) with (j + 1) in * by lia.
      destruct (A j a' a Ea' Ea) as (_ & A2 & _). rewrite (proj2 (LD j a' a ArrOut Ea' Ea) (A2 ltac:(lia))). reflexivity. }
    rewrite E2. cbn [obind]. apply every_true, Forall_forall. intros i Hi. apply in_rev in Hi. apply in_seq in Hi.
    destruct i as [|[|j]]; [lia|lia|]. replace (Datatypes.S (Datatypes.S j)) with (j + 1 + 1) in * by lia.
    destruct (nth_error ts j) as [a|] eqn:Ea; [|apply nth_error_None in Ea; lia].
    destruct (nth_error ts (j + 1)) as [b|] eqn:Eb; [|apply nth_error_None in Eb; lia].
    destruct (A j a b Ea Eb) as (_ & _ & A3 & _). unfold right_arrows. rewrite (proj2 (LD j a b ArrIn Ea Eb) (A3 ltac:(lia))).
    destruct (Nat.ltb_spec (j + 1 + 1) (length ts)); cbn [obind]; [|reflexivity].
    destruct (nth_error ts (j + 1 + 1)) as [b'|] eqn:Eb'; [|apply nth_error_None in Eb'; lia].
    destruct (A (j + 1) b b' Eb Eb') as (_ & _ & _ & A4). rewrite (proj2 (RD (j + 1) b b' ArrOut Eb Eb') (A4 ltac:(lia))). reflexivity.
Qed.

(** If checkQNs accepts tensors that conserve the quantum numbers, all configurations of nonzero amplitude have the
    quantum number div(psi(c)), c = findCenter(psi); if the limits of psi enclose just c, totalQN returns it too. *)
Theorem C72_check_charge : forall (ts : list qt) qs os ls, Forall2 conserves ts qs -> network ts os ls -> checkQNs ts = Ok true ->
  exists c t Q, findCenter ts = Ok (Some (c + 1)) /\ nth_error ts c = Some t /\ qdiv qns t = Ok Q /\
    (forall s, qamp ts ls s <> r0 -> forall n, qn_val_of Q n = residue (M n) (charge os s n)) /\
    totalQN qns ts c (c + 2) = Ok (qn_add qn0 Q) /\ qn_eqb (qn_add qn0 Q) Q = true.
Proof.
  intros ts qs os ls F N H.
  assert (ND : Forall (fun t => NoDup (qis t)) ts).
  { clear - F. induction F as [|t q ts qs (_ & d & _ & (P & _) & _) F IH]; constructor; auto. }
  apply (C72_checkQNs ts ND) in H as (c & t & Et & Nt & Ot & B & Z & _).
  assert (Lc : c < length ts) by (apply nth_error_Some; congruence).
  assert (nthc : forall j u, nth_error ts j = Some u -> exists q, nth_error qs j = Some q /\ conserves u q).
  { clear - F. induction F as [|t' q' ts qs C F IH]; intros [|j] u E; try discriminate; [injection E as ->; eexists; split; [reflexivity|exact C]|]. apply (IH j u E). }
  destruct (nthc c t Et) as (q & Eq & Cq). destruct (qdiv_ok bs qns M S Sch t q Cq) as (Q & EQ & CQ & _).
  exists c, t, Q. split. { apply findCenter_spec. exists c, t. split; [lia|]. auto. } split; [exact Et|]. split; [exact EQ|].
  assert (ET : totalQN qns ts c (c + 2) = Ok (qn_add qn0 Q)).
  { unfold totalQN. replace (c + 2 - 1 - c) with 1 by lia. cbn [total_loop]. rewrite (at_site_ok ts c t Et). cbn [obind]. rewrite EQ. reflexivity. }
  assert (EA : qn_eqb (qn_add qn0 Q) Q = true).
  { rewrite (proj2 (C01_qn_add_zero M S Q Sch CQ)). apply (qn_eqb_iff M S); auto. }
  split; [|split; [exact ET|exact EA]]. intros s A n.
  (* A tensor without blocks would make the amplitude 0; so div of each tensor is its flux. *)
  destruct (Z.eq_dec (qn_val_of Q n) (residue (M n) (charge os s n))) as [E|NE]; [exact E|]. exfalso. apply A.
  apply (sum_over_zero r0 r1 radd rmul rsub ropp RT ieq ieq_spec bs). intros s' Hs'.
  destruct (qprod_cases r0 r1 radd rmul rsub ropp RT bs qns M S ts qs s' F) as [Bl|Bl]; [|exact Bl]. exfalso. apply NE.
  destruct (total_charge r0 r1 radd rmul rsub ropp RT ieq ieq_spec bs qns M S Sch ts qs c (c + 2) os ls F N ltac:(lia) ltac:(lia)) as (Q' & E' & C' & H').
  { intros j q' Ej Hj. assert (j <> c) by lia. destruct (nth_error ts j) as [u|] eqn:Eu.
    2:{ apply nth_error_None in Eu. assert (j < length qs) by (apply nth_error_Some; congruence). assert (length ts = length qs) by (clear - F; induction F; cbn; congruence). lia. }
    destruct (nthc j u Eu) as (q2 & E2 & C2). rewrite Ej in E2. injection E2 as <-. destruct (Z j u H Eu) as (q3 & E3 & Z3).
    destruct (qdiv_ok bs qns M S Sch u q' C2) as (q4 & E4 & C4 & K4). rewrite E3 in E4. injection E4 as <-.
    assert (K : qn_eqb q3 q' = true).
    { apply K4. rewrite Forall_forall in Bl. destruct (Bl u (nth_error_In _ _ Eu)) as (d & Ed & Hd). exists d. split; [exact Ed|].
      intros K. unfold has_block in Hd. rewrite K in Hd. destruct Hd. }
    destruct C2 as (_ & d & _ & _ & _ & _ & C2 & _).
    apply (qn_eqb_iff M S); auto using ch_zero. intros m. rewrite <- (proj1 (qn_eqb_iff M S q3 q' Sch C4 C2) K m).
    apply (proj1 (qn_eqb_iff M S q3 qn0 Sch C4 (ch_zero M S)) Z3). }
  rewrite ET in E'. injection E' as <-. rewrite <- (H' s A n). symmetry.
  apply (proj1 (qn_eqb_iff M S _ _ Sch C' CQ) EA n).
Qed.

(** A null tensor: left of the centre, or with no centre left of it, checkQNs throws; one without storage elsewhere than at
    the centre makes it return false or throw.  totalQN throws on a null tensor, or one without storage, within the limits. *)
Theorem C72_null : forall ts : list qt,
  (forall a t b, ts = a ++ t :: b -> qis t = [] -> Forall (fun u => qis u <> [] /\ ~ one_arrow u) a -> checkQNs ts = Err) /\
  (forall c j t, findCenter ts = Ok (Some (c + 1)) -> nth_error ts j = Some t -> j <> c -> qst t = None -> checkQNs ts <> Ok true) /\
  (forall j l r t, nth_error ts j = Some t -> qis t = [] \/ qst t = None -> l <= j -> j + 1 < r -> forall Q, totalQN qns ts l r <> Ok Q).
Proof.
  intros ts. split; [|split].
  - intros a t b -> E A. unfold TqModel.checkQNs, findCenter. assert (K : forall j, findCenter_from (a ++ t :: b) j = Err).
    { induction A as [|u a [N O] A IH]; intros j; cbn [app findCenter_from]; [rewrite E; reflexivity|].
      destruct (qis u) eqn:Eu; [congruence|]. destruct (all_same u) eqn:S'; [apply all_same_spec in S'; contradiction|]. apply IH. }
    rewrite K. reflexivity.
  - intros c j t E Et Hc Es H. unfold TqModel.checkQNs in H. rewrite E in H. cbn [obind] in H.
    destruct (every (seq 1 (length ts)) _) as [[|]| |] eqn:E1; cbn [obind] in H; try discriminate. apply every_true in E1. rewrite Forall_forall in E1.
    assert (j < length ts) by (apply nth_error_Some; congruence). specialize (E1 (j + 1)). unfold zero_div in E1. rewrite in_seq in E1.
    destruct (Nat.eqb_spec (j + 1) (c + 1)); [lia|]. rewrite (at_site_ok ts j t Et) in E1. cbn [obind] in E1. unfold alloc, qdiv in E1. rewrite Es in E1.
    specialize (E1 ltac:(lia)). destruct (qis t); discriminate.
  - intros j l r t Et Ei Hl Hr. unfold totalQN. assert (K : forall n i tq Q, i <= j -> j < i + n -> total_loop qns ts n (i + 1) tq <> Ok Q).
    { induction n as [|n IH]; intros i tq Q Hi Hn; [lia|]. cbn [total_loop]. destruct (Nat.eq_dec i j) as [->|NE].
      - rewrite (at_site_ok ts j t Et). cbn [obind]. unfold qdiv. destruct Ei as [-> | ->]; [discriminate|]. destruct (qis t); discriminate.
      - destruct (at_site ts (i + 1)) as [u| |]; cbn [obind]; try discriminate. destruct (qdiv qns u); cbn [obind]; try discriminate.
        apply (IH (Datatypes.S i)); lia. }
    intros Q. apply K; lia.
Qed.
End Props.

(** * A case that meets the hypotheses: |100> + 2|010> + 5|001> on three sites, centre on the first. *)
Definition c72_bs (_ : nat) : list nat := [1; 1].
Definition c72_q : QN := ex_q ex_entries1.
Definition c72_qns (_ : nat) : list QN := [qn0; c72_q].
Definition c72_dir (i : list nat) (x : nat) : Arrow := if existsb (Nat.eqb x) i then ArrIn else ArrOut.
Definition c72_ts : list (qt Z nat) :=
  [mkQt [0; 10] (c72_dir []) (Some (mkQD [([1; 0], 0); ([0; 1], 1)] [1; 1]%Z));
   mkQt [10; 1; 11] (c72_dir [10]) (Some (mkQD [([0; 0; 0], 0); ([1; 1; 0], 1); ([1; 0; 1], 2)] [1; 2; 5]%Z));
   mkQt [11; 2] (c72_dir [11]) (Some (mkQD [([0; 0], 0); ([1; 1], 1)] [1; 1]%Z))].
Lemma c72_conserves : Forall2 (conserves c72_bs c72_qns ex_mod ex_names) c72_ts [c72_q; qn0; qn0].
Proof.
  assert (L : forall is, labelled c72_bs c72_qns ex_mod ex_names is).
  { intros is x _. split; [reflexivity|]. constructor; [constructor|]. constructor; [exact ex_charges1|constructor]. }
  assert (P : forall is, NoDup is -> proper c72_bs is).
  { intros is H. split; [exact H|]. intros x _. split; [discriminate|]. repeat constructor. }
  assert (FL : forall dir is b q, valid (map (nblocks c72_bs) is) b -> Charges ex_mod ex_names q ->
    (match block_qn c72_qns dir qn0 is b with Ok q' => qn_eqb q' q | _ => false end) = true -> has_flux c72_qns dir ex_mod is b q).
  { intros dir is b q V C H. destruct (block_qn_flux c72_bs c72_qns dir ex_mod ex_names ex_scheme is b q (L is) V C) as (q' & E & _ & _ & K).
    rewrite E in H. apply K, H. }
  assert (V : forall is b, length is = length b -> Forall (fun i => i < 2) b -> valid (map (nblocks c72_bs) is) b).
  { induction is as [|x is IH]; intros [|i b] E F; try discriminate; [constructor|]. inversion F; subst. cbn. constructor; [assumption|]. apply IH; [cbn in E; lia|assumption]. }
  repeat (apply Forall2_cons || apply Forall2_nil); (split; [discriminate|]); eexists; (split; [reflexivity|]).
  all: (split; [apply P; cbn; repeat constructor; cbn; intuition discriminate|]); (split; [apply L|]).
  all: (split; [split; [cbn; repeat (split; [reflexivity|split; [repeat constructor; auto|]]); reflexivity|repeat constructor; cbn; lia]|]).
  all: (split; [exact ex_charges1 || constructor|]).
  all: intros b Hb; cbn in Hb; repeat (destruct Hb as [<-|Hb]); [.. | destruct Hb].
  all: apply FL; [apply V; [reflexivity|repeat constructor]|exact ex_charges1 || constructor|vm_compute; reflexivity].
Qed.
Example C72_nonvacuous :
  Scheme ex_mod ex_names /\ Forall2 (conserves c72_bs c72_qns ex_mod ex_names) c72_ts [c72_q; qn0; qn0] /\
  network c72_ts [(0, ArrOut); (1, ArrOut); (2, ArrOut)] [10; 11] /\
  qamp 0%Z 1%Z Z.add Z.mul Nat.eqb c72_bs c72_ts [10; 11] (fun x => if x =? 1 then 1 else 0) = 2%Z /\
  qamp 0%Z 1%Z Z.add Z.mul Nat.eqb c72_bs c72_ts [10; 11] (fun x => if x =? 2 then 1 else 0) = 5%Z /\
  checkQNs Nat.eqb c72_qns c72_ts = Ok true /\ totalQN c72_qns c72_ts 0 2 = Ok c72_q /\ qn_eqb c72_q qn0 = false /\
  totalQN c72_qns c72_ts 0 4 = Ok c72_q /\ Forall (fun t => NoDup (qis t)) c72_ts.
Proof.
  split; [exact ex_scheme|]. split; [exact c72_conserves|]. split.
  { split; [cbn; repeat constructor; cbn; intuition discriminate|]. cbn. 
    change [(0, ArrOut); (10, ArrOut); (10, ArrIn); (1, ArrOut); (11, ArrOut); (11, ArrIn); (2, ArrOut)]
      with ([(0, ArrOut)] ++ ([(10, ArrOut); (10, ArrIn)] ++ [(1, ArrOut)] ++ ([(11, ArrOut); (11, ArrIn)] ++ [(2, ArrOut)]))).
    change [(0, ArrOut); (1, ArrOut); (2, ArrOut); (10, ArrOut); (10, ArrIn); (11, ArrOut); (11, ArrIn)]
      with ([(0, ArrOut)] ++ (([(1, ArrOut)] ++ [(2, ArrOut)]) ++ [(10, ArrOut); (10, ArrIn)]) ++ [(11, ArrOut); (11, ArrIn)]).
    apply Permutation_app_head. rewrite <- app_assoc.
    eapply perm_trans; [apply Permutation_app_comm|]. rewrite <- !app_assoc. apply Permutation_app_head.
    eapply perm_trans; [|apply Permutation_app_comm]. rewrite <- !app_assoc.
    eapply perm_trans; [|apply Permutation_app_comm]. rewrite <- !app_assoc.
    apply Permutation_app_head. apply Permutation_refl. }
  split; [vm_compute; reflexivity|]. split; [vm_compute; reflexivity|]. split; [vm_compute; reflexivity|]. split; [vm_compute; reflexivity|].
  split; [vm_compute; reflexivity|]. split; [vm_compute; reflexivity|]. repeat constructor; cbn; intuition discriminate.
Qed.

Print Assumptions C72_totalQN.
Print Assumptions C72_limits.
Print Assumptions C72_checkQNs.
Print Assumptions C72_check_charge.
Print Assumptions C72_null.
