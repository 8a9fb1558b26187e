From Coq Require Import ZArith List Bool Lia.
From Verif Require Import Util LocalModel LocalSpec.
Import ListNotations.
Local Open Scope Z_scope.
Local Open Scope outcome_scope.
Local Arguments Z.add : simpl never.
Local Arguments Z.sub : simpl never.
Local Arguments Z.of_nat : simpl never.

Section LocalProofs.
Context {E T : Type} (stepL stepR : Z -> option E -> T -> E).
Notation lmpo := (lmpo E).
Variables (n : Z) (op : bool) (bl br : option E) (l r : Z).
Hypothesis range : 0 <= l < r /\ r <= n + 1.
Notation envL := (envL stepL bl l). Notation envR := (envR stepR br r).

Lemma envL_base : forall psi, envL psi l = bl.
Proof. intros. unfold LocalSpec.envL. replace (l - l) with 0 by lia. reflexivity. Qed.
Lemma envR_base : forall psi, envR psi r = br.
Proof. intros. unfold LocalSpec.envR. replace (r - r) with 0 by lia. reflexivity. Qed.
Lemma envL_step : forall psi k, l <= k -> envL psi (k + 1) = Some (stepL (k + 1) (envL psi k) (psi (k + 1))).
Proof.
  intros psi k H. unfold LocalSpec.envL. replace (Z.to_nat (k + 1 - l)) with (S (Z.to_nat (k - l))) by lia. cbn [envL_n].
  replace (l + Z.of_nat (S (Z.to_nat (k - l)))) with (k + 1) by lia. reflexivity.
Qed.
Lemma envR_step : forall psi k, k <= r -> envR psi (k - 1) = Some (stepR (k - 1) (envR psi k) (psi (k - 1))).
Proof.
  intros psi k H. unfold LocalSpec.envR. replace (Z.to_nat (r - (k - 1))) with (S (Z.to_nat (r - k))) by lia. cbn [envR_n].
  replace (r - Z.of_nat (S (Z.to_nat (r - k)))) with (k - 1) by lia. reflexivity.
Qed.
Lemma envL_some : forall psi k, l < k -> envL psi k <> None.
Proof. intros psi k H. replace k with (k - 1 + 1) by lia. rewrite envL_step by lia. discriminate. Qed.
Lemma envR_some : forall psi k, k < r -> envR psi k <> None.
Proof. intros psi k H. replace k with (k + 1 - 1) by lia. rewrite envR_step by lia. discriminate. Qed.
Lemma envL_change : forall psi j t k, l <= k < j -> envL (fun i => if i =? j then t else psi i) k = envL psi k.
Proof.
  intros psi j t k H. unfold LocalSpec.envL. assert (K : l + Z.of_nat (Z.to_nat (k - l)) < j) by lia. revert K. generalize (Z.to_nat (k - l)) as m.
  induction m as [|m IH]; intros K; [reflexivity|]. cbn [envL_n]. rewrite IH by lia. destruct (Z.eqb_spec (l + Z.of_nat (S m)) j); [lia|reflexivity].
Qed.
Lemma envR_change : forall psi j t k, j < k <= r -> envR (fun i => if i =? j then t else psi i) k = envR psi k.
Proof.
  intros psi j t k H. unfold LocalSpec.envR. assert (K : j < r - Z.of_nat (Z.to_nat (r - k))) by lia. revert K. generalize (Z.to_nat (r - k)) as m.
  induction m as [|m IH]; intros K; [reflexivity|]. cbn [envR_n]. rewrite IH by lia. destruct (Z.eqb_spec (r - Z.of_nat (S m)) j); [lia|reflexivity].
Qed.

(** The stored value of position k, in memory or on disk. *)
Definition lv (s : lmpo) (k : Z) : option E :=
  match lPH s k with Some e => Some e | None => if lwr s then lfile s k else None end.
(** Null boundaries in write mode. *)
Definition wbound (s : lmpo) : Prop := lwr s = true -> op = true /\ (l = 0 <-> bl = None) /\ (r = n + 1 <-> br = None).
Definition base (s : lmpo) : Prop := lN s = n /\ lop s = op /\ wbound s.
(** Right edges are valid from max(lR, lL+1) on: a move of the left edge may overwrite the
    ones below. *)
Definition okL (psi : Z -> T) (s : lmpo) : Prop := forall k, l <= k <= lL s -> lv s k = envL psi k.
Definition okR (psi : Z -> T) (s : lmpo) : Prop := forall k, lL s < k -> lR s <= k <= r -> lv s k = envR psi k.
Definition inL (s : lmpo) : Prop := lPH s (lL s) = lv s (lL s).
Definition inR (s : lmpo) : Prop := lPH s (lR s) = lv s (lR s).
Definition same (s s' : lmpo) : Prop := lN s' = lN s /\ lop s' = lop s /\ lwr s' = lwr s /\ lnc s' = lnc s.

Definition inv (psi : Z -> T) (s : lmpo) : Prop :=
  base s /\ 0 <= lnc s <= 2 /\ l <= lL s < lR s /\ lR s <= r /\ okL psi s /\ okR psi s /\ inL s /\ inR s.

Lemma lv_withPH : forall s k e k', lv (withPH s k (Some e)) k' = if k' =? k then Some e else lv s k'.
Proof. intros. unfold lv. cbn. destruct (k' =? k); reflexivity. Qed.
Lemma page_out_ok : forall s k v, 0 <= k <= n + 1 -> lN s = n -> (lwr s = true) ->
  exists s', page_out s k v = Ok s' /\ same s s' /\ lL s' = lL s /\ lR s' = lR s /\ (forall j, lv s' j = lv s j) /\
    (forall j, j <> k -> lPH s' j = lPH s j) /\ (k = v -> s' = s).
Proof.
  intros s k v H Hn Hw. unfold page_out. destruct (Z.eqb_spec k v).
  - exists s. unfold same. auto 10.
  - unfold at_ok. destruct (Z.leb_spec 0 k); [|lia]. destruct (Z.leb_spec k (lN s + 1)); [|lia]. cbn [andb].
    destruct (lPH s k) as [e|] eqn:Ek.
    + eexists. split; [reflexivity|]. split; [unfold same; cbn; auto|]. split; [reflexivity|]. split; [reflexivity|].
      split; [|split; [|congruence]].
      * intros j. unfold lv. cbn. destruct (Z.eqb_spec j k) as [->|]; [rewrite Ek, Hw; reflexivity|reflexivity].
      * intros j Hj. cbn. destruct (Z.eqb_spec j k); [congruence|reflexivity].
    + exists s. unfold same. auto 10 using eq_refl.
Qed.
Lemma page_in_ok : forall s k, lwr s = true -> lv s k <> None ->
  exists s', page_in s k = Ok s' /\ same s s' /\ lL s' = lL s /\ lR s' = lR s /\ (forall j, lv s' j = lv s j) /\
    (forall j, j <> k -> lPH s' j = lPH s j) /\ lPH s' k = lv s k.
Proof.
  intros s k Hw H. unfold page_in. unfold lv in H. destruct (lPH s k) as [e|] eqn:Ek.
  - exists s. unfold same, lv. rewrite Ek. auto 10.
  - rewrite Hw in H. destruct (lfile s k) as [e|] eqn:Ef; [|congruence]. eexists. split; [reflexivity|]. split; [unfold same; cbn; auto|].
    split; [reflexivity|]. split; [reflexivity|]. split; [|split].
    + intros j. rewrite lv_withPH. destruct (Z.eqb_spec j k) as [->|]; [|reflexivity]. unfold lv. rewrite Ek, Hw, Ef. reflexivity.
    + intros j Hj. cbn. destruct (Z.eqb_spec j k); [congruence|reflexivity].
    + cbn. rewrite Z.eqb_refl. unfold lv. rewrite Ek, Hw, Ef. reflexivity.
Qed.

(** Moving a limit keeps every stored value; the new element is in memory. *)
Lemma setL_ok : forall s v, lN s = n -> 0 <= lL s <= n + 1 -> 0 <= v <= n + 1 ->
  (lwr s = true -> if v <? 1 then lv s v = None else lv s v <> None) ->
  exists s', setLHlim s v = Ok s' /\ same s s' /\ lL s' = v /\ lR s' = lR s /\ (forall j, lv s' j = lv s j) /\
    lPH s' v = lv s v /\ (forall j, j <> lL s -> j <> v -> lPH s' j = lPH s j).
Proof.
  intros s v Hn H1 H2 Hb. unfold setLHlim. destruct (lwr s) eqn:Hw; cbn [negb].
  2:{ eexists. split; [reflexivity|]. unfold same, lv. cbn. rewrite Hw. repeat split; auto. destruct (lPH s v); reflexivity. }
  destruct (page_out_ok s (lL s) v H1 Hn Hw) as (s1 & -> & (S1 & S2 & S3 & S4) & L1 & R1 & V1 & P1 & Q1). cbn [obind].
  unfold at_ok. cbn [withL lN]. rewrite S1, Hn.
  destruct (Z.leb_spec 0 v); [|lia]. destruct (Z.leb_spec v (n + 1)); [|lia]. cbn [andb negb].
  specialize (Hb eq_refl). destruct (Z.ltb_spec v 1).
  - eexists. split; [reflexivity|]. assert (v = 0) as -> by lia.
    rewrite <- V1 in Hb. assert (P0 : lPH s1 0 = None) by (unfold lv in Hb; destruct (lPH s1 0); [discriminate|reflexivity]).
    split; [unfold same; cbn; auto|]. split; [reflexivity|]. split; [cbn; exact R1|]. split; [|split].
    + intros j. rewrite <- V1. unfold lv. cbn. destruct (Z.eqb_spec j 0) as [->|]; [rewrite P0; reflexivity|reflexivity].
    + cbn. rewrite <- V1. symmetry. exact Hb.
    + intros j J1 J2. cbn. destruct (Z.eqb_spec j 0); [congruence|]. apply P1. exact J1.
  - destruct (page_in_ok (withL s1 v) v) as (s2 & E2 & (T1 & T2 & T3 & T4) & L2 & R2 & V2 & P2 & Q2).
    + cbn. congruence.
    + change (lv (withL s1 v) v) with (lv s1 v). rewrite V1. exact Hb.
    + exists s2. split; [exact E2|]. split; [unfold same in *; cbn in *; repeat split; congruence|]. split; [rewrite L2; reflexivity|].
      split; [rewrite R2; exact R1|]. split; [|split].
      * intros j. rewrite V2. change (lv (withL s1 v) j) with (lv s1 j). apply V1.
      * rewrite Q2. change (lv (withL s1 v) v) with (lv s1 v). apply V1.
      * intros j J1 J2. rewrite P2 by exact J2. cbn. apply P1. exact J1.
Qed.
Lemma setR_ok : forall s v, lN s = n -> 0 <= lR s <= n + 1 -> 0 <= v <= n + 1 ->
  (lwr s = true -> if n <? v then lv s v = None else lv s v <> None) ->
  exists s', setRHlim s v = Ok s' /\ same s s' /\ lR s' = v /\ lL s' = lL s /\ (forall j, lv s' j = lv s j) /\
    lPH s' v = lv s v /\ (forall j, j <> lR s -> j <> v -> lPH s' j = lPH s j).
Proof.
  intros s v Hn H1 H2 Hb. unfold setRHlim. destruct (lwr s) eqn:Hw; cbn [negb].
  2:{ eexists. split; [reflexivity|]. unfold same, lv. cbn. rewrite Hw. repeat split; auto. destruct (lPH s v); reflexivity. }
  destruct (page_out_ok s (lR s) v H1 Hn Hw) as (s1 & -> & (S1 & S2 & S3 & S4) & L1 & R1 & V1 & P1 & Q1). cbn [obind].
  unfold at_ok. cbn [withR lN]. rewrite S1, Hn.
  destruct (Z.leb_spec 0 v); [|lia]. destruct (Z.leb_spec v (n + 1)); [|lia]. cbn [andb negb].
  specialize (Hb eq_refl). destruct (Z.ltb_spec n v).
  - eexists. split; [reflexivity|]. rewrite <- V1 in Hb. assert (P0 : lPH s1 v = None) by (unfold lv in Hb; destruct (lPH s1 v); [discriminate|reflexivity]).
    split; [unfold same; cbn; auto|]. split; [reflexivity|]. split; [cbn; exact L1|]. split; [|split].
    + intros j. rewrite <- V1. unfold lv. cbn. destruct (Z.eqb_spec j v) as [->|]; [rewrite P0; reflexivity|reflexivity].
    + cbn. rewrite Z.eqb_refl, <- V1. symmetry. exact Hb.
    + intros j J1 J2. cbn. destruct (Z.eqb_spec j v); [congruence|]. apply P1. exact J1.
  - destruct (page_in_ok (withR s1 v) v) as (s2 & E2 & (T1 & T2 & T3 & T4) & L2 & R2 & V2 & P2 & Q2).
    + cbn. congruence.
    + change (lv (withR s1 v) v) with (lv s1 v). rewrite V1. exact Hb.
    + exists s2. split; [exact E2|]. split; [unfold same in *; cbn in *; repeat split; congruence|]. split; [rewrite R2; reflexivity|].
      split; [rewrite L2; exact L1|]. split; [|split].
      * intros j. rewrite V2. change (lv (withR s1 v) j) with (lv s1 j). apply V1.
      * rewrite Q2. change (lv (withR s1 v) v) with (lv s1 v). apply V1.
      * intros j J1 J2. rewrite P2 by exact J2. cbn. apply P1. exact J1.
Qed.

(** Invariants while the left edge moves right. *)
Definition mid (psi : Z -> T) (s : lmpo) : Prop :=
  base s /\ l <= lL s <= r /\ l <= lR s <= r /\ okL psi s /\ okR psi s /\ inL s.
Lemma makeL_ok : forall m psi s, mid psi s -> lL s + Z.of_nat m < r ->
  exists s', makeL_loop stepL m psi s = Ok s' /\ mid psi s' /\ same s s' /\ lL s' = lL s + Z.of_nat m /\ lR s' = lR s /\
    (forall j, lL s' < j -> lPH s' j = lPH s j).
Proof.
  induction m as [|m IH]; intros psi s M Hm.
  - exists s. cbn. split; [reflexivity|]. split; [exact M|]. split; [unfold same; auto|]. split; [lia|split; reflexivity].
  - destruct M as ((Bn & Bo & Bw) & HL & HR & OL & OR & IL). cbn [makeL_loop].
    unfold at_ok. destruct (Z.leb_spec 0 (lL s)); [|lia]. destruct (Z.leb_spec (lL s) (lN s + 1)); [|lia].
    destruct (Z.leb_spec 0 (lL s + 1)); [|lia]. destruct (Z.leb_spec (lL s + 1) (lN s + 1)); [|lia]. cbn [andb].
    set (s1 := withPH s (lL s + 1) _).
    assert (Vs1 : forall j, lv s1 j = if j =? lL s + 1 then envL psi (lL s + 1) else lv s j).
    { intros j. unfold s1. rewrite lv_withPH. destruct (j =? lL s + 1); [|reflexivity]. rewrite envL_step by lia. rewrite <- (OL (lL s)) by lia. rewrite <- IL. reflexivity. }
    destruct (setL_ok s1 (lL s + 1)) as (s2 & E2 & (S1 & S2 & S3 & S4) & L2 & R2 & V2 & P2 & Q2); try (cbn; lia).
    { intros _. destruct (Z.ltb_spec (lL s + 1) 1); [lia|]. rewrite Vs1, Z.eqb_refl. apply envL_some. lia. }
    rewrite E2. cbn [obind]. cbn in S1, S2, S3, S4, R2.
    destruct (IH psi s2) as (s' & E' & M' & (U1 & U2 & U3 & U4) & L' & R' & P'); [|rewrite L2; lia|].
    + split; [split; [congruence|]; split; [congruence|]; unfold wbound in *; rewrite S3; exact Bw|]. rewrite L2, R2.
      split; [lia|]. split; [lia|]. split; [|split].
      * intros k Hk. rewrite V2, Vs1. destruct (Z.eqb_spec k (lL s + 1)) as [->|]; [reflexivity|]. apply OL. lia.
      * intros k Hk1 Hk2. rewrite V2, Vs1. destruct (Z.eqb_spec k (lL s + 1)); [lia|]. apply OR; [lia|]. congruence.
      * unfold inL. rewrite L2, P2, V2. reflexivity.
    + exists s'. rewrite L2 in L'. split; [exact E'|]. split; [exact M'|]. split; [unfold same; repeat split; congruence|].
      split; [lia|]. split; [congruence|]. intros j Hj. rewrite P' by exact Hj. rewrite Q2 by (cbn; lia). cbn. destruct (Z.eqb_spec j (lL s + 1)); [lia|reflexivity].
Qed.
(** While the right edge moves left: left edges are only kept below b. *)
Definition midR (b : Z) (psi : Z -> T) (s : lmpo) : Prop :=
  base s /\ l <= lL s <= r /\ b <= lR s <= r /\ (forall k, l <= k <= lL s -> k < b -> lv s k = envL psi k) /\
  (forall k, lR s <= k <= r -> lv s k = envR psi k) /\ inR s.
Lemma makeR_ok : forall m b psi s, l < b -> midR b psi s -> b <= lR s - Z.of_nat m ->
  exists s', makeR_loop stepR m psi s = Ok s' /\ midR b psi s' /\ same s s' /\ lR s' = lR s - Z.of_nat m /\ lL s' = lL s.
Proof.
  induction m as [|m IH]; intros b psi s Hb M Hm.
  - exists s. cbn. split; [reflexivity|]. split; [exact M|]. split; [unfold same; auto|]. split; [lia|reflexivity].
  - destruct M as ((Bn & Bo & Bw) & HL & HR & OL & OR & IR). cbn [makeR_loop].
    unfold at_ok. destruct (Z.leb_spec 0 (lR s)); [|lia]. destruct (Z.leb_spec (lR s) (lN s + 1)); [|lia].
    destruct (Z.leb_spec 0 (lR s - 1)); [|lia]. destruct (Z.leb_spec (lR s - 1) (lN s + 1)); [|lia]. cbn [andb].
    set (s1 := withPH s (lR s - 1) _).
    assert (Vs1 : forall j, lv s1 j = if j =? lR s - 1 then envR psi (lR s - 1) else lv s j).
    { intros j. unfold s1. rewrite lv_withPH. destruct (j =? lR s - 1); [|reflexivity]. rewrite envR_step by lia. rewrite <- (OR (lR s)) by lia. rewrite <- IR. reflexivity. }
    destruct (setR_ok s1 (lR s - 1)) as (s2 & E2 & (S1 & S2 & S3 & S4) & R2 & L2 & V2 & P2 & Q2); try (cbn; lia).
    { intros _. destruct (Z.ltb_spec n (lR s - 1)); [lia|]. rewrite Vs1, Z.eqb_refl. apply envR_some. lia. }
    rewrite E2. cbn [obind]. cbn in S1, S2, S3, S4, L2.
    destruct (IH b psi s2 Hb) as (s' & E' & M' & (U1 & U2 & U3 & U4) & R' & L'); [|rewrite R2; lia|].
    + split; [split; [congruence|]; split; [congruence|]; unfold wbound in *; rewrite S3; exact Bw|]. rewrite L2, R2.
      split; [lia|]. split; [lia|]. split; [|split].
      * intros k Hk1 Hk2. rewrite V2, Vs1. destruct (Z.eqb_spec k (lR s - 1)) as [->|]; [lia|]. apply OL; lia.
      * intros k Hk. rewrite V2, Vs1. destruct (Z.eqb_spec k (lR s - 1)) as [->|]; [reflexivity|]. apply OR. lia.
      * unfold inR. rewrite R2, P2, V2. reflexivity.
    + exists s'. rewrite R2 in R'. split; [exact E'|]. split; [exact M'|]. split; [unfold same; repeat split; congruence|].
      split; [lia|congruence].
Qed.

Lemma lv_mem : forall s k, lwr s = false -> lv s k = lPH s k.
Proof. intros s k H. unfold lv. rewrite H. destruct (lPH s k); reflexivity. Qed.
Lemma wb_L : forall psi s k, wbound s -> lwr s = true -> l <= k -> if k <? 1 then envL psi k = None else envL psi k <> None.
Proof.
  intros psi s k W Hw Hk. destruct (W Hw) as (_ & WL & _). destruct (Z.ltb_spec k 1).
  - assert (k = l) as -> by lia. rewrite envL_base. apply WL. lia.
  - destruct (Z.eq_dec k l) as [->|]; [|apply envL_some; lia]. rewrite envL_base. intros K. apply WL in K. lia.
Qed.
Lemma wb_R : forall psi s k, wbound s -> lwr s = true -> k <= r -> if n <? k then envR psi k = None else envR psi k <> None.
Proof.
  intros psi s k W Hw Hk. destruct (W Hw) as (_ & _ & WR). destruct (Z.ltb_spec n k).
  - assert (k = r) as -> by lia. rewrite envR_base. apply WR. lia.
  - destruct (Z.eq_dec k r) as [->|]; [|apply envR_some; lia]. rewrite envR_base. intros K. apply WR in K. lia.
Qed.

Lemma position_ok : forall psi s b, inv psi s -> l <= b - 1 -> b + lnc s <= r -> (lwr s = true -> b - 1 <> lR s) ->
  exists s', position stepL stepR psi s b = Ok s' /\ inv psi s' /\ same s s' /\ lL s' = b - 1 /\ lR s' = b + lnc s.
Proof.
  intros psi s b (B & Hc & HL & HR & OL & OR & IL & IR) H1 H2 Hj. unfold position, makeL.
  destruct (makeL_ok (Z.to_nat (b - 1 - lL s)) psi s) as (s1 & E1 & M1 & S1 & L1 & R1 & P1); [|lia|].
  { split; [exact B|]. split; [lia|]. split; [lia|]. split; [exact OL|]. split; [|exact IL]. exact OR. }
  rewrite E1. cbn [obind]. unfold makeR. destruct M1 as (B1 & HL1 & HR1 & OL1 & OR1 & IL1).
  destruct S1 as (Sa & Sb & Sc & Sd).
  (* the right edge *)
  assert (K : exists s2, makeR_loop stepR (Z.to_nat (lR s1 - (b + lnc s))) psi s1 = Ok s2 /\ base s2 /\ same s1 s2 /\ lL s2 = lL s1 /\
     l <= lR s2 <= r /\ (forall k, l <= k <= b - 1 -> lv s2 k = envL psi k) /\ (forall k, b + lnc s <= k <= r -> lv s2 k = envR psi k) /\
     (lR s1 <= b + lnc s -> s2 = s1) /\ (b + lnc s < lR s1 -> lR s2 = b + lnc s)).
  { destruct (Z_le_gt_dec (lR s1) (b + lnc s)) as [Hle|Hgt].
    - replace (Z.to_nat (lR s1 - (b + lnc s))) with O by lia. exists s1. split; [reflexivity|]. split; [exact B1|]. split; [unfold same; auto|].
      split; [reflexivity|]. split; [lia|]. split; [intros k Hk; apply OL1; lia|]. split; [|split; [auto|lia]].
      intros k Hk. destruct (Z_lt_le_dec (lL s1) k) as [|]; [apply OR1; lia|].
      (* then the left edge did not move past k: lL s1 = lL s >= k *)
      exfalso. lia.
    - destruct (makeR_ok (Z.to_nat (lR s1 - (b + lnc s))) b psi s1) as (s2 & E2 & M2 & S2 & R2 & L2); [lia| |lia|].
      + assert (LR : lL s1 < lR s1) by lia. split; [exact B1|]. split; [lia|]. split; [lia|]. split; [intros k Hk _; apply OL1; lia|].
        split; [intros k Hk; apply OR1; lia|].
        unfold inR. rewrite P1 by exact LR. rewrite (OR1 (lR s1)) by lia. rewrite R1. rewrite IR. apply OR; lia.
      + exists s2. destruct M2 as (B2 & HL2 & HR2 & OL2 & OR2 & IR2). split; [exact E2|]. split; [exact B2|]. split; [exact S2|]. split; [exact L2|].
        split; [lia|]. split; [intros k Hk; apply OL2; lia|]. split; [intros k Hk; apply OR2; lia|]. split; lia. }
  destruct K as (s2 & E2 & (Bn & Bo & Bw) & (Ta & Tb & Tc & Td) & L2 & HR2 & VL & VR & Sm & Lr). rewrite E2. cbn [obind].
  destruct (setL_ok s2 (b - 1)) as (s3 & E3 & (Ua & Ub & Uc & Ud) & L3 & R3 & V3 & P3 & Q3); [exact Bn|lia|lia| |].
  { intros Hw. rewrite VL by lia. apply (wb_L psi s2); [exact Bw|exact Hw|lia]. }
  rewrite E3. cbn [obind].
  destruct (setR_ok s3 (b + lnc s)) as (s4 & E4 & (Xa & Xb & Xc & Xd) & R4 & L4 & V4 & P4 & Q4); [congruence|lia|lia| |].
  { intros Hw. rewrite V3, VR by lia. apply (wb_R psi s2); [exact Bw|congruence|lia]. }
  exists s4. split; [exact E4|]. split; [|split; [unfold same; repeat split; congruence|split; congruence]].
  split. { split; [congruence|]. split; [congruence|]. unfold wbound in *. rewrite Xc, Uc. exact Bw. }
  split; [rewrite Xd, Ud, Td, Sd; exact Hc|]. rewrite L4, L3, R4. split; [lia|]. split; [lia|]. split; [|split; [|split]].
  - intros k Hk. rewrite V4, V3. apply VL. rewrite L4, L3 in Hk. lia.
  - intros k _ Hk. rewrite V4, V3. apply VR. rewrite R4 in Hk. lia.
  - unfold inL. rewrite L4, L3. destruct (lwr s4) eqn:Hw; [|rewrite lv_mem by exact Hw; reflexivity].
    rewrite V4, V3, <- P3. apply Q4; [|lia].
    (* the old right limit is not the new left one *)
    destruct (Z_le_gt_dec (lR s1) (b + lnc s)) as [Hle|Hgt].
    + rewrite R3, (Sm Hle), R1. intros K. apply Hj; [congruence|exact K].
    + rewrite R3, Lr by lia. lia.
  - unfold inR. rewrite R4, P4, V4. reflexivity.
Qed.

Lemma shift_ok : forall psi s j, inv psi s -> op = true -> lL s = j - 1 -> lR s = j + lnc s -> lR s < r -> getL s <> None -> (lwr s = true -> 0 < lnc s) ->
  exists s', shift stepL stepR s j true (psi j) = Ok s' /\ inv psi s' /\ same s s' /\ lL s' = j /\ lR s' = j + lnc s + 1.
Proof.
  intros psi s j ((Bn & Bo & Bw) & Hc & HL & HR & OL & OR & IL & IR) Hop H1 H2 H3 Hn Hwc. unfold shift. rewrite Bo, Hop. cbn [negb].
  destruct (Z.eqb_spec (j - 1) (lL s)) as [_|]; [|lia]. cbn [negb].
  unfold at_ok. destruct (Z.leb_spec 0 (lL s)); [|lia]. destruct (Z.leb_spec (lL s) (lN s + 1)); [|lia].
  destruct (Z.leb_spec 0 j); [|lia]. destruct (Z.leb_spec j (lN s + 1)); [|lia]. cbn [andb].
  unfold getL in Hn. destruct (lPH s (lL s)) as [e|] eqn:Ee; [|congruence].
  set (s1 := withPH s j _).
  assert (Vs1 : forall k, lv s1 k = if k =? j then envL psi j else lv s k).
  { intros k. unfold s1. rewrite lv_withPH. destruct (k =? j); [|reflexivity]. replace j with (j - 1 + 1) by lia. rewrite envL_step by lia.
    rewrite <- (OL (j - 1)) by lia. replace (j - 1) with (lL s) by lia. rewrite <- IL, Ee. reflexivity. }
  destruct (setL_ok s1 j) as (s2 & E2 & (S1 & S2 & S3 & S4) & L2 & R2 & V2 & P2 & Q2); try (cbn; lia).
  { intros Hw. rewrite Vs1, Z.eqb_refl. apply (wb_L psi s); [exact Bw|exact Hw|lia]. }
  rewrite E2. cbn [obind]. cbn in S1, S2, S3, S4, R2.
  assert (VR : forall k, j + lnc s + 1 <= k <= r -> lv s2 k = envR psi k).
  { intros k Hk. rewrite V2, Vs1. destruct (Z.eqb_spec k j); [lia|]. apply OR; lia. }
  destruct (setR_ok s2 (j + lnc s + 1)) as (s3 & E3 & (Xa & Xb & Xc & Xd) & R3 & L3 & V3 & P3 & Q3); [congruence|lia|lia| |].
  { intros Hw. rewrite VR by lia. apply (wb_R psi s); [exact Bw|congruence|lia]. }
  exists s3. split; [exact E3|]. split; [|split; [unfold same; repeat split; congruence|split; congruence]].
  split. { split; [congruence|]. split; [congruence|]. unfold wbound in *. rewrite Xc, S3. exact Bw. }
  split; [rewrite Xd, S4; exact Hc|]. rewrite L3, L2, R3. split; [lia|]. split; [lia|]. split; [|split; [|split]].
  - intros k Hk. rewrite V3, V2, Vs1. destruct (Z.eqb_spec k j) as [->|]; [reflexivity|]. apply OL. rewrite L3, L2 in Hk. lia.
  - intros k _ Hk. rewrite V3. apply VR. rewrite R3 in Hk. lia.
  - unfold inL. rewrite L3, L2. destruct (lwr s3) eqn:Hw; [|rewrite lv_mem by exact Hw; reflexivity].
    rewrite V3, V2, <- P2. apply Q3; [|lia]. rewrite R2. specialize (Hwc ltac:(congruence)). lia.
  - unfold inR. rewrite R3, P3, V3. reflexivity.
Qed.

Lemma inv_start : forall psi, inv psi (make n op bl br l r).
Proof.
  intros psi. split; [split; [reflexivity|split; [reflexivity|intros H; discriminate]]|].
  cbn [make lnc lL lR]. split; [lia|]. split; [lia|]. split; [lia|]. split; [|split; [|split]].
  - intros k Hk. cbn in Hk. assert (k = l) as -> by lia. rewrite envL_base, lv_mem by reflexivity. cbn. destruct (Z.eqb_spec l r); [lia|]. rewrite Z.eqb_refl. reflexivity.
  - intros k _ Hk. cbn in Hk. assert (k = r) as -> by lia. rewrite envR_base, lv_mem by reflexivity. cbn. rewrite Z.eqb_refl. reflexivity.
  - unfold inL. rewrite lv_mem by reflexivity. reflexivity.
  - unfold inR. rewrite lv_mem by reflexivity. reflexivity.
Qed.
Lemma step_ok : forall s psi o, inv psi s -> lvalid n op bl br l r s o ->
  exists s' psi', lstep stepL stepR s psi o = Ok (s', psi') /\ inv psi' s' /\
    match o with
    | Position b => lL s' = b - 1 /\ lR s' = b + lnc s' /\ psi' = psi
    | Shift j => lL s' = j /\ lR s' = j + 1 + lnc s' /\ psi' = psi
    | _ => True
    end.
Proof.
  intros s psi o I V. destruct o as [b|v|j t|j| |]; cbn [lvalid lstep] in *.
  - destruct V as (V1 & V2 & V3). destruct (position_ok psi s b I V1 V2 V3) as (s' & E' & I' & (A & B & C & D) & L' & R').
    exists s', psi. rewrite E'. cbn. split; [reflexivity|]. split; [exact I'|]. rewrite D. auto.
  - unfold numCenter. destruct (Z.ltb_spec v 0); [lia|]. destruct (Z.ltb_spec 2 v); [lia|]. cbn [orb obind]. eexists. eexists. split; [reflexivity|].
    split; [|exact Logic.I]. destruct I as (B & Hc & HL & HR & OL & OR & IL & IR). split; [exact B|]. split; [exact V|]. auto 10.
  - eexists. eexists. split; [reflexivity|]. split; [|exact Logic.I]. destruct I as (B & Hc & HL & HR & OL & OR & IL & IR).
    split; [exact B|]. split; [exact Hc|]. split; [exact HL|]. split; [exact HR|]. split; [|split; [|split; assumption]].
    + intros k Hk. rewrite envL_change by lia. apply OL. exact Hk.
    + intros k Hk1 Hk2. rewrite envR_change by lia. apply OR; assumption.
  - destruct V as (V0 & V1 & V2 & V3 & V4 & V5). destruct (shift_ok psi s j I V0 V1 V2 V3 V4 V5) as (s' & E' & I' & (A & B & C & D) & L' & R').
    exists s', psi. rewrite E'. cbn. split; [reflexivity|]. split; [exact I'|]. rewrite D. split; [exact L'|]. split; [lia|reflexivity].
  - destruct V as (V1 & V2 & V3). destruct I as ((Bn & Bo & Bw) & Hc & HL & HR & OL & OR & IL & IR).
    unfold reset. rewrite Bo, V1. cbn [obind]. eexists. eexists. split; [reflexivity|]. split; [|exact Logic.I].
    assert (KL : lv s 0 = bl) by (rewrite <- V2, <- (envL_base psi); apply OL; lia).
    assert (KR : lv s (n + 1) = br) by (rewrite <- V3, <- (envR_base psi); apply OR; lia).
    set (s' := withR (withL s 0) (lN s + 1)).
    assert (Lv : forall k, lv s' k = lv s k) by reflexivity.
    split; [split; [exact Bn|split; [exact Bo|exact Bw]]|]. split; [exact Hc|]. cbn [s' withR withL lL lR]. split; [lia|]. split; [lia|].
    split; [|split; [|split]].
    + intros k Hk. cbn in Hk. rewrite Lv. apply OL. lia.
    + intros k _ Hk. cbn in Hk. rewrite Lv. apply OR; lia.
    + unfold inL. cbn [s' withR withL lL]. rewrite Lv. cbn [lPH s' withR withL]. destruct (lwr s) eqn:Hw; [|rewrite lv_mem by exact Hw; reflexivity].
      destruct (Bw Hw) as (_ & WL & _). assert (bl = None) as Eb by (apply WL; exact V2). rewrite KL, Eb in *. unfold lv in KL. destruct (lPH s 0); [discriminate|reflexivity].
    + unfold inR. cbn [s' withR withL lR]. rewrite Lv. cbn [lPH s' withR withL]. rewrite Bn. destruct (lwr s) eqn:Hw; [|rewrite lv_mem by exact Hw; reflexivity].
      destruct (Bw Hw) as (_ & _ & WR). assert (br = None) as Eb by (apply WR; exact V3). rewrite KR, Eb in *. unfold lv in KR. destruct (lPH s (n + 1)); [discriminate|reflexivity].
  - destruct V as (V1 & V2 & V3). destruct I as ((Bn & Bo & Bw) & Hc & HL & HR & OL & OR & IL & IR).
    unfold doWrite. rewrite Bo, V1. cbn [negb obind]. eexists. eexists. split; [reflexivity|]. split; [|exact Logic.I].
    set (s' := mkL _ _ _ _ _ _ _ _).
    assert (Lv : forall k, lv s' k = lv s k).
    { intros k. unfold lv, s'. cbn. destruct (lPH s k); [reflexivity|]. destruct (lwr s); reflexivity. }
    split; [split; [exact Bn|split; [unfold s'; cbn; congruence|]]|]. { intros _. auto. }
    split; [exact Hc|]. split; [exact HL|]. split; [exact HR|]. split; [|split; [|split]].
    + intros k Hk. rewrite Lv. apply OL. exact Hk.
    + intros k Hk1 Hk2. rewrite Lv. apply OR; assumption.
    + unfold inL. rewrite Lv. exact IL.
    + unfold inR. rewrite Lv. exact IR.
Qed.
Lemma reach_inv : forall s psi, lreach stepL stepR n op bl br l r s psi -> inv psi s.
Proof.
  intros s psi H. induction H as [psi|s psi o s' psi' H IH V Es].
  - apply inv_start.
  - destruct (step_ok s psi o IH V) as (s1 & p1 & E1 & I1 & _). rewrite E1 in Es. injection Es as <- <-. exact I1.
Qed.
End LocalProofs.
