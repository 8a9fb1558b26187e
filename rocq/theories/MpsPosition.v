(** Lemmas: position and svdBond on an MPS kept in memory. *)
From Coq Require Import ZArith List Bool Arith Lia.
From Verif Require Import Util BigSum MpsModel MpsTensor MpsSpec MpsProofs.
Import ListNotations.
Local Open Scope Z_scope.
Local Open Scope outcome_scope.
Local Arguments Z.add : simpl never.
Local Arguments Z.sub : simpl never.

Ltac zb := repeat match goal with
  | |- context [Z.ltb ?a ?b] => destruct (Z.ltb_spec a b)
  | |- context [Z.leb ?a ?b] => destruct (Z.leb_spec a b)
  | |- context [Z.eqb ?a ?b] => destruct (Z.eqb_spec a b)
  | H : context [Z.ltb ?a ?b] |- _ => destruct (Z.ltb_spec a b)
  | H : context [Z.leb ?a ?b] |- _ => destruct (Z.leb_spec a b)
  | H : context [Z.eqb ?a ?b] |- _ => destruct (Z.eqb_spec a b)
  end.

Section Mem.
Context {T W : Type}.
Notation mps := (mps T).
Notation disk := (disk T).

Lemma setBond_mem : forall (d : disk) (s : mps) b, mdo s = false ->
  exists s', setBond d s b = Ok (d, s') /\ mN s' = mN s /\ mA s' = mA s /\ ml s' = ml s /\ mr s' = mr s /\
    mdo s' = false /\ mdir s' = mdir s /\ matb s' = b.
Proof.
  intros d s b Hm. unfold setBond. destruct (Z.eqb_spec b (matb s)).
  - exists s. repeat split; auto.
  - rewrite Hm. cbn. eexists. split; [reflexivity|]. cbn. repeat split; auto.
Qed.
Lemma setSite_mem : forall (d : disk) (s : mps) j, mdo s = false ->
  exists s', setSite d s j = Ok (d, s') /\ mN s' = mN s /\ mA s' = mA s /\ ml s' = ml s /\ mr s' = mr s /\
    mdo s' = false /\ mdir s' = mdir s /\ matb s' = (if matb s <? j then j - 1 else j).
Proof.
  intros d s j Hm. unfold setSite. rewrite Hm. cbn. eexists. split; [reflexivity|]. cbn. repeat split; auto.
Qed.
Lemma ref_mem : forall (d : disk) (s : mps) i, mdo s = false -> 0 <= i <= mN s + 1 ->
  exists s', ref d s i = Ok (d, s') /\ mN s' = mN s /\ mA s' = mA s /\
    ml s' = (if i <=? ml s then i - 1 else ml s) /\ mr s' = (if mr s <=? i then i + 1 else mr s) /\
    mdo s' = false /\ mdir s' = mdir s /\ matb s' = (if matb s <? i then i - 1 else i).
Proof.
  intros d s i Hm Hi. unfold ref. assert (Ew : wrap s i = i) by (unfold wrap; zb; lia). rewrite Ew.
  destruct (setSite_mem d s i Hm) as (s1 & E & H1 & H2 & H3 & H4 & H5 & H6 & H7). rewrite E. cbn [obind].
  assert (I : inrange (ref_lims s1 i) i = true).
  { unfold inrange, ref_lims, withlims. cbn. rewrite H1. apply andb_true_intro. split; apply Z.leb_le; lia. }
  rewrite I. eexists. split; [reflexivity|]. cbn. rewrite H1, H2, H3, H4, H5, H6, H7. repeat split; auto.
Qed.
Lemma get_mem : forall (d : disk) (s : mps) i, mdo s = false -> 0 <= i <= mN s + 1 ->
  exists s', get d s i = Ok (d, s', mA s i) /\ mN s' = mN s /\ mA s' = mA s /\ ml s' = ml s /\ mr s' = mr s /\
    mdo s' = false /\ mdir s' = mdir s /\ matb s' = (if matb s <? i then i - 1 else i).
Proof.
  intros d s i Hm Hi. unfold get. assert (Ew : wrap s i = i) by (unfold wrap; zb; lia). rewrite Ew.
  destruct (setSite_mem d s i Hm) as (s1 & E & H1 & H2 & H3 & H4 & H5 & H6 & H7). rewrite E. cbn [obind].
  assert (I : inrange s1 i = true).
  { unfold inrange. rewrite H1. apply andb_true_intro. split; apply Z.leb_le; lia. }
  rewrite I, H2. eexists. split; [reflexivity|]. repeat split; auto.
Qed.

Variable orthL orthR : T -> T -> outcome (T * T).

(** The effect of orthMPS on the vector of tensors. *)
Definition orth_eff (o : T -> T -> outcome (T * T)) (A A' : Z -> option T) (b : Z) : Prop :=
  match A b, A (b + 1) with
  | Some x, Some y => exists x' y', o x y = Ok (x', y') /\
      A' b = Some x' /\ A' (b + 1) = Some y' /\ forall k, k <> b -> k <> b + 1 -> A' k = A k
  | _, _ => forall k, A' k = A k
  end.

Lemma orth_inv : forall o (s s' : mps) b, orth o s b = Ok s' ->
  mN s' = mN s /\ ml s' = ml s /\ mr s' = mr s /\ mdo s' = mdo s /\ mdir s' = mdir s /\ matb s' = matb s /\
  orth_eff o (mA s) (mA s') b.
Proof.
  intros o s s' b H. unfold orth in H. unfold orth_eff.
  destruct (mA s b) as [x|]; [|injection H as <-; repeat split; auto].
  destruct (mA s (b + 1)) as [y|]; [|injection H as <-; repeat split; auto].
  destruct (o x y) as [[x' y']| |]; try discriminate. cbn in H. injection H as <-. cbn.
  repeat split; auto. exists x', y'. unfold setA. repeat split.
  - destruct (Z.eqb_spec b (b + 1)); [lia|]. now rewrite Z.eqb_refl.
  - now rewrite Z.eqb_refl.
  - intros k Hk Hk'. destruct (Z.eqb_spec k (b + 1)); [lia|]. destruct (Z.eqb_spec k b); [lia|reflexivity].
Qed.
Lemma orth_ok : forall o (s : mps) b, (forall x y, exists z, o x y = Ok z) -> exists s', orth o s b = Ok s'.
Proof.
  intros o s b H. unfold orth. destruct (mA s b) as [x|]; [|eauto]. destruct (mA s (b + 1)) as [y|]; [|eauto].
  destruct (H x y) as ([x' y'] & ->). cbn. eauto.
Qed.

Lemma pos_left_mem : forall (d d' : disk) (s s' : mps), mdo s = false -> 0 <= ml s -> ml s + 2 <= mr s ->
  ml s + 1 < mN s -> pos_left orthL d s = Ok (d', s') ->
  d' = d /\ mdo s' = false /\ mN s' = mN s /\ ml s' = ml s + 1 /\ mr s' = Z.max (mr s) (ml s + 3) /\
  orth_eff orthL (mA s) (mA s') (ml s + 1).
Proof.
  intros d d' s s' Hm Hl Hr Hb H. unfold pos_left in H.
  set (s0 := withlims s (if ml s <? 0 then 0 else ml s) (mr s)) in *.
  assert (E0 : ml s0 = ml s) by (subst s0; cbn; zb; lia).
  assert (Hm0 : mdo s0 = false) by (subst s0; exact Hm).
  assert (EA : mA s0 = mA s) by reflexivity. assert (EN : mN s0 = mN s) by reflexivity. assert (Er : mr s0 = mr s) by reflexivity.
  clearbody s0. rewrite E0 in H.
  destruct (setBond_mem d s0 (ml s + 1) Hm0) as (s1 & K1 & N1 & A1 & L1 & R1 & D1 & _ & _). rewrite K1 in H. cbn [obind] in H.
  destruct (ref_mem d s1 (ml s + 1) D1) as (s2 & K2 & N2 & A2 & L2 & R2 & D2 & _ & _). { rewrite N1, EN. lia. }
  rewrite K2 in H. cbn [obind] in H.
  destruct (ref_mem d s2 (ml s + 1 + 1) D2) as (s3 & K3 & N3 & A3 & L3 & R3 & D3 & _ & _). { rewrite N2, N1, EN. lia. }
  rewrite K3 in H. cbn [obind] in H.
  destruct (orth orthL s3 (ml s + 1)) as [s4| |] eqn:K4; try discriminate. cbn [obind] in H.
  apply orth_inv in K4. destruct K4 as (N4 & L4 & R4 & D4 & _ & _ & O4). injection H as <- <-. cbn.
  rewrite L4, R4. rewrite L3, R3, L2, R2, L1, R1, E0, Er.
  split; [reflexivity|]. split; [congruence|]. split; [congruence|].
  split; [zb; lia|]. split; [zb; lia|].
  rewrite A3, A2, A1, EA in O4. exact O4.
Qed.

Lemma pos_right_mem : forall (d d' : disk) (s s' : mps), mdo s = false -> mr s <= mN s + 1 -> ml s + 2 <= mr s ->
  3 <= mr s -> pos_right orthR d s = Ok (d', s') ->
  d' = d /\ mdo s' = false /\ mN s' = mN s /\ mr s' = mr s - 1 /\ ml s' = Z.min (ml s) (mr s - 3) /\
  orth_eff orthR (mA s) (mA s') (mr s - 2).
Proof.
  intros d d' s s' Hm Hl Hr Hb H. unfold pos_right in H.
  set (s0 := withlims s (ml s) (if mN s + 1 <? mr s then mN s + 1 else mr s)) in *.
  assert (Er : mr s0 = mr s) by (subst s0; cbn; zb; lia).
  assert (Hm0 : mdo s0 = false) by (subst s0; exact Hm).
  assert (EA : mA s0 = mA s) by reflexivity. assert (EN : mN s0 = mN s) by reflexivity. assert (E0 : ml s0 = ml s) by reflexivity.
  clearbody s0. rewrite Er in H.
  destruct (setBond_mem d s0 (mr s - 2) Hm0) as (s1 & K1 & N1 & A1 & L1 & R1 & D1 & _ & _). rewrite K1 in H. cbn [obind] in H.
  destruct (ref_mem d s1 (mr s - 2) D1) as (s2 & K2 & N2 & A2 & L2 & R2 & D2 & _ & _). { rewrite N1, EN. lia. }
  rewrite K2 in H. cbn [obind] in H.
  destruct (ref_mem d s2 (mr s - 2 + 1) D2) as (s3 & K3 & N3 & A3 & L3 & R3 & D3 & _ & _). { rewrite N2, N1, EN. lia. }
  rewrite K3 in H. cbn [obind] in H.
  destruct (orth orthR s3 (mr s - 2)) as [s4| |] eqn:K4; try discriminate. cbn [obind] in H.
  apply orth_inv in K4. destruct K4 as (N4 & L4 & R4 & D4 & _ & _ & O4). injection H as <- <-. cbn.
  rewrite L4, R4. rewrite L3, R3, L2, R2, L1, R1, E0, Er.
  split; [reflexivity|]. split; [congruence|]. split; [congruence|].
  split; [zb; lia|]. split; [zb; lia|].
  rewrite A3, A2, A1, EA in O4. exact O4.
Qed.

Lemma pos_left_ok : forall (d : disk) (s : mps), mdo s = false -> 0 <= ml s ->
  ml s + 1 < mN s -> (forall x y, exists z, orthL x y = Ok z) -> exists s', pos_left orthL d s = Ok (d, s').
Proof.
  intros d s Hm Hl Hb Ho. unfold pos_left.
  set (s0 := withlims s (if ml s <? 0 then 0 else ml s) (mr s)) in *.
  assert (E0 : ml s0 = ml s) by (subst s0; cbn; zb; lia).
  assert (Hm0 : mdo s0 = false) by (subst s0; exact Hm). assert (EN : mN s0 = mN s) by reflexivity.
  clearbody s0. rewrite E0.
  destruct (setBond_mem d s0 (ml s + 1) Hm0) as (s1 & K1 & N1 & A1 & L1 & R1 & D1 & _ & _). rewrite K1. cbn [obind].
  destruct (ref_mem d s1 (ml s + 1) D1) as (s2 & K2 & N2 & A2 & L2 & R2 & D2 & _ & _). { rewrite N1, EN. lia. }
  rewrite K2. cbn [obind].
  destruct (ref_mem d s2 (ml s + 1 + 1) D2) as (s3 & K3 & N3 & A3 & L3 & R3 & D3 & _ & _). { rewrite N2, N1, EN. lia. }
  rewrite K3. cbn [obind].
  destruct (orth_ok orthL s3 (ml s + 1) Ho) as (s4 & ->). cbn [obind]. eauto.
Qed.
Lemma pos_right_ok : forall (d : disk) (s : mps), mdo s = false -> mr s <= mN s + 1 ->
  3 <= mr s -> (forall x y, exists z, orthR x y = Ok z) -> exists s', pos_right orthR d s = Ok (d, s').
Proof.
  intros d s Hm Hl Hb Ho. unfold pos_right.
  set (s0 := withlims s (ml s) (if mN s + 1 <? mr s then mN s + 1 else mr s)) in *.
  assert (E0 : mr s0 = mr s) by (subst s0; cbn; zb; lia).
  assert (Hm0 : mdo s0 = false) by (subst s0; exact Hm). assert (EN : mN s0 = mN s) by reflexivity.
  clearbody s0. rewrite E0.
  destruct (setBond_mem d s0 (mr s - 2) Hm0) as (s1 & K1 & N1 & A1 & L1 & R1 & D1 & _ & _). rewrite K1. cbn [obind].
  destruct (ref_mem d s1 (mr s - 2) D1) as (s2 & K2 & N2 & A2 & L2 & R2 & D2 & _ & _). { rewrite N1, EN. lia. }
  rewrite K2. cbn [obind].
  destruct (ref_mem d s2 (mr s - 2 + 1) D2) as (s3 & K3 & N3 & A3 & L3 & R3 & D3 & _ & _). { rewrite N2, N1, EN. lia. }
  rewrite K3. cbn [obind].
  destruct (orth_ok orthR s3 (mr s - 2) Ho) as (s4 & ->). cbn [obind]. eauto.
Qed.

(** Induction over the two loops of position: a reflexive, transitive relation
    that holds across each turn holds across the call. *)
Lemma loops_ind : forall (oL oR : T -> T -> outcome (T * T)) (stepL stepR : disk -> mps -> outcome (disk * mps)),
  (forall (d d' : disk) (s s' : mps), mdo s = false -> 0 <= ml s -> ml s + 2 <= mr s ->
    ml s + 1 < mN s -> stepL d s = Ok (d', s') ->
    d' = d /\ mdo s' = false /\ mN s' = mN s /\ ml s' = ml s + 1 /\ mr s' = Z.max (mr s) (ml s + 3) /\
    orth_eff oL (mA s) (mA s') (ml s + 1)) ->
  (forall (d d' : disk) (s s' : mps), mdo s = false -> mr s <= mN s + 1 -> ml s + 2 <= mr s ->
    3 <= mr s -> stepR d s = Ok (d', s') ->
    d' = d /\ mdo s' = false /\ mN s' = mN s /\ mr s' = mr s - 1 /\ ml s' = Z.min (ml s) (mr s - 3) /\
    orth_eff oR (mA s) (mA s') (mr s - 2)) ->
  forall (Rl : mps -> mps -> Prop) (n : Z) i (d : disk) k,
  1 <= i <= n ->
  (forall s, Rl s s) -> (forall a b c, Rl a b -> Rl b c -> Rl a c) ->
  (forall s s' b, mdo s = false -> mN s = n -> 0 <= ml s -> ml s + 2 <= mr s <= n + 1 -> b = ml s + 1 -> b < n ->
     mdo s' = false -> mN s' = n -> ml s' = ml s + 1 -> mr s' = Z.max (mr s) (ml s + 3) ->
     orth_eff oL (mA s) (mA s') b -> Rl s s') ->
  (forall s s' b, mdo s = false -> mN s = n -> 0 <= ml s -> ml s + 2 <= mr s <= n + 1 -> b = mr s - 2 -> 1 <= b ->
     mdo s' = false -> mN s' = n -> mr s' = mr s - 1 -> ml s' = Z.min (ml s) (mr s - 3) ->
     orth_eff oR (mA s) (mA s') b -> Rl s s') ->
  forall s d' s', mdo s = false -> mN s = n -> 0 <= ml s -> ml s + 2 <= mr s <= n + 1 ->
  (let! (d1, s1) := while k (fun s => ml s <? i - 1) stepL d s in
     while k (fun s => i + 1 <? mr s) stepR d1 s1) = Ok (d', s') ->
  d' = d /\ Rl s s' /\ mN s' = n /\ mdo s' = false /\ ml s' = i - 1 /\ mr s' = i + 1.
Proof.
  intros oL oR stepL stepR HL HR Rl n i d kk Hi Rr Rt Sl Sr s d' s' Hm HN Hl Hr H.
  assert (L1 : forall k s d' s', mdo s = false -> mN s = n -> 0 <= ml s -> ml s + 2 <= mr s <= n + 1 ->
    while k (fun s => ml s <? i - 1) stepL d s = Ok (d', s') ->
    d' = d /\ Rl s s' /\ mN s' = n /\ mdo s' = false /\ i - 1 <= ml s' /\ ml s' + 2 <= mr s' <= n + 1).
  { clear - Hi Rr Rt Sl HL. induction k as [|k IH]; intros s d' s' Hm HN Hl Hr H; cbn [while] in H.
    - destruct (Z.ltb_spec (ml s) (i - 1)); [discriminate|]. injection H as <- <-.
      split; [reflexivity|]. split; [apply Rr|]. repeat split; auto; lia.
    - destruct (Z.ltb_spec (ml s) (i - 1)) as [Hlt|Hge].
      + destruct (stepL d s) as [[d1 s1]| |] eqn:E; try discriminate. cbn [obind] in H.
        apply HL in E; try assumption; try lia.
        destruct E as (-> & E1 & E2 & E3 & E4 & E5).
        apply IH in H; try assumption; try lia.
        destruct H as (-> & H1 & H2). split; [reflexivity|]. split; [|exact H2].
        eapply Rt; [|exact H1]. apply (Sl s s1 (ml s + 1)); try assumption; try reflexivity; try lia; congruence.
      + injection H as <- <-. split; [reflexivity|]. split; [apply Rr|]. repeat split; auto; lia. }
  assert (L2 : forall k s d' s', mdo s = false -> mN s = n -> i - 1 <= ml s -> ml s + 2 <= mr s <= n + 1 ->
    while k (fun s => i + 1 <? mr s) stepR d s = Ok (d', s') ->
    d' = d /\ Rl s s' /\ mN s' = n /\ mdo s' = false /\ ml s' = i - 1 /\ mr s' = i + 1).
  { clear - Hi Rr Rt Sr HR. induction k as [|k IH]; intros s d' s' Hm HN Hl Hr H; cbn [while] in H.
    - destruct (Z.ltb_spec (i + 1) (mr s)); [discriminate|]. injection H as <- <-.
      split; [reflexivity|]. split; [apply Rr|]. repeat split; auto; lia.
    - destruct (Z.ltb_spec (i + 1) (mr s)) as [Hlt|Hge].
      + destruct (stepR d s) as [[d1 s1]| |] eqn:E; try discriminate. cbn [obind] in H.
        apply HR in E; try assumption; try lia.
        destruct E as (-> & E1 & E2 & E3 & E4 & E5).
        apply IH in H; try assumption; try lia.
        destruct H as (-> & H1 & H2). split; [reflexivity|]. split; [|exact H2].
        eapply Rt; [|exact H1]. apply (Sr s s1 (mr s - 2)); try assumption; try reflexivity; try lia; congruence.
      + injection H as <- <-. split; [reflexivity|]. split; [apply Rr|]. repeat split; auto; lia. }
  destruct (while kk _ stepL d s) as [[d1 s1]| |] eqn:E; try discriminate. cbn [obind] in H.
  apply L1 in E; try assumption. destruct E as (-> & E1 & E2 & E3 & E4 & E5).
  apply L2 in H; try assumption. destruct H as (-> & H1 & H2 & H3 & H4 & H5).
  split; [reflexivity|]. split; [eapply Rt; eauto|]. auto.
Qed.


Definition steps_of (oL oR : T -> T -> outcome (T * T)) (n i : Z) (Rl : mps -> mps -> Prop) : Prop :=
  (forall s, Rl s s) /\ (forall a b c, Rl a b -> Rl b c -> Rl a c) /\
  (forall s s' b, mdo s = false -> mN s = n -> 0 <= ml s -> ml s + 2 <= mr s <= n + 1 -> b = ml s + 1 -> b < n ->
     mdo s' = false -> mN s' = n -> ml s' = ml s + 1 -> mr s' = Z.max (mr s) (ml s + 3) ->
     orth_eff oL (mA s) (mA s') b -> Rl s s') /\
  (forall s s' b, mdo s = false -> mN s = n -> 0 <= ml s -> ml s + 2 <= mr s <= n + 1 -> b = mr s - 2 -> 1 <= b ->
     mdo s' = false -> mN s' = n -> mr s' = mr s - 1 -> ml s' = Z.min (ml s) (mr s - 3) ->
     orth_eff oR (mA s) (mA s') b -> Rl s s').

Lemma position_ind : forall (Rl : mps -> mps -> Prop) (n : Z) i (d : disk),
  1 <= i <= n -> steps_of orthL orthR n i Rl ->
  forall s d' s', mdo s = false -> mN s = n -> 0 <= ml s -> ml s + 2 <= mr s <= n + 1 ->
  position orthL orthR d s i = Ok (d', s') ->
  d' = d /\ Rl s s' /\ mN s' = n /\ mdo s' = false /\ ml s' = i - 1 /\ mr s' = i + 1.
Proof.
  intros Rl n i d Hi (S1 & S2 & S3 & S4) s d' s' Hm HN Hl Hr H. unfold position in H.
  destruct (Z.eqb_spec (mN s) 0); [lia|]. 
  eapply loops_ind; [apply pos_left_mem|apply pos_right_mem|exact Hi|exact S1|exact S2|exact S3|exact S4|exact Hm|exact HN|exact Hl|exact Hr|exact H].
Qed.

(** Neither loop runs out of its bound, whatever the factorisations return. *)
Lemma position_total : forall (d : disk) (s : mps) i, mdo s = false -> 0 <= ml s -> ml s + 2 <= mr s <= mN s + 1 ->
  1 <= i <= mN s -> (forall x y, exists z, orthL x y = Ok z) -> (forall x y, exists z, orthR x y = Ok z) ->
  exists s', position orthL orthR d s i = Ok (d, s').
Proof.
  intros d s i Hm Hl Hr Hi Ho Ho'. unfold position. destruct (Z.eqb_spec (mN s) 0) as [|Hne]; [lia|].
  remember (mN s) as n eqn:En. symmetry in En.
  assert (L1 : forall k s, mdo s = false -> mN s = n -> 0 <= ml s -> ml s + 2 <= mr s <= n + 1 -> i - 1 - ml s <= Z.of_nat k ->
    exists s', while k (fun s => ml s <? i - 1) (pos_left orthL) d s = Ok (d, s') /\
     mdo s' = false /\ mN s' = n /\ i - 1 <= ml s' /\ ml s' + 2 <= mr s' <= n + 1).
  { clear - Ho Hi. induction k as [|k IH]; intros s Hm HN Hl Hr Hk; cbn [while].
    - destruct (Z.ltb_spec (ml s) (i - 1)); [lia|]. exists s. repeat split; auto; lia.
    - destruct (Z.ltb_spec (ml s) (i - 1)).
      + destruct (pos_left_ok d s) as (s1 & E); try assumption; try lia. rewrite E. cbn [obind].
        pose proof E as E'. apply pos_left_mem in E'; try assumption; try lia. destruct E' as (_ & E1 & E2 & E3 & E4 & E5).
        apply IH; try assumption; lia.
      + exists s. repeat split; auto; lia. }
  assert (L2 : forall k s, mdo s = false -> mN s = n -> i - 1 <= ml s -> ml s + 2 <= mr s <= n + 1 -> mr s - i - 1 <= Z.of_nat k ->
    exists s', while k (fun s => i + 1 <? mr s) (pos_right orthR) d s = Ok (d, s')).
  { clear - Ho' Hi. induction k as [|k IH]; intros s Hm HN Hl Hr Hk; cbn [while].
    - destruct (Z.ltb_spec (i + 1) (mr s)); [lia|]. eauto.
    - destruct (Z.ltb_spec (i + 1) (mr s)).
      + destruct (pos_right_ok d s) as (s1 & E); try assumption; try lia. rewrite E. cbn [obind].
        pose proof E as E'. apply pos_right_mem in E'; try assumption; try lia. destruct E' as (_ & E1 & E2 & E3 & E4 & E5).
        apply IH; try assumption; lia.
      + eauto. }
  destruct (L1 (Z.to_nat (n + 2)) s) as (s1 & E & H1 & H2 & H3 & H4); try assumption; try reflexivity; try lia.
  rewrite E. cbn [obind]. apply L2; try assumption; lia.
Qed.

(** svdBond in memory. *)
Variable splitL splitR : W -> outcome (T * T).
Lemma svdBond_mem : forall (d d' : disk) (s s' : mps) b AA fl, mdo s = false ->
  svdBond splitL splitR d s b AA fl = Ok (d', s') ->
  d' = d /\ mdo s' = false /\ mN s' = mN s /\
  (if fl then b - 1 <= ml s /\ ml s' = b /\ mr s' = Z.max (mr s) (b + 2)
   else mr s <= b + 2 /\ ml s' = Z.min (ml s) (b - 1) /\ mr s' = b + 1) /\
  exists x y, (if fl then splitL AA else splitR AA) = Ok (x, y) /\
    mA s' b = Some x /\ mA s' (b + 1) = Some y /\ forall k, k <> b -> k <> b + 1 -> mA s' k = mA s k.
Proof.
  intros d d' s s' b AA fl Hm H. unfold svdBond in H.
  destruct (setBond_mem d s b Hm) as (s1 & K1 & N1 & A1 & L1 & R1 & D1 & _ & _). rewrite K1 in H. cbn [obind] in H.
  rewrite L1, R1 in H.
  destruct fl; cbn [andb negb] in H.
  - destruct (Z.ltb_spec (ml s) (b - 1)); [discriminate|].
    destruct (splitL AA) as [[x y]| |]; try discriminate. cbn [obind] in H. injection H as <- <-. cbn. rewrite R1.
    split; [reflexivity|]. split; [assumption|]. split; [assumption|]. split; [zb; lia|].
    exists x, y. split; [reflexivity|]. unfold setA. rewrite A1. repeat split.
    + destruct (Z.eqb_spec b (b + 1)); [lia|]. now rewrite Z.eqb_refl.
    + now rewrite Z.eqb_refl.
    + intros k Hk Hk'. destruct (Z.eqb_spec k (b + 1)); [lia|]. destruct (Z.eqb_spec k b); [lia|reflexivity].
  - destruct (Z.ltb_spec (b + 2) (mr s)); [discriminate|].
    destruct (splitR AA) as [[x y]| |]; try discriminate. cbn [obind] in H. injection H as <- <-. cbn. rewrite L1.
    split; [reflexivity|]. split; [assumption|]. split; [assumption|]. split; [zb; lia|].
    exists x, y. split; [reflexivity|]. unfold setA. rewrite A1. repeat split.
    + destruct (Z.eqb_spec b (b + 1)); [lia|]. now rewrite Z.eqb_refl.
    + now rewrite Z.eqb_refl.
    + intros k Hk Hk'. destruct (Z.eqb_spec k (b + 1)); [lia|]. destruct (Z.eqb_spec k b); [lia|reflexivity].
Qed.
Variable pair : T -> T -> W.
Lemma svd_left_mem : forall (d d' : disk) (s s' : mps), mdo s = false -> 0 <= ml s -> ml s + 2 <= mr s ->
  ml s + 1 < mN s -> svd_left splitL splitR pair d s = Ok (d', s') ->
  d' = d /\ mdo s' = false /\ mN s' = mN s /\ ml s' = ml s + 1 /\ mr s' = Z.max (mr s) (ml s + 3) /\
  orth_eff (fun x y => splitL (pair x y)) (mA s) (mA s') (ml s + 1).
Proof.
  intros d d' s s' Hm Hl Hr Hb H. unfold svd_left in H.
  set (s0 := withlims s (if ml s <? 0 then 0 else ml s) (mr s)) in *.
  assert (E0 : ml s0 = ml s) by (subst s0; cbn; zb; lia).
  assert (Hm0 : mdo s0 = false) by (subst s0; exact Hm).
  assert (EA : mA s0 = mA s) by reflexivity. assert (EN : mN s0 = mN s) by reflexivity. assert (Er : mr s0 = mr s) by reflexivity.
  clearbody s0. rewrite E0 in H.
  destruct (setBond_mem d s0 (ml s + 1) Hm0) as (s1 & K1 & N1 & A1 & L1 & R1 & D1 & _ & _). rewrite K1 in H. cbn [obind] in H.
  destruct (get_mem d s1 (ml s + 1) D1) as (s2 & K2 & N2 & A2 & L2 & R2 & D2 & _ & _). { rewrite N1, EN. lia. }
  rewrite K2 in H. cbn [obind] in H.
  destruct (get_mem d s2 (ml s + 1 + 1) D2) as (s3 & K3 & N3 & A3 & L3 & R3 & D3 & _ & _). { rewrite N2, N1, EN. lia. }
  rewrite K3 in H. cbn [obind] in H. rewrite A2, A1, EA in H. unfold orth_eff.
  destruct (mA s (ml s + 1)) as [x|]; [|discriminate]. destruct (mA s (ml s + 1 + 1)) as [y|]; [|discriminate].
  apply svdBond_mem in H; [|assumption]. destruct H as (-> & H1 & H2 & (H3 & H4 & H5) & x' & y' & H6 & H7 & H8 & H9).
  split; [reflexivity|]. split; [assumption|]. split; [congruence|]. split; [lia|]. split; [rewrite H5, R3, R2, R1, Er; lia|].
  exists x', y'. split; [assumption|]. split; [assumption|]. split; [assumption|].
  intros k Hk Hk'. rewrite H9 by assumption. congruence.
Qed.
Lemma svd_right_mem : forall (d d' : disk) (s s' : mps), mdo s = false -> mr s <= mN s + 1 -> ml s + 2 <= mr s ->
  3 <= mr s -> svd_right splitL splitR pair d s = Ok (d', s') ->
  d' = d /\ mdo s' = false /\ mN s' = mN s /\ mr s' = mr s - 1 /\ ml s' = Z.min (ml s) (mr s - 3) /\
  orth_eff (fun x y => splitR (pair x y)) (mA s) (mA s') (mr s - 2).
Proof.
  intros d d' s s' Hm Hl Hr Hb H. unfold svd_right in H.
  set (s0 := withlims s (ml s) (if mN s + 1 <? mr s then mN s + 1 else mr s)) in *.
  assert (Er : mr s0 = mr s) by (subst s0; cbn; zb; lia).
  assert (Hm0 : mdo s0 = false) by (subst s0; exact Hm).
  assert (EA : mA s0 = mA s) by reflexivity. assert (EN : mN s0 = mN s) by reflexivity. assert (E0 : ml s0 = ml s) by reflexivity.
  clearbody s0. rewrite Er in H.
  destruct (setBond_mem d s0 (mr s - 2) Hm0) as (s1 & K1 & N1 & A1 & L1 & R1 & D1 & _ & _). rewrite K1 in H. cbn [obind] in H.
  destruct (get_mem d s1 (mr s - 2) D1) as (s2 & K2 & N2 & A2 & L2 & R2 & D2 & _ & _). { rewrite N1, EN. lia. }
  rewrite K2 in H. cbn [obind] in H.
  destruct (get_mem d s2 (mr s - 2 + 1) D2) as (s3 & K3 & N3 & A3 & L3 & R3 & D3 & _ & _). { rewrite N2, N1, EN. lia. }
  rewrite K3 in H. cbn [obind] in H. rewrite A2, A1, EA in H. unfold orth_eff.
  destruct (mA s (mr s - 2)) as [x|]; [|discriminate]. destruct (mA s (mr s - 2 + 1)) as [y|]; [|discriminate].
  apply svdBond_mem in H; [|assumption]. destruct H as (-> & H1 & H2 & (H3 & H4 & H5) & x' & y' & H6 & H7 & H8 & H9).
  split; [reflexivity|]. split; [assumption|]. split; [congruence|]. split; [lia|]. split; [rewrite H4, L3, L2, L1, E0; lia|].
  exists x', y'. split; [assumption|]. split; [assumption|]. split; [assumption|].
  intros k Hk Hk'. rewrite H9 by assumption. congruence.
Qed.
Lemma position_svd_ind : forall (Rl : mps -> mps -> Prop) (n : Z) i (d : disk),
  1 <= i <= n -> steps_of (fun x y => splitL (pair x y)) (fun x y => splitR (pair x y)) n i Rl ->
  forall s d' s', mdo s = false -> mN s = n -> 0 <= ml s -> ml s + 2 <= mr s <= n + 1 ->
  position_svd splitL splitR pair d s i = Ok (d', s') ->
  d' = d /\ Rl s s' /\ mN s' = n /\ mdo s' = false /\ ml s' = i - 1 /\ mr s' = i + 1.
Proof.
  intros Rl n i d Hi (S1 & S2 & S3 & S4) s d' s' Hm HN Hl Hr H. unfold position_svd in H.
  destruct (Z.eqb_spec (mN s) 0); [lia|]. 
  eapply loops_ind; [apply svd_left_mem|apply svd_right_mem|exact Hi|exact S1|exact S2|exact S3|exact S4|exact Hm|exact HN|exact Hl|exact Hr|exact H].
Qed.

Lemma modify_mem : forall (d d' : disk) (s s' : mps) i0 f, mdo s = false ->
  modify d s i0 f = Ok (d', s') -> 0 <= wrap s i0 ->
  let i := wrap s i0 in
  d' = d /\ mdo s' = false /\ mN s' = mN s /\
  ml s' = (if i <=? ml s then i - 1 else ml s) /\ mr s' = (if mr s <=? i then i + 1 else mr s) /\
  mA s' i = f (mA s i) /\ forall k, k <> i -> mA s' k = mA s k.
Proof.
  intros d d' s s' i0 f Hm H Hw i. unfold modify, ref in H. fold i in H.
  destruct (setSite_mem d s i Hm) as (s1 & E & H1 & H2 & H3 & H4 & H5 & H6 & H7). rewrite E in H. cbn [obind] in H.
  destruct (inrange (ref_lims s1 i) i); [|discriminate]. cbn [obind] in H. injection H as <- <-. cbn.
  rewrite H3, H4, H2. repeat split; auto.
  - unfold setA. now rewrite Z.eqb_refl.
  - intros k Hk. unfold setA. destruct (Z.eqb_spec k i); [contradiction|reflexivity].
Qed.
End Mem.
