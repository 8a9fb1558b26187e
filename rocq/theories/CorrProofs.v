(** Products of one operator per site: cutting the expectation value at a bond. *)
From Coq Require Import ZArith List Bool Arith Lia Ring.
From Verif Require Import Util BigSum MpsModel MpsTensor MpsSpec MpsProofs LocalMeaning LocalSem OrtProofs CorrSpec CorrModel.
Import ListNotations.
Local Open Scope outcome_scope.
Local Arguments Z.add : simpl never.
Local Arguments Z.sub : simpl never.

Section Proofs.
Context {R : Type} (r0 r1 : R) (radd rmul rsub : R -> R -> R) (ropp : R -> R) (conj : R -> R).
Context (RT : ring_theory r0 r1 radd rmul rsub ropp eq).
Hypothesis conj0 : conj r0 = r0.
Hypothesis conj1 : conj r1 = r1.
Hypothesis conj_add : forall x y, conj (radd x y) = radd (conj x) (conj y).
Hypothesis conj_mul : forall x y, conj (rmul x y) = rmul (conj x) (conj y).
Hypothesis conj_conj : forall x, conj (conj x) = x.
Add Ring RRcor : RT.
Notation tensor := (@tensor R).
Notation site_op := (@site_op R).
Notation bsum := (bsum r0 radd).
Notation csum := (csum r0 radd).
Notation lsum := (lsum r0 radd).
Notation chain := (chain r0 r1 radd rmul).
Notation amplitude := (amplitude r0 r1 radd rmul).
Notation delta := (delta r0 r1).
Notation ident := (ident r0 r1).
Notation after := (after r0 radd rmul).
Notation element := (element r1 rmul).
Notation expectation := (expectation r0 r1 radd rmul conj).
Notation LO := (left_orth r0 r1 radd rmul conj).
Notation RO := (right_orth r0 r1 radd rmul conj).
Notation transfer := (transfer r0 radd rmul conj).
Notation transfer_plain := (transfer_plain r0 radd rmul conj).
Notation closed := (closed r0 radd rmul conj).
Notation "x + y" := (radd x y). Notation "x * y" := (rmul x y).
Let ls_ext := @lsum_ext R r0 radd.
Let ls_swap := fun A B => @lsum_swap R r0 r1 radd rmul rsub ropp RT A B.
Let ls_mul_l := fun A => @lsum_mul_l R r0 r1 radd rmul rsub ropp RT A.
Let ls_mul_r := fun A => @lsum_mul_r R r0 r1 radd rmul rsub ropp RT A.
Let ls_map := fun A B => @lsum_map R r0 radd A B.
Let bl := bsum_lsum r0 r1 radd rmul rsub ropp RT.
Let cl := csum_lsum r0 r1 radd rmul rsub ropp RT.

Lemma element_app P : forall j c1 c2 c1' c2', length c1 = length c1' ->
  element P j (c1 ++ c2) (c1' ++ c2') = element P j c1 c1' * element P (j + Z.of_nat (length c1))%Z c2 c2'.
Proof.
  intros j c1. revert j. induction c1 as [|s c1 IH]; intros j c2 [|s' c1'] c2' H; cbn [length] in H; try discriminate.
  - cbn [app CorrSpec.element length]. replace (j + Z.of_nat 0)%Z with j by lia. ring.
  - cbn [app CorrSpec.element length]. rewrite IH by lia. replace (j + Z.of_nat (S (length c1)))%Z with (j + 1 + Z.of_nat (length c1))%Z by lia. ring.
Qed.
Lemma element_ext P Q (d : Z -> nat) : forall dims j c c', (forall k s s', (j <= k < j + Z.of_nat (length dims))%Z -> s < nth (Z.to_nat (k - j)) dims 0 -> s' < nth (Z.to_nat (k - j)) dims 0 -> P k s s' = Q k s s') ->
  Forall2 lt c dims -> Forall2 lt c' dims -> element P j c c' = element Q j c c'.
Proof.
  induction dims as [|p dims IH]; intros j c c' H F F'; inversion F as [|s ? c1 ? A F1]; subst; inversion F' as [|s' ? c1' ? A' F1']; subst; [reflexivity|].
  cbn [CorrSpec.element length] in *. rewrite (H j s s') by (replace (Z.to_nat (j - j)) with 0 by lia; cbn [nth]; lia || assumption). f_equal. apply IH; auto.
  intros k x x' Hk. specialize (H k x x' ltac:(lia)). replace (Z.to_nat (k - j)) with (S (Z.to_nat (k - (j + 1)))) in H by lia. exact H.
Qed.

Lemma expectation_ext ts P Q : (forall k s s', (1 <= k <= Z.of_nat (length ts))%Z -> s < nth (Z.to_nat (k - 1)) (sites ts) 0 -> s' < nth (Z.to_nat (k - 1)) (sites ts) 0 -> P k s s' = Q k s s') ->
  expectation ts P = expectation ts Q.
Proof.
  intros H. unfold CorrSpec.expectation. apply csum_ext. intros c Hc. apply csum_ext. intros c' Hc'. do 2 f_equal.
  apply (element_ext P Q (fun _ => 0) (sites ts)); auto. intros k s s' Hk. apply H. unfold sites in Hk. rewrite map_length in Hk. lia.
Qed.
Lemma expectation_amp ts ts' P : sites ts' = sites ts -> (forall c, Forall2 lt c (sites ts) -> amplitude ts' c = amplitude ts c) ->
  expectation ts' P = expectation ts P.
Proof.
  intros E A. unfold CorrSpec.expectation. rewrite E. apply csum_ext. intros c Hc. apply csum_ext. intros c' Hc'. rewrite !A; auto.
Qed.
(** The expectation value of the adjoint is the conjugate. *)
Lemma expectation_conj ts P : conj (expectation ts P) = expectation ts (fun k => adjoint conj (P k)).
Proof.
  unfold CorrSpec.expectation. rewrite !cl, (ls_conj r0 radd conj conj0 conj_add).
  etransitivity; [|symmetry; etransitivity; [apply lsum_ext; intros c Hc; apply cl|apply ls_swap]].
  apply ls_ext. intros c Hc. rewrite cl, (ls_conj r0 radd conj conj0 conj_add). apply ls_ext. intros c' Hc'.
  rewrite !conj_mul, conj_conj.
  assert (E : forall c c' j, conj (element P j c c') = element (fun k => adjoint conj (P k)) j c' c).
  { clear -conj_mul conj1. induction c as [|s c IH]; intros [|s' c'] j; cbn [CorrSpec.element]; try exact conj1. rewrite conj_mul, IH. reflexivity. }
  rewrite E. ring.
Qed.
Lemma expectation_scale ts P x (i : Z) : (1 <= i <= Z.of_nat (length ts))%Z ->
  expectation ts (fun k s s' => if (k =? i)%Z then x * P k s s' else P k s s') = x * expectation ts P.
Proof.
  intros Hi. unfold CorrSpec.expectation. rewrite !cl, ls_mul_l. apply ls_ext. intros c Hc. rewrite !cl, ls_mul_l. apply ls_ext. intros c' Hc'.
  apply conf_len in Hc, Hc'. unfold sites in Hc, Hc'. rewrite map_length in Hc, Hc'.
  assert (E : forall c c' j, length c = length c' ->
     element (fun k s s' => if (k =? i)%Z then x * P k s s' else P k s s') j c c' = if (j <=? i)%Z && (i <? j + Z.of_nat (length c))%Z then x * element P j c c' else element P j c c').
  { clear -RT. induction c as [|s c IH]; intros [|s' c'] j L; cbn [length] in L; try discriminate.
    - cbn [CorrSpec.element length]. destruct (Z.leb_spec j i), (Z.ltb_spec i (j + Z.of_nat 0)); cbn [andb]; reflexivity || lia.
    - cbn [CorrSpec.element length]. rewrite IH by lia.
      destruct (Z.eqb_spec j i) as [->|Ne].
      + destruct (Z.leb_spec (i + 1) i); [lia|]. destruct (Z.leb_spec i i); [|lia]. destruct (Z.ltb_spec i (i + Z.of_nat (S (length c)))); [|lia]. cbn [andb]. ring.
      + destruct (Z.leb_spec (j + 1) i), (Z.leb_spec j i); try lia; cbn [andb]; [|reflexivity].
        destruct (Z.ltb_spec i (j + 1 + Z.of_nat (length c))), (Z.ltb_spec i (j + Z.of_nat (S (length c)))); try lia; ring. }
  rewrite E by congruence. destruct (Z.leb_spec 1 i); [|lia]. destruct (Z.ltb_spec i (1 + Z.of_nat (length c))); [|lia]. cbn [andb]. ring.
Qed.

(** The part to the left of a bond. *)
Definition lpart (ts : list tensor) (P : Z -> site_op) (b b' : nat) : R :=
  lsum (confs (sites ts)) (fun c => lsum (confs (sites ts)) (fun c' => chain ts c 0 b * element P 1 c c' * conj (chain ts c' 0 b'))).
Definition rpart (ts : list tensor) (P : Z -> site_op) (j : Z) (b b' : nat) : R :=
  lsum (confs (sites ts)) (fun c => lsum (confs (sites ts)) (fun c' => chain ts c b 0 * element P j c c' * conj (chain ts c' b' 0))).

Lemma lpart_nil P b b' : lpart [] P b b' = delta 0 b * delta 0 b'.
Proof.
  unfold lpart. cbn [sites map confs LocalSem.lsum MpsSpec.chain CorrSpec.element].
  replace (conj (delta 0 b')) with (delta 0 b') by (unfold BigSum.delta; destruct (Nat.eqb 0 b'); congruence). ring.
Qed.

Ltac mulin := repeat first [rewrite ls_mul_l | rewrite ls_mul_r].
Lemma lpart_snoc ts t P n b b' : linked 1 ts n -> tl t = n -> b < tr t -> b' < tr t ->
  lpart (ts ++ [t]) P b b' = transfer (lpart ts P) t (P (1 + Z.of_nat (length ts))%Z) b b'.
Proof.
  intros L Ht Hb Hb'. unfold lpart at 1. unfold sites at 1 2. rewrite map_app. cbn [map]. fold (sites ts).
  rewrite (confs_snoc r0 r1 radd rmul rsub ropp RT).
  transitivity (lsum (confs (sites ts)) (fun c => lsum (confs (sites ts)) (fun c' => lsum (seq 0 (tp t)) (fun s => lsum (seq 0 (tp t)) (fun s' =>
    lsum (seq 0 (tl t)) (fun a => lsum (seq 0 (tl t)) (fun a' => chain ts c 0 a * element P 1 c c' * conj (chain ts c' 0 a') * te t a s b * P (1 + Z.of_nat (length ts))%Z s s' * conj (te t a' s' b')))))))).
  - apply ls_ext. intros c Hc.
    etransitivity; [apply lsum_ext; intros s Hs; apply (confs_snoc r0 r1 radd rmul rsub ropp RT)|].
    cbv beta. rewrite ls_swap. apply ls_ext. intros c' Hc'. apply ls_ext. intros s Hs. apply ls_ext. intros s' Hs'.
    pose proof (conf_len _ _ Hc) as Lc. pose proof (conf_len _ _ Hc') as Lc'. unfold sites in Lc, Lc'. rewrite map_length in Lc, Lc'.
    rewrite !(chain_snoc r0 r1 radd rmul rsub ropp RT ts t _ _ _ n) by auto.
    rewrite element_app by congruence. rewrite Lc. cbn [CorrSpec.element]. rewrite !bl, Ht.
    rewrite (ls_conj r0 radd conj conj0 conj_add).
    rewrite ls_mul_r, ls_mul_r. apply ls_ext. intros a Ha. rewrite ls_mul_l. apply ls_ext. intros a' Ha'. rewrite conj_mul. ring.
  - unfold CorrModel.transfer, lpart. rewrite bl.
    etransitivity; [|symmetry; apply lsum_ext; intros a Ha; rewrite bl; apply lsum_ext; intros a' Ha'; rewrite bl; apply lsum_ext; intros s Hs; rewrite bl; reflexivity].
    cbv beta.
    (* bring both sides to the same order *)
    transitivity (lsum (seq 0 (tp t)) (fun s => lsum (seq 0 (tp t)) (fun s' => lsum (seq 0 (tl t)) (fun a => lsum (seq 0 (tl t)) (fun a' =>
      lsum (confs (sites ts)) (fun c => lsum (confs (sites ts)) (fun c' => chain ts c 0 a * element P 1 c c' * conj (chain ts c' 0 a') * te t a s b * P (1 + Z.of_nat (length ts))%Z s s' * conj (te t a' s' b'))))))));
    [idtac|].
    + etransitivity; [apply lsum_ext; intros c Hc; apply ls_swap|]. cbv beta. rewrite ls_swap. apply ls_ext. intros s Hs.
      etransitivity; [apply lsum_ext; intros c Hc; apply ls_swap|]. cbv beta. rewrite ls_swap. apply ls_ext. intros s' Hs'.
      etransitivity; [apply lsum_ext; intros c Hc; apply ls_swap|]. cbv beta. rewrite ls_swap. apply ls_ext. intros a Ha.
      etransitivity; [apply lsum_ext; intros c Hc; apply ls_swap|]. cbv beta. rewrite ls_swap. reflexivity.
    + etransitivity; [apply lsum_ext; intros s Hs; apply ls_swap|]. cbv beta. rewrite ls_swap. apply ls_ext. intros a Ha.
      etransitivity; [apply lsum_ext; intros s Hs; apply ls_swap|]. cbv beta. rewrite ls_swap. apply ls_ext. intros a' Ha'.
      apply ls_ext. intros s Hs. apply ls_ext. intros s' Hs'. symmetry. etransitivity; [do 2 rewrite ls_mul_r; apply ls_mul_r|]. apply ls_ext. intros c Hc.
      etransitivity; [do 2 rewrite ls_mul_r; apply ls_mul_r|]. apply ls_ext. intros c' Hc'. ring.
Qed.

Lemma rpart_cons ts t P j a a' : rpart (t :: ts) P j a a' =
  bsum (tp t) (fun s => bsum (tp t) (fun s' => bsum (tr t) (fun b => bsum (tr t) (fun b' => te t a s b * P j s s' * conj (te t a' s' b') * rpart ts P (j + 1) b b')))).
Proof.
  unfold rpart at 1. cbn [sites map confs]. fold (sites ts).
  etransitivity; [apply (@lsum_flat R r0 r1 radd rmul rsub ropp RT)|]. rewrite bl. apply ls_ext. intros s Hs. rewrite ls_map.
  transitivity (lsum (confs (sites ts)) (fun c => lsum (seq 0 (tp t)) (fun s' => lsum (confs (sites ts)) (fun c' =>
    chain (t :: ts) (s :: c) a 0 * element P j (s :: c) (s' :: c') * conj (chain (t :: ts) (s' :: c') a' 0))))).
  { apply ls_ext. intros c Hc. etransitivity; [apply (@lsum_flat R r0 r1 radd rmul rsub ropp RT)|]. apply ls_ext. intros s' Hs'. now rewrite ls_map. }
  rewrite ls_swap, bl. apply ls_ext. intros s' Hs'. cbn [MpsSpec.chain CorrSpec.element].
  transitivity (lsum (confs (sites ts)) (fun c => lsum (confs (sites ts)) (fun c' => lsum (seq 0 (tr t)) (fun b => lsum (seq 0 (tr t)) (fun b' =>
    te t a s b * P j s s' * conj (te t a' s' b') * (chain ts c b 0 * element P (j + 1) c c' * conj (chain ts c' b' 0))))))).
  { apply ls_ext. intros c Hc. apply ls_ext. intros c' Hc'. rewrite !bl, (ls_conj r0 radd conj conj0 conj_add).
    rewrite ls_mul_r, ls_mul_r. apply ls_ext. intros b Hb. rewrite ls_mul_l. apply ls_ext. intros b' Hb'. rewrite conj_mul. ring. }
  etransitivity; [apply lsum_ext; intros c Hc; apply ls_swap|]. cbv beta. rewrite ls_swap, bl. apply ls_ext. intros b Hb.
  etransitivity; [apply lsum_ext; intros c Hc; apply ls_swap|]. cbv beta. rewrite ls_swap, bl. apply ls_ext. intros b' Hb'.
  unfold rpart. rewrite ls_mul_l. apply ls_ext. intros c Hc. rewrite ls_mul_l. reflexivity.
Qed.

(** The whole is the left part times the right part. *)
Lemma expectation_cut ts1 ts2 P n : linked 1 ts1 n ->
  expectation (ts1 ++ ts2) P = bsum n (fun b => bsum n (fun b' => lpart ts1 P b b' * rpart ts2 P (1 + Z.of_nat (length ts1)) b b')).
Proof.
  intros L. unfold CorrSpec.expectation. unfold sites at 1 2. rewrite map_app. fold (sites ts1) (sites ts2).
  rewrite csum_app, cl.
  transitivity (lsum (confs (sites ts1)) (fun c1 => lsum (confs (sites ts2)) (fun c2 => lsum (confs (sites ts1)) (fun c1' => lsum (confs (sites ts2)) (fun c2' =>
    lsum (seq 0 n) (fun b => lsum (seq 0 n) (fun b' => chain ts1 c1 0 b * element P 1 c1 c1' * conj (chain ts1 c1' 0 b') *
      (chain ts2 c2 b 0 * element P (1 + Z.of_nat (length ts1)) c2 c2' * conj (chain ts2 c2' b' 0))))))))).
  { apply ls_ext. intros c1 H1. rewrite cl. apply ls_ext. intros c2 H2. rewrite csum_app, cl. apply ls_ext. intros c1' H1'. rewrite cl. apply ls_ext. intros c2' H2'.
    pose proof (conf_len _ _ H1) as L1. pose proof (conf_len _ _ H1') as L1'. unfold sites in L1, L1'. rewrite map_length in L1, L1'.
    unfold MpsSpec.amplitude. rewrite !(chain_app r0 r1 radd rmul rsub ropp RT ts1 _ ts2 _ 1 n) by (auto; lia).
    rewrite element_app by congruence. rewrite L1, !bl, (ls_conj r0 radd conj conj0 conj_add).
    rewrite ls_mul_r, ls_mul_r. apply ls_ext. intros b Hb. rewrite ls_mul_l. apply ls_ext. intros b' Hb'. rewrite conj_mul. ring. }
  rewrite bl.
  etransitivity; [|symmetry; apply lsum_ext; intros b Hb; rewrite bl; apply lsum_ext; intros b' Hb'; unfold lpart, rpart;
     rewrite ls_mul_r; apply lsum_ext; intros c1 H1; rewrite ls_mul_r; apply lsum_ext; intros c1' H1'; rewrite ls_mul_l; apply lsum_ext; intros c2 H2; rewrite ls_mul_l; reflexivity].
  cbv beta.
  transitivity (lsum (confs (sites ts1)) (fun c1 => lsum (confs (sites ts1)) (fun c1' => lsum (confs (sites ts2)) (fun c2 => lsum (confs (sites ts2)) (fun c2' =>
    lsum (seq 0 n) (fun b => lsum (seq 0 n) (fun b' => chain ts1 c1 0 b * element P 1 c1 c1' * conj (chain ts1 c1' 0 b') *
      (chain ts2 c2 b 0 * element P (1 + Z.of_nat (length ts1)) c2 c2' * conj (chain ts2 c2' b' 0))))))))).
  { apply ls_ext. intros c1 H1. apply ls_swap. }
  apply (fun A => eq_trans A eq_refl).
  etransitivity; [apply lsum_ext; intros c1 H1; apply lsum_ext; intros c1' H1'; apply lsum_ext; intros c2 H2; apply ls_swap|]. cbv beta.
  etransitivity; [apply lsum_ext; intros c1 H1; apply lsum_ext; intros c1' H1'; apply ls_swap|]. cbv beta.
  etransitivity; [apply lsum_ext; intros c1 H1; apply ls_swap|]. cbv beta. rewrite ls_swap. apply ls_ext. intros b Hb.
  etransitivity; [apply lsum_ext; intros c1 H1; apply lsum_ext; intros c1' H1'; apply lsum_ext; intros c2 H2; apply ls_swap|]. cbv beta.
  etransitivity; [apply lsum_ext; intros c1 H1; apply lsum_ext; intros c1' H1'; apply ls_swap|]. cbv beta.
  etransitivity; [apply lsum_ext; intros c1 H1; apply ls_swap|]. cbv beta. rewrite ls_swap. reflexivity.
Qed.

Lemma transfer_ext L L' t M M' b b' : (forall a a', a < tl t -> a' < tl t -> L a a' = L' a a') -> same_op (tp t) M M' ->
  transfer L t M b b' = transfer L' t M' b b'.
Proof.
  intros H HM. unfold CorrModel.transfer. apply bsum_ext. intros a Ha. apply bsum_ext. intros a' Ha'. apply bsum_ext. intros s Hs. apply bsum_ext. intros s' Hs'.
  now rewrite H, HM.
Qed.
Lemma transfer_plain_ident L t M b b' : same_op (tp t) M ident -> transfer L t M b b' = transfer_plain L t b b'.
Proof.
  intros HM. unfold CorrModel.transfer, CorrModel.transfer_plain. apply bsum_ext. intros a Ha. apply bsum_ext. intros a' Ha'. apply bsum_ext. intros s Hs.
  transitivity (bsum (tp t) (fun s' => delta s s' * (L a a' * te t a s b * conj (te t a' s' b')))).
  - apply bsum_ext. intros s' Hs'. rewrite HM by assumption. unfold CorrSpec.ident. ring.
  - now rewrite (bsum_delta r0 r1 radd rmul rsub ropp RT) by assumption.
Qed.
Lemma closed_transfer L t M : closed L t M = bsum (tr t) (fun b => transfer L t M b b).
Proof.
  unfold CorrModel.closed, CorrModel.transfer.
  etransitivity; [|apply (bsum_swap r0 r1 radd rmul rsub ropp RT)]. apply bsum_ext. intros a Ha.
  etransitivity; [|apply (bsum_swap r0 r1 radd rmul rsub ropp RT)]. apply bsum_ext. intros a' Ha'.
  etransitivity; [|apply (bsum_swap r0 r1 radd rmul rsub ropp RT)]. apply bsum_ext. intros s Hs.
  apply (bsum_swap r0 r1 radd rmul rsub ropp RT).
Qed.

(** Nothing but left orthogonal tensors and identities: the identity. *)
Lemma lpart_ident P : forall ts n, linked 1 ts n -> Forall LO ts ->
  (forall k t, nth_error ts k = Some t -> same_op (tp t) (P (1 + Z.of_nat k)%Z) ident) ->
  forall b b', b < n -> b' < n -> lpart ts P b b' = delta b b'.
Proof.
  induction ts as [|t ts IH] using rev_ind; intros n L FL HP b b' Hb Hb'.
  - cbn in L. subst n. rewrite lpart_nil. assert (b = 0) as -> by lia. assert (b' = 0) as -> by lia. unfold BigSum.delta. cbn. ring.
  - apply linked_app in L as (m & L1 & Ht & Hn). cbn in Hn. subst n. apply Forall_app in FL as [FL1 FL2]. inversion FL2 as [|? ? LOt _]; subst.
    rewrite (lpart_snoc ts t P (tl t)) by auto.
    rewrite (transfer_ext _ delta _ _ ident) by (try (intros; eapply IH; eauto; intros k u Hk; apply HP; rewrite nth_error_app1; [assumption|apply nth_error_Some; congruence]);
      try (apply HP; rewrite nth_error_app2, Nat.sub_diag by lia; reflexivity)).
    rewrite (transfer_plain_ident _ _ ident) by (intros ? ? _ _; reflexivity). unfold CorrModel.transfer_plain.
    transitivity (bsum (tl t) (fun a => bsum (tp t) (fun s => conj (te t a s b') * te t a s b))).
    + apply bsum_ext. intros a Ha. etransitivity; [apply (bsum_swap r0 r1 radd rmul rsub ropp RT)|]. apply bsum_ext. intros s Hs.
      transitivity (bsum (tl t) (fun a' => delta a a' * (te t a s b * conj (te t a' s b')))); [apply bsum_ext; intros; ring|].
      rewrite (bsum_delta r0 r1 radd rmul rsub ropp RT) by assumption. ring.
    + rewrite (LOt b' b) by assumption. unfold BigSum.delta. now rewrite Nat.eqb_sym.
Qed.
Lemma rpart_ident P : forall ts n j, linked n ts 1 -> Forall RO ts ->
  (forall k t, nth_error ts k = Some t -> same_op (tp t) (P (j + Z.of_nat k)%Z) ident) ->
  forall b b', b < n -> b' < n -> rpart ts P j b b' = delta b b'.
Proof.
  induction ts as [|t ts IH]; intros n j L FR HP b b' Hb Hb'.
  - cbn in L. subst n. unfold rpart. cbn [sites map confs LocalSem.lsum MpsSpec.chain CorrSpec.element].
    assert (b = 0) as -> by lia. assert (b' = 0) as -> by lia. unfold BigSum.delta. cbn. rewrite conj1. ring.
  - destruct L as [<- L]. inversion FR as [|? ? ROt FR']; subst. rewrite rpart_cons.
    transitivity (bsum (tr t) (fun e => bsum (tp t) (fun s => conj (te t b' s e) * te t b s e))).
    + etransitivity; [|symmetry; apply (bsum_swap r0 r1 radd rmul rsub ropp RT)]. apply bsum_ext. intros s Hs.
      transitivity (bsum (tp t) (fun s' => delta s s' * bsum (tr t) (fun e => conj (te t b' s' e) * te t b s e))).
      * apply bsum_ext. intros s' Hs'. rewrite <- (bsum_mul_l r0 r1 radd rmul rsub ropp RT). apply bsum_ext. intros e He.
        transitivity (bsum (tr t) (fun e' => delta e e' * (delta s s' * (conj (te t b' s' e') * te t b s e)))).
        -- apply bsum_ext. intros e' He'. rewrite (IH _ (j + 1)%Z L FR') by (try assumption; intros k u Hk; specialize (HP (S k) u Hk); replace (j + 1 + Z.of_nat k)%Z with (j + Z.of_nat (S k))%Z by lia; exact HP).
           specialize (HP 0 t eq_refl). replace (j + Z.of_nat 0)%Z with j in HP by lia. rewrite (HP s s') by assumption. unfold CorrSpec.ident. ring.
        -- now rewrite (bsum_delta r0 r1 radd rmul rsub ropp RT) by assumption.
      * now rewrite (bsum_delta r0 r1 radd rmul rsub ropp RT) by assumption.
    + rewrite (ROt b' b) by assumption. unfold BigSum.delta. now rewrite Nat.eqb_sym.
Qed.

(** One tensor closed off between the left part and a right orthogonal rest. *)
Lemma expectation_closed ts1 t ts2 P n : linked 1 ts1 n -> linked n (t :: ts2) 1 -> Forall RO ts2 ->
  (forall k u, nth_error ts2 k = Some u -> same_op (tp u) (P (2 + Z.of_nat (length ts1) + Z.of_nat k)%Z) ident) ->
  expectation (ts1 ++ t :: ts2) P = closed (lpart ts1 P) t (P (1 + Z.of_nat (length ts1))%Z).
Proof.
  intros L1 [Ht L2] FR HP. replace (ts1 ++ t :: ts2) with ((ts1 ++ [t]) ++ ts2) by (rewrite <- app_assoc; reflexivity).
  assert (LL : linked 1 (ts1 ++ [t]) (tr t)) by (apply linked_app; exists n; split; [assumption|]; split; [assumption|reflexivity]).
  rewrite (expectation_cut (ts1 ++ [t]) ts2 P (tr t) LL), closed_transfer. apply bsum_ext. intros b Hb.
  transitivity (bsum (tr t) (fun b' => delta b b' * lpart (ts1 ++ [t]) P b b')).
  - apply bsum_ext. intros b' Hb'. rewrite app_length. cbn [length].
    rewrite (rpart_ident P ts2 (tr t)); [ring|assumption|assumption| |assumption|assumption].
    intros k u Hk. specialize (HP k u Hk). replace (1 + Z.of_nat (length ts1 + 1) + Z.of_nat k)%Z with (2 + Z.of_nat (length ts1) + Z.of_nat k)%Z by lia. exact HP.
  - rewrite (bsum_delta r0 r1 radd rmul rsub ropp RT) by assumption. now rewrite (lpart_snoc ts1 t P n) by auto.
Qed.

Lemma bsum_opp n f : bsum n (fun i => ropp (f i)) = ropp (bsum n f).
Proof. induction n as [|n IH]; cbn [BigSum.bsum]; [|rewrite IH]; ring. Qed.
(** Operator algebra on a site. *)
Lemma after_ident_l d A : same_op d (after d ident A) A.
Proof.
  intros s s' Hs Hs'. unfold CorrSpec.after, CorrSpec.ident. transitivity (bsum d (fun t => delta s' t * A s t)).
  - apply bsum_ext. intros t Ht. unfold BigSum.delta. rewrite Nat.eqb_sym. ring.
  - now rewrite (bsum_delta r0 r1 radd rmul rsub ropp RT).
Qed.
Lemma after_ident_r d A : same_op d (after d A ident) A.
Proof. intros s s' Hs Hs'. unfold CorrSpec.after, CorrSpec.ident. now rewrite (bsum_delta r0 r1 radd rmul rsub ropp RT). Qed.
Lemma after_ext d A A' B B' : same_op d A A' -> same_op d B B' -> same_op d (after d A B) (after d A' B').
Proof. intros HA HB s s' Hs Hs'. unfold CorrSpec.after. apply bsum_ext. intros t Ht. now rewrite HA, HB. Qed.
Lemma after_assoc d A B C : same_op d (after d A (after d B C)) (after d (after d A B) C).
Proof.
  intros s s' Hs Hs'. unfold CorrSpec.after.
  transitivity (bsum d (fun t => bsum d (fun u => C s u * B u t * A t s'))).
  - apply bsum_ext. intros t Ht. rewrite <- (bsum_mul_r r0 r1 radd rmul rsub ropp RT). reflexivity.
  - rewrite (bsum_swap r0 r1 radd rmul rsub ropp RT). apply bsum_ext. intros u Hu. rewrite <- (bsum_mul_l r0 r1 radd rmul rsub ropp RT). apply bsum_ext. intros t Ht. ring.
Qed.
Lemma after_adjoint d A B : same_op d (adjoint conj (after d A B)) (after d (adjoint conj B) (adjoint conj A)).
Proof.
  intros s s' Hs Hs'. unfold adjoint, CorrSpec.after. rewrite !bl, (ls_conj r0 radd conj conj0 conj_add). apply ls_ext. intros t _. rewrite conj_mul. ring.
Qed.
Lemma same_op_sym d (A B : site_op) : same_op d A B -> same_op d B A.
Proof. intros H s s' Hs Hs'. symmetry. auto. Qed.
Lemma same_op_trans d (A B C : site_op) : same_op d A B -> same_op d B C -> same_op d A C.
Proof. intros H H' s s' Hs Hs'. rewrite H by assumption. auto. Qed.
Lemma same_op_refl d (A : site_op) : same_op d A A.
Proof. intros s s' _ _. reflexivity. Qed.
End Proofs.
