(** Lemmas: chains of tensors, and position on an MPS kept in memory. *)
From Coq Require Import ZArith List Bool Arith Lia Ring Setoid.
From Verif Require Import Util BigSum MpsModel MpsTensor MpsSpec.
Import ListNotations.
Local Open Scope outcome_scope.

Section ChainAlg.
Context {R : Type} (r0 r1 : R) (radd rmul rsub : R -> R -> R) (ropp conj : R -> R).
Context (RT : ring_theory r0 r1 radd rmul rsub ropp eq).
Add Ring RRmp : RT.
Notation tensor := (@tensor R).
Notation bsum := (bsum r0 radd).
Notation csum := (csum r0 radd).
Notation chain := (chain r0 r1 radd rmul).
Notation "x + y" := (radd x y). Notation "x * y" := (rmul x y).

Lemma chain_app : forall ts1 c1 ts2 c2 d1 d2 a b,
  linked d1 ts1 d2 -> length c1 = length ts1 -> a < d1 ->
  chain (ts1 ++ ts2) (c1 ++ c2) a b = bsum d2 (fun e => chain ts1 c1 a e * chain ts2 c2 e b).
Proof.
  induction ts1 as [|t ts1 IH]; intros c1 ts2 c2 d1 d2 a b L Lc Ha.
  - destruct c1; [|discriminate]. cbn [app]. cbn in L. subst.
    cbn [MpsSpec.chain]. rewrite (bsum_delta r0 r1 radd rmul rsub ropp RT) by assumption. reflexivity.
  - destruct c1 as [|s c1]; [discriminate|]. destruct L as [L1 L2]. cbn [app MpsSpec.chain].
    transitivity (bsum (tr t) (fun e => te t a s e * bsum d2 (fun f => chain ts1 c1 e f * chain ts2 c2 f b))).
    { apply bsum_ext. intros e He. f_equal. eapply IH; eauto. }
    transitivity (bsum (tr t) (fun e => bsum d2 (fun f => te t a s e * (chain ts1 c1 e f * chain ts2 c2 f b)))).
    { apply bsum_ext. intros. symmetry. apply (bsum_mul_l r0 r1 radd rmul rsub ropp RT). }
    rewrite (bsum_swap r0 r1 radd rmul rsub ropp RT). apply bsum_ext. intros f Hf.
    transitivity (bsum (tr t) (fun e => (te t a s e * chain ts1 c1 e f) * chain ts2 c2 f b)).
    { apply bsum_ext. intros. ring. }
    apply (bsum_mul_r r0 r1 radd rmul rsub ropp RT).
Qed.

(** Replacing two neighbours by a pair with the same contraction. *)
Definition same_pair (x y x' y' : tensor) : Prop :=
  tl x' = tl x /\ tp x' = tp x /\ tp y' = tp y /\ tr y' = tr y /\ tr x' = tl y' /\
  forall a s s' b, a < tl x -> s < tp x -> s' < tp y -> b < tr y ->
    bsum (tr x') (fun c => te x' a s c * te y' c s' b) = bsum (tr x) (fun c => te x a s c * te y c s' b).

Lemma chain_pair : forall x y x' y' post c s s' a b d,
  same_pair x y x' y' -> tr x = tl y -> linked (tr y) post d ->
  a < tl x -> s < tp x -> s' < tp y ->
  chain (x' :: y' :: post) (s :: s' :: c) a b = chain (x :: y :: post) (s :: s' :: c) a b.
Proof.
  intros x y x' y' post c s s' a b d (H1 & H2 & H3 & H4 & H5 & H6) E L Ha Hs Hs'.
  cbn [MpsSpec.chain].
  assert (K : forall u v : tensor,
     bsum (tr u) (fun e => te u a s e * bsum (tr v) (fun f => te v e s' f * chain post c f b))
     = bsum (tr v) (fun f => bsum (tr u) (fun e => te u a s e * te v e s' f) * chain post c f b)).
  { intros u v.
    transitivity (bsum (tr u) (fun e => bsum (tr v) (fun f => te u a s e * (te v e s' f * chain post c f b)))).
    { apply bsum_ext. intros. symmetry. apply (bsum_mul_l r0 r1 radd rmul rsub ropp RT). }
    rewrite (bsum_swap r0 r1 radd rmul rsub ropp RT). apply bsum_ext. intros.
    rewrite <- (bsum_mul_r r0 r1 radd rmul rsub ropp RT). apply bsum_ext. intros. ring. }
  rewrite !K. rewrite H4. apply bsum_ext. intros f Hf. f_equal. apply H6; assumption.
Qed.

Lemma linked_app : forall (ts1 ts2 : list tensor) a b,
  linked a (ts1 ++ ts2) b <-> exists m, linked a ts1 m /\ linked m ts2 b.
Proof.
  induction ts1 as [|t ts1 IH]; intros ts2 a b; cbn.
  - split; [intros H; eexists; eauto|intros (m & -> & H); assumption].
  - rewrite IH. split.
    + intros (H1 & m & H2 & H3). eauto.
    + intros (m & (H1 & H2) & H3). eauto.
Qed.

Lemma Forall2_length_eq : forall {X Y} (P : X -> Y -> Prop) l l', Forall2 P l l' -> length l = length l'.
Proof. intros X Y P l l' H. induction H; cbn; congruence. Qed.

Lemma amplitude_pair : forall pre x y x' y' post,
  same_pair x y x' y' -> proper (pre ++ x :: y :: post) ->
  proper (pre ++ x' :: y' :: post) /\
  sites (pre ++ x' :: y' :: post) = sites (pre ++ x :: y :: post) /\
  forall c, Forall2 lt c (sites (pre ++ x :: y :: post)) ->
    amplitude r0 r1 radd rmul (pre ++ x' :: y' :: post) c
    = amplitude r0 r1 radd rmul (pre ++ x :: y :: post) c.
Proof.
  intros pre x y x' y' post SP P. pose proof SP as (H1 & H2 & H3 & H4 & H5 & H6).
  unfold proper in P. apply linked_app in P. destruct P as (m & L1 & L2).
  destruct L2 as (Ex & Ey & Lp).
  split; [|split].
  - unfold proper. apply linked_app. exists m. split; [assumption|]. cbn.
    rewrite H1, H4. repeat split; try congruence.
  - unfold sites. rewrite !map_app. cbn. rewrite H2, H3. reflexivity.
  - intros c Hc. unfold sites in Hc. rewrite map_app in Hc. cbn in Hc.
    apply Forall2_app_inv_r in Hc. destruct Hc as (c1 & c2 & F1 & F2 & ->).
    inversion F2 as [|s ? c2' ? Hs F3]; subst. inversion F3 as [|s' ? c3 ? Hs' F4]; subst.
    unfold amplitude.
    assert (Lc : length c1 = length pre).
    { apply Forall2_length_eq in F1. rewrite map_length in F1. assumption. }
    rewrite !(chain_app pre c1 _ _ 1 _ 0 0 L1 Lc) by lia.
    apply bsum_ext. intros e He. f_equal.
    eapply chain_pair; eauto.
Qed.

(** The two directions of orthMPS. *)
Section Orth.
Variable svdl svdr : tensor -> outcome (tensor * @matrix R).
Hypothesis SL : svdl_ok r0 r1 radd rmul conj svdl.
Hypothesis SR : svdr_ok r0 r1 radd rmul conj svdr.

Lemma orthL_spec : forall x y x' y',
  orthL r0 radd rmul svdl x y = Ok (x', y') -> tj x = true -> tr x = tl y ->
  same_pair x y x' y' /\ left_orth r0 r1 radd rmul conj x' /\ tj x' = tj x /\ tj y' = tj y.
Proof.
  intros x y x' y' H Hj E. unfold orthL in H. rewrite Hj in H.
  destruct (svdl x) as [[q M]| |] eqn:Es; try discriminate. cbn in H. injection H as <- <-.
  destruct (SL _ _ _ Es) as (Q1 & Q2 & Q3 & Q4 & Q5).
  split; [|split; [assumption|split; [assumption|reflexivity]]].
  unfold same_pair, mul_left. cbn [tl tp tr te]. repeat split; try assumption.
  intros a s s' b Ha Hs Hs' Hb.
  transitivity (bsum (tr q) (fun c => bsum (tl y) (fun e => te q a s c * (M c e * te y e s' b)))).
  { apply bsum_ext. intros. symmetry. apply (bsum_mul_l r0 r1 radd rmul rsub ropp RT). }
  rewrite (bsum_swap r0 r1 radd rmul rsub ropp RT). rewrite <- E. apply bsum_ext. intros e He.
  rewrite (Q5 a s e) by assumption. rewrite <- (bsum_mul_r r0 r1 radd rmul rsub ropp RT).
  apply bsum_ext. intros. ring.
Qed.
Lemma orthR_spec : forall x y x' y',
  orthR r0 radd rmul svdr x y = Ok (x', y') -> tj x = true -> tr x = tl y ->
  same_pair x y x' y' /\ right_orth r0 r1 radd rmul conj y' /\ tj x' = tj x /\ tj y' = tj y.
Proof.
  intros x y x' y' H Hj E. unfold orthR in H. rewrite Hj in H.
  destruct (svdr y) as [[q M]| |] eqn:Es; try discriminate. cbn in H. injection H as <- <-.
  destruct (SR _ _ _ Es) as (Q1 & Q2 & Q3 & Q4 & Q5).
  split; [|split; [assumption|split; [reflexivity|assumption]]].
  unfold same_pair, mul_right. cbn [tl tp tr te]. repeat split; try assumption.
  intros a s s' b Ha Hs Hs' Hb.
  transitivity (bsum (tl q) (fun c => bsum (tr x) (fun e => te x a s e * M e c * te q c s' b))).
  { apply bsum_ext. intros. symmetry. apply (bsum_mul_r r0 r1 radd rmul rsub ropp RT). }
  rewrite (bsum_swap r0 r1 radd rmul rsub ropp RT). apply bsum_ext. intros e He.
  rewrite (Q5 e s' b) by (try assumption; lia). rewrite <- (bsum_mul_l r0 r1 radd rmul rsub ropp RT).
  apply bsum_ext. intros. ring.
Qed.
(** Orthogonality alone does not need the links to match. *)
Lemma orthL_orth : forall x y x' y',
  orthL r0 radd rmul svdl x y = Ok (x', y') -> tj x = true ->
  left_orth r0 r1 radd rmul conj x' /\ tj x' = tj x /\ tj y' = tj y.
Proof.
  intros x y x' y' H Hj. unfold orthL in H. rewrite Hj in H.
  destruct (svdl x) as [[q M]| |] eqn:Es; try discriminate. cbn in H. injection H as <- <-.
  destruct (SL _ _ _ Es) as (Q1 & Q2 & Q3 & Q4 & Q5). auto.
Qed.
Lemma orthR_orth : forall x y x' y',
  orthR r0 radd rmul svdr x y = Ok (x', y') -> tj x = true ->
  right_orth r0 r1 radd rmul conj y' /\ tj x' = tj x /\ tj y' = tj y.
Proof.
  intros x y x' y' H Hj. unfold orthR in H. rewrite Hj in H.
  destruct (svdr y) as [[q M]| |] eqn:Es; try discriminate. cbn in H. injection H as <- <-.
  destruct (SR _ _ _ Es) as (Q1 & Q2 & Q3 & Q4 & Q5). auto.
Qed.
End Orth.

(** Norm of a chain of orthogonal tensors. *)
Section Norm.
Hypothesis conj_add : forall x y, conj (x + y) = conj x + conj y.
Hypothesis conj_mul : forall x y, conj (x * y) = conj x * conj y.
Hypothesis conj_0 : conj r0 = r0.
Hypothesis conj_1 : conj r1 = r1.
Notation delta := (delta r0 r1).

Lemma conj_bsum : forall n f, conj (bsum n f) = bsum n (fun i => conj (f i)).
Proof. induction n as [|n IH]; intros f; cbn [BigSum.bsum]; [assumption|]. rewrite conj_add, IH. reflexivity. Qed.

Lemma conj_delta : forall i j, conj (delta i j) = delta i j.
Proof. intros i j. unfold BigSum.delta. destruct (Nat.eqb i j); assumption. Qed.

(** (sum_e x_e)* (sum_f y_f) *)
Lemma conj_prod : forall n m f g,
  conj (bsum n f) * bsum m g = bsum n (fun e => bsum m (fun e' => conj (f e) * g e')).
Proof.
  intros n m f g. rewrite conj_bsum. rewrite <- (bsum_mul_r r0 r1 radd rmul rsub ropp RT).
  apply bsum_ext. intros. symmetry. apply (bsum_mul_l r0 r1 radd rmul rsub ropp RT).
Qed.

Lemma left_chain : forall ts d1 d2 c c',
  linked d1 ts d2 -> Forall (left_orth r0 r1 radd rmul conj) ts -> c < d2 -> c' < d2 ->
  bsum d1 (fun a => csum (sites ts) (fun g => conj (chain ts g a c) * chain ts g a c')) = delta c c'.
Proof.
  induction ts as [|t ts IH]; intros d1 d2 c c' L F Hc Hc'.
  - cbn in L. subst. cbn [sites map BigSum.csum MpsSpec.chain].
    transitivity (bsum d2 (fun a => delta c a * delta a c')).
    { apply bsum_ext. intros a Ha. rewrite conj_delta. f_equal. unfold BigSum.delta. rewrite Nat.eqb_sym. reflexivity. }
    now rewrite (bsum_delta r0 r1 radd rmul rsub ropp RT).
  - destruct L as [<- L]. inversion F as [|? ? O F']; subst. cbn [sites map BigSum.csum].
    rewrite <- (IH (tr t) d2 c c' L F' Hc Hc').
    (* expand both chains *)
    transitivity (bsum (tl t) (fun a => bsum (tp t) (fun s => bsum (tr t) (fun e => bsum (tr t) (fun e' =>
       conj (te t a s e) * te t a s e' * csum (sites ts) (fun g => conj (chain ts g e c) * chain ts g e' c')))))).
    { apply bsum_ext. intros a Ha. apply bsum_ext. intros s Hs. cbn [MpsSpec.chain].
      transitivity (csum (map (@tp R) ts) (fun g => bsum (tr t) (fun e => bsum (tr t) (fun e' =>
         conj (te t a s e) * te t a s e' * (conj (chain ts g e c) * chain ts g e' c'))))).
      { apply csum_ext. intros g Hg. rewrite conj_prod. apply bsum_ext. intros. apply bsum_ext. intros.
        rewrite conj_mul. ring. }
      rewrite (csum_bsum r0 r1 radd rmul rsub ropp RT). apply bsum_ext. intros e He.
      rewrite (csum_bsum r0 r1 radd rmul rsub ropp RT). apply bsum_ext. intros e' He'.
      apply (csum_mul_l r0 r1 radd rmul rsub ropp RT). }
    transitivity (bsum (tr t) (fun e => bsum (tr t) (fun e' =>
       bsum (tl t) (fun a => bsum (tp t) (fun s => conj (te t a s e) * te t a s e'))
       * csum (sites ts) (fun g => conj (chain ts g e c) * chain ts g e' c')))).
    { transitivity (bsum (tl t) (fun a => bsum (tr t) (fun e => bsum (tp t) (fun s => bsum (tr t) (fun e' =>
       conj (te t a s e) * te t a s e' * csum (sites ts) (fun g => conj (chain ts g e c) * chain ts g e' c')))))).
      { apply bsum_ext. intros. apply (bsum_swap r0 r1 radd rmul rsub ropp RT). }
      rewrite (bsum_swap r0 r1 radd rmul rsub ropp RT). apply bsum_ext. intros e He.
      transitivity (bsum (tl t) (fun a => bsum (tr t) (fun e' => bsum (tp t) (fun s => 
       conj (te t a s e) * te t a s e' * csum (sites ts) (fun g => conj (chain ts g e c) * chain ts g e' c'))))).
      { apply bsum_ext. intros. apply (bsum_swap r0 r1 radd rmul rsub ropp RT). }
      rewrite (bsum_swap r0 r1 radd rmul rsub ropp RT). apply bsum_ext. intros e' He'.
      rewrite <- (bsum_mul_r r0 r1 radd rmul rsub ropp RT). apply bsum_ext. intros.
      apply (bsum_mul_r r0 r1 radd rmul rsub ropp RT). }
    apply bsum_ext. intros e He.
    rewrite <- (bsum_delta r0 r1 radd rmul rsub ropp RT (tr t) e
       (fun e' => csum (sites ts) (fun g => conj (chain ts g e c) * chain ts g e' c')) He).
    apply bsum_ext. intros e' He'. f_equal. apply O; assumption.
Qed.

Lemma right_chain : forall ts d1 d2 c c',
  linked d1 ts d2 -> Forall (right_orth r0 r1 radd rmul conj) ts -> c < d1 -> c' < d1 ->
  bsum d2 (fun b => csum (sites ts) (fun g => conj (chain ts g c b) * chain ts g c' b)) = delta c c'.
Proof.
  induction ts as [|t ts IH]; intros d1 d2 c c' L F Hc Hc'.
  - cbn in L. subst. cbn [sites map BigSum.csum MpsSpec.chain].
    transitivity (bsum d2 (fun a => delta c a * delta c' a)).
    { apply bsum_ext. intros a Ha. now rewrite conj_delta. }
    rewrite (bsum_delta r0 r1 radd rmul rsub ropp RT) by assumption. unfold BigSum.delta. now rewrite Nat.eqb_sym.
  - destruct L as [<- L]. inversion F as [|? ? O F']; subst. cbn [sites map BigSum.csum].
    rewrite <- (O c c' Hc Hc').
    transitivity (bsum (tp t) (fun s => bsum (tr t) (fun e => bsum (tr t) (fun e' =>
       conj (te t c s e) * te t c' s e' *
       bsum d2 (fun b => csum (sites ts) (fun g => conj (chain ts g e b) * chain ts g e' b)))))).
    { rewrite (bsum_swap r0 r1 radd rmul rsub ropp RT). apply bsum_ext. intros s Hs.
      transitivity (bsum d2 (fun b => bsum (tr t) (fun e => bsum (tr t) (fun e' =>
         conj (te t c s e) * te t c' s e' * csum (sites ts) (fun g => conj (chain ts g e b) * chain ts g e' b))))).
      { apply bsum_ext. intros b Hb. cbn [MpsSpec.chain].
        transitivity (csum (map (@tp R) ts) (fun g => bsum (tr t) (fun e => bsum (tr t) (fun e' =>
           conj (te t c s e) * te t c' s e' * (conj (chain ts g e b) * chain ts g e' b))))).
        { apply csum_ext. intros g Hg. rewrite conj_prod. apply bsum_ext. intros. apply bsum_ext. intros.
          rewrite conj_mul. ring. }
        rewrite (csum_bsum r0 r1 radd rmul rsub ropp RT). apply bsum_ext. intros e He.
        rewrite (csum_bsum r0 r1 radd rmul rsub ropp RT). apply bsum_ext. intros e' He'.
        apply (csum_mul_l r0 r1 radd rmul rsub ropp RT). }
      rewrite (bsum_swap r0 r1 radd rmul rsub ropp RT). apply bsum_ext. intros e He.
      rewrite (bsum_swap r0 r1 radd rmul rsub ropp RT). apply bsum_ext. intros e' He'.
      apply (bsum_mul_l r0 r1 radd rmul rsub ropp RT). }
    rewrite (bsum_swap r0 r1 radd rmul rsub ropp RT). apply bsum_ext. intros e He.
    apply bsum_ext. intros s Hs.
    rewrite <- (bsum_delta r0 r1 radd rmul rsub ropp RT (tr t) e
      (fun e' => conj (te t c s e) * te t c' s e') He).
    apply bsum_ext. intros e' He'. rewrite (IH (tr t) d2 e e' L F' He He'). ring.
Qed.

Lemma norm2_center : forall pre t post,
  proper (pre ++ t :: post) ->
  Forall (left_orth r0 r1 radd rmul conj) pre -> Forall (right_orth r0 r1 radd rmul conj) post ->
  norm2 r0 r1 radd rmul conj (pre ++ t :: post) = tnorm2 r0 radd rmul conj t.
Proof.
  intros pre t post P FL FR. unfold proper in P. apply linked_app in P. destruct P as (m & L1 & L2).
  destruct L2 as (<- & L2). unfold norm2, sites. rewrite map_app. cbn [map].
  rewrite csum_app.
  (* amplitude = sum over e of L_e * (sum over f of t e s f * R_f) *)
  assert (EA : forall c1 s c2, Forall2 lt c1 (map (@tp R) pre) ->
    amplitude r0 r1 radd rmul (pre ++ t :: post) (c1 ++ s :: c2)
    = bsum (tl t) (fun e => bsum (tr t) (fun f => chain pre c1 0 e * te t e s f * chain post c2 f 0))).
  { intros c1 s c2 F1. unfold amplitude.
    assert (Lc : length c1 = length pre). { apply Forall2_length_eq in F1. now rewrite map_length in F1. }
    rewrite (chain_app pre c1 _ _ 1 _ 0 0 L1 Lc) by lia. apply bsum_ext. intros e He. cbn [MpsSpec.chain].
    rewrite <- (bsum_mul_l r0 r1 radd rmul rsub ropp RT). apply bsum_ext. intros. ring. }
  set (LL := fun e e' => csum (map (@tp R) pre) (fun g => conj (chain pre g 0 e) * chain pre g 0 e')).
  set (RR := fun f f' => csum (map (@tp R) post) (fun g => conj (chain post g f 0) * chain post g f' 0)).
  assert (HL : forall e e', e < tl t -> e' < tl t -> LL e e' = delta e e').
  { intros e e' He He'. pose proof (left_chain pre 1 (tl t) e e' L1 FL He He') as Q.
    rewrite (bsum_1 r0 r1 radd rmul rsub ropp RT) in Q. exact Q. }
  assert (HR : forall f f', f < tr t -> f' < tr t -> RR f f' = delta f f').
  { intros f f' Hf Hf'. pose proof (right_chain post (tr t) 1 f f' L2 FR Hf Hf') as Q.
    rewrite (bsum_1 r0 r1 radd rmul rsub ropp RT) in Q. exact Q. }
  transitivity (bsum (tp t) (fun s => bsum (tl t) (fun e => bsum (tr t) (fun f => bsum (tl t) (fun e' => bsum (tr t) (fun f' =>
     conj (te t e s f) * te t e' s f' * LL e e' * RR f f')))))).
  { cbn [BigSum.csum]. rewrite (csum_bsum r0 r1 radd rmul rsub ropp RT). apply bsum_ext. intros s Hs.
    transitivity (csum (map (@tp R) pre) (fun c1 => csum (map (@tp R) post) (fun c2 =>
       bsum (tl t) (fun e => bsum (tr t) (fun f => bsum (tl t) (fun e' => bsum (tr t) (fun f' =>
         conj (te t e s f) * te t e' s f' * (conj (chain pre c1 0 e) * chain pre c1 0 e')
           * (conj (chain post c2 f 0) * chain post c2 f' 0)))))))).
    { apply csum_ext. intros c1 F1. apply csum_ext. intros c2 F2. rewrite EA by assumption.
      rewrite conj_prod. 
      transitivity (bsum (tl t) (fun e => bsum (tl t) (fun e' => bsum (tr t) (fun f => bsum (tr t) (fun f' =>
         conj (te t e s f) * te t e' s f' * (conj (chain pre c1 0 e) * chain pre c1 0 e')
           * (conj (chain post c2 f 0) * chain post c2 f' 0)))))).
      { apply bsum_ext. intros e He. apply bsum_ext. intros e' He'. rewrite conj_prod.
        apply bsum_ext. intros. apply bsum_ext. intros. rewrite !conj_mul. ring. }
      apply bsum_ext. intros e He. apply (bsum_swap r0 r1 radd rmul rsub ropp RT). }
    transitivity (csum (map (@tp R) pre) (fun c1 => 
       bsum (tl t) (fun e => bsum (tr t) (fun f => bsum (tl t) (fun e' => bsum (tr t) (fun f' =>
         conj (te t e s f) * te t e' s f' * (conj (chain pre c1 0 e) * chain pre c1 0 e') * RR f f')))))).
    { apply csum_ext. intros c1 F1.
      do 4 (rewrite (csum_bsum r0 r1 radd rmul rsub ropp RT); apply bsum_ext; intros).
      unfold RR. rewrite (csum_mul_l r0 r1 radd rmul rsub ropp RT). reflexivity. }
    do 4 (rewrite (csum_bsum r0 r1 radd rmul rsub ropp RT); apply bsum_ext; intros).
    unfold LL. rewrite <- (csum_mul_l r0 r1 radd rmul rsub ropp RT).
    rewrite <- (csum_mul_r r0 r1 radd rmul rsub ropp RT). reflexivity. }
  unfold tnorm2. rewrite (bsum_swap r0 r1 radd rmul rsub ropp RT). apply bsum_ext. intros e He.
  apply bsum_ext. intros s Hs. apply bsum_ext. intros f Hf.
  rewrite <- (bsum_delta r0 r1 radd rmul rsub ropp RT (tl t) e
      (fun e' => conj (te t e s f) * te t e' s f) He).
  apply bsum_ext. intros e' He'.
  rewrite <- (bsum_delta r0 r1 radd rmul rsub ropp RT (tr t) f
      (fun f' => conj (te t e s f) * te t e' s f') Hf).
  rewrite <- (bsum_mul_l r0 r1 radd rmul rsub ropp RT). apply bsum_ext. intros f' Hf'.
  rewrite HL, HR by assumption. ring.
Qed.
End Norm.
End ChainAlg.
