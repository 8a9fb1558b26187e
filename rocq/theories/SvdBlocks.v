(** The terms of several blocks, some kept and the others discarded. *)
From Coq Require Import List Arith Lia Ring Bool Permutation.
From Verif Require Import Util TensorSpec SvdModel SvdSpec SvdRank SvdMat SvdFactor.
Import ListNotations.
Local Arguments Nat.sub : simpl never.

Section Blocks.
Context {R : Type} (r0 r1 : R) (radd rmul rsub : R -> R -> R) (ropp : R -> R).
Context (RT : ring_theory r0 r1 radd rmul rsub ropp eq).
Add Ring RRsbl : RT.
Context (conj : R -> R) (HC : conjugation radd rmul conj).
Notation sum := (sum_below r0 radd).
Notation cm := (cm r0).
Notation ortho := (ortho r0 r1 radd rmul conj).
Notation inner := (inner r0 radd rmul conj).
Notation rsum := (rsum r0 radd rmul).
Notation term := ((nat -> R) * R * (nat -> R))%type.
Notation z0 := (z0 r0).
Notation no := (fun _ : nat => false).

(** Applied to every block. *)
Fixpoint firsts {A} (ks : list nat) (ds : list (list A)) : list (list A) :=
  match ks, ds with k :: ks', d :: ds' => firstn k d :: firsts ks' ds' | _, _ => [] end.
Fixpoint skips {A} (ks : list nat) (ds : list (list A)) : list (list A) :=
  match ks, ds with k :: ks', d :: ds' => skipn k d :: skips ks' ds' | _, _ => [] end.
Lemma kept_firsts {A} ks (ds : list (list A)) : kept ks ds = concat (firsts ks ds).
Proof. revert ds. induction ks as [|k ks IH]; intros [|d ds]; cbn; auto. now rewrite IH. Qed.
Lemma disc_skips {A} ks (ds : list (list A)) : discarded ks ds = concat (skips ks ds).
Proof. revert ds. induction ks as [|k ks IH]; intros [|d ds]; cbn; auto. now rewrite IH. Qed.
Lemma firsts_nth {A} ks (ds : list (list A)) b : length ks = length ds -> nth b (firsts ks ds) [] = firstn (nth b ks 0) (nth b ds []).
Proof. revert ds b. induction ks as [|k ks IH]; intros [|d ds] [|b] L; cbn in *; try discriminate; auto. Qed.
Lemma skips_nth {A} ks (ds : list (list A)) b : length ks = length ds -> nth b (skips ks ds) [] = skipn (nth b ks 0) (nth b ds []).
Proof. revert ds b. induction ks as [|k ks IH]; intros [|d ds] [|b] L; cbn in *; try discriminate; auto. Qed.
Lemma firsts_len {A} ks (ds : list (list A)) : length ks = length ds -> length (firsts ks ds) = length ds.
Proof. revert ds. induction ks as [|k ks IH]; intros [|d ds] L; cbn in *; try discriminate; auto. Qed.
Lemma skips_len {A} ks (ds : list (list A)) : length ks = length ds -> length (skips ks ds) = length ds.
Proof. revert ds. induction ks as [|k ks IH]; intros [|d ds] L; cbn in *; try discriminate; auto. Qed.
Lemma firsts_map {A B} (f : A -> B) ks ds : firsts ks (map (map f) ds) = map (map f) (firsts ks ds).
Proof. revert ds. induction ks as [|k ks IH]; intros [|d ds]; cbn; auto. now rewrite IH, firstn_map. Qed.
Lemma skips_map {A B} (f : A -> B) ks ds : skips ks (map (map f) ds) = map (map f) (skips ks ds).
Proof. revert ds. induction ks as [|k ks IH]; intros [|d ds]; cbn; auto. now rewrite IH, skipn_map. Qed.
Lemma kept_map {A B} (f : A -> B) ks ds : kept ks (map (map f) ds) = map f (kept ks ds).
Proof. now rewrite !kept_firsts, firsts_map, concat_map. Qed.
Lemma disc_map {A B} (f : A -> B) ks ds : discarded ks (map (map f) ds) = map f (discarded ks ds).
Proof. now rewrite !disc_skips, skips_map, concat_map. Qed.

Lemma rsum_split ks tss u v : length ks = length tss -> radd (rsum (kept ks tss) u v) (rsum (discarded ks tss) u v) = rsum (concat tss) u v.
Proof.
  revert tss. induction ks as [|k ks IH]; intros [|ts tss] L; cbn in L; try discriminate; cbn [kept discarded concat].
  - cbn. ring.
  - rewrite !(rsum_app r0 r1 radd rmul rsub ropp RT), <- IH by lia. rewrite <- (firstn_skipn k ts) at 3. rewrite (rsum_app r0 r1 radd rmul rsub ropp RT). ring.
Qed.
Lemma kept_in {A} ks (ds : list (list A)) x : In x (kept ks ds) \/ In x (discarded ks ds) -> In x (concat ds).
Proof.
  revert ds. induction ks as [|k ks IH]; intros [|d ds]; cbn [kept discarded concat]; try (intros [[]|[]]; fail).
  rewrite !in_app_iff. intros [[H|H]|[H|H]].
  - left. rewrite <- (firstn_skipn k d). apply in_or_app. auto.
  - right. apply IH. auto.
  - left. rewrite <- (firstn_skipn k d). apply in_or_app. auto.
  - right. apply IH. auto.
Qed.

Lemma factored_blocks nu nv A2 U2 V2 (tss : list (list term)) ks (su sv : list (nat -> bool)) :
  length ks = length tss -> length su = length tss -> length sv = length tss ->
  (forall u v, u < nu -> v < nv -> A2 u v = rsum (concat tss) u v) ->
  (forall b, b < length tss -> ortho nu (map tp (nth b tss []))) ->
  (forall b, b < length tss -> ortho nv (map tq (nth b tss []))) ->
  (forall b t i, In t (nth b tss []) -> i < nu -> nth b su no i = false -> tp t i = r0) ->
  (forall b t i, In t (nth b tss []) -> i < nv -> nth b sv no i = false -> tq t i = r0) ->
  (forall b b' i, b < b' -> b' < length tss -> i < nu -> nth b su no i = true -> nth b' su no i = false) ->
  (forall b b' i, b < b' -> b' < length tss -> i < nv -> nth b sv no i = true -> nth b' sv no i = false) ->
  (forall t, In t (concat tss) -> conj (td t) = td t) ->
  (forall u x, u < nu -> x < length (kept ks tss) -> U2 u x = tp (nth x (kept ks tss) z0) u) ->
  (forall v x, v < nv -> x < length (kept ks tss) -> V2 v x = tq (nth x (kept ks tss) z0) v) ->
  factored r0 r1 radd rmul conj nu nv A2 U2 (kept ks (map (map td) tss)) V2 (discarded ks (map (map td) tss)).
Proof.
  intros LK LU LV HA OU OV SU SV DU DV Hd HU HV. exists (kept ks tss), (discarded ks tss).
  assert (G : forall n (f : term -> nat -> R) (Fs : list (list term)) (sup : list (nat -> bool)), length sup = length Fs ->
    (forall b, b < length Fs -> ortho n (map f (nth b Fs []))) ->
    (forall b t i, In t (nth b Fs []) -> i < n -> nth b sup no i = false -> f t i = r0) ->
    (forall b b' i, b < b' -> b' < length Fs -> i < n -> nth b sup no i = true -> nth b' sup no i = false) -> ortho n (map f (concat Fs))).
  { intros n f Fs sup L H1 H2 H3. rewrite concat_map. apply (ortho_concat r0 r1 radd rmul rsub ropp RT conj HC n (map (map f) Fs) sup).
    - now rewrite map_length.
    - intros b Hb. rewrite map_length in Hb. change (@nil (nat -> R)) with (map f []). rewrite map_nth. auto.
    - intros b g i Hg. change (@nil (nat -> R)) with (map f []) in Hg. rewrite map_nth in Hg. apply in_map_iff in Hg as (t & <- & Ht). now apply H2.
    - intros b b' i. rewrite map_length. apply H3. }
  split; [intros u v Hu Hv; rewrite rsum_split by auto; auto|].
  assert (IF : forall b (t : term), In t (nth b (firsts ks tss) []) -> In t (nth b tss [])).
  { intros b t. rewrite firsts_nth by auto. intros H. rewrite <- (firstn_skipn (nth b ks 0)). apply in_or_app. auto. }
  assert (IS : forall b (t : term), In t (nth b (skips ks tss) []) -> In t (nth b tss [])).
  { intros b t. rewrite skips_nth by auto. intros H. rewrite <- (firstn_skipn (nth b ks 0)). apply in_or_app. auto. }
  split; [|split; [|split; [|split; [|split; [|split; [|split; [|split]]]]]]].
  - rewrite kept_firsts. apply (G nu tp (firsts ks tss) su); rewrite ?firsts_len by auto; auto.
    + intros b Hb. rewrite firsts_nth by auto. rewrite <- firstn_map. apply ortho_firstn. auto.
    + intros b t i Ht. eapply SU; eauto.
  - rewrite kept_firsts. apply (G nv tq (firsts ks tss) sv); rewrite ?firsts_len by auto; auto.
    + intros b Hb. rewrite firsts_nth by auto. rewrite <- firstn_map. apply ortho_firstn. auto.
    + intros b t i Ht. eapply SV; eauto.
  - rewrite disc_skips. apply (G nu tp (skips ks tss) su); rewrite ?skips_len by auto; auto.
    + intros b Hb. rewrite skips_nth by auto. rewrite <- skipn_map. apply ortho_skipn. auto.
    + intros b t i Ht. eapply SU; eauto.
  - rewrite disc_skips. apply (G nv tq (skips ks tss) sv); rewrite ?skips_len by auto; auto.
    + intros b Hb. rewrite skips_nth by auto. rewrite <- skipn_map. apply ortho_skipn. auto.
    + intros b t i Ht. eapply SV; eauto.
  - intros t Ht. apply Hd. eapply kept_in; eauto.
  - apply kept_map.
  - apply disc_map.
  - exact HU.
  - exact HV.
Qed.

(** The terms of one matrix. *)
Definition mterms (nr nc : nat) (u d w : list R) : list term :=
  map (fun r => (fun i => cm nr u i r, nth r d r0, fun j => cm nc w j r)) (seq 0 (length d)).
Lemma mterms_len nr nc u d w : length (mterms nr nc u d w) = length d.
Proof. unfold mterms. now rewrite map_length, seq_length. Qed.
Lemma mterms_nth nr nc u d w x : x < length d -> nth x (mterms nr nc u d w) z0 = (fun i => cm nr u i x, nth x d r0, fun j => cm nc w j x).
Proof.
  intros H. unfold mterms. set (f := fun r => (fun i => cm nr u i r, nth r d r0, fun j => cm nc w j r)).
  rewrite (nth_indep _ z0 (f 0)) by (rewrite map_length, seq_length; exact H). rewrite (map_nth f), seq_nth by exact H. reflexivity.
Qed.
Lemma mterms_td nr nc u d w : map td (mterms nr nc u d w) = d.
Proof.
  unfold mterms. rewrite map_map. cbn [td fst snd]. apply nth_ext with (d := r0) (d' := r0); rewrite map_length, seq_length; auto.
  intros n Hn. apply (nth_seq_map r0 (fun r => nth r d r0)). exact Hn.
Qed.
End Blocks.
