(** Sums of rank-one terms over orthonormal families. *)
From Coq Require Import List Arith Lia Ring Bool.
From Verif Require Import TensorSpec BigSum SvdSpec.
Import ListNotations.

Section Rank.
Context {R : Type} (r0 r1 : R) (radd rmul rsub : R -> R -> R) (ropp : R -> R).
Context (RT : ring_theory r0 r1 radd rmul rsub ropp eq).
Add Ring RRsr : RT.
Context (conj : R -> R) (HC : conjugation radd rmul conj).
Notation "x + y" := (radd x y). Notation "x * y" := (rmul x y).
Notation sum := (sum_below r0 radd).
Notation kron := (kron r0 r1).

Lemma sum_ext n f g : (forall i, i < n -> f i = g i) -> sum n f = sum n g.
Proof. exact (bsum_ext r0 radd n f g). Qed.
Lemma sum_zero n f : (forall i, i < n -> f i = r0) -> sum n f = r0.
Proof. exact (bsum_zero r0 r1 radd rmul rsub ropp RT n f). Qed.
Lemma sum_add n f g : sum n (fun i => f i + g i) = sum n f + sum n g.
Proof. exact (bsum_add r0 r1 radd rmul rsub ropp RT n f g). Qed.
Lemma sum_mul_l n c f : sum n (fun i => c * f i) = c * sum n f.
Proof. exact (bsum_mul_l r0 r1 radd rmul rsub ropp RT n c f). Qed.
Lemma sum_mul_r n c f : sum n (fun i => f i * c) = sum n f * c.
Proof. exact (bsum_mul_r r0 r1 radd rmul rsub ropp RT n c f). Qed.
Lemma sum_swap n m f : sum n (fun i => sum m (fun j => f i j)) = sum m (fun j => sum n (fun i => f i j)).
Proof. exact (bsum_swap r0 r1 radd rmul rsub ropp RT n m f). Qed.

Lemma conj_0 : conj r0 = r0.
Proof.
  destruct HC as (H & _). pose proof (H r0 r0) as K. replace (r0 + r0) with r0 in K by ring.
  transitivity (conj r0 + conj r0 + ropp (conj r0)); [ring|]. rewrite <- K. ring.
Qed.
Lemma conj_1 : conj r1 = r1.
Proof.
  destruct HC as (_ & H & K). pose proof (H (conj r1) r1) as E. replace (conj r1 * r1) with (conj r1) in E by ring.
  rewrite !K in E. replace (r1 * conj r1) with (conj r1) in E by ring. congruence.
Qed.
Lemma conj_kron i j : conj (kron i j) = kron i j.
Proof. unfold SvdSpec.kron. destruct (i =? j); [apply conj_1|apply conj_0]. Qed.
Lemma conj_sum n f : conj (sum n f) = sum n (fun i => conj (f i)).
Proof. induction n as [|n IH]; cbn [sum_below]; [apply conj_0|]. rewrite (proj1 HC), IH. reflexivity. Qed.

(** Inner product of two vectors of dimension n. *)
Definition inner (n : nat) (f g : nat -> R) : R := sum n (fun i => conj (f i) * g i).
Lemma inner_ext n f f' g g' : (forall i, i < n -> f i = f' i) -> (forall i, i < n -> g i = g' i) -> inner n f g = inner n f' g'.
Proof. intros H H'. apply sum_ext. intros i Hi. rewrite H, H' by exact Hi. reflexivity. Qed.
Lemma inner_sym n f g : conj (inner n f g) = inner n g f.
Proof.
  unfold inner. rewrite conj_sum. apply sum_ext. intros i _. destruct HC as (_ & H & K). rewrite H, K. ring.
Qed.

(** A list of orthonormal vectors. *)
Definition ortho (n : nat) (fs : list (nat -> R)) : Prop :=
  Forall (fun f => inner n f f = r1) fs /\ ForallOrdPairs (fun f g => inner n f g = r0 /\ inner n g f = r0) fs.
Lemma ortho_nil n : ortho n [].
Proof. split; constructor. Qed.
Lemma fop_app {A} (P : A -> A -> Prop) : forall l1 l2, ForallOrdPairs P (l1 ++ l2) <->
  ForallOrdPairs P l1 /\ ForallOrdPairs P l2 /\ (forall a b, In a l1 -> In b l2 -> P a b).
Proof.
  induction l1 as [|x l1 IH]; intros l2; cbn [app].
  - split; [intros H; split; [constructor|split; [exact H|intros a b []]]|tauto].
  - split.
    + intros H. inversion H as [|y l Hx Hl]; subst. apply IH in Hl as (H1 & H2 & H3). apply Forall_app in Hx as [Hx1 Hx2].
      rewrite Forall_forall in Hx2. split; [constructor; auto|]. split; [exact H2|]. intros a b [<-|Ha] Hb; auto.
    + intros (H1 & H2 & H3). inversion H1 as [|y l Hx Hl]; subst. constructor.
      * apply Forall_app. split; [exact Hx|]. apply Forall_forall. intros b Hb. apply H3; [now left|exact Hb].
      * apply IH. split; [exact Hl|]. split; [exact H2|]. intros a b Ha Hb. apply H3; [now right|exact Hb].
Qed.
Lemma ortho_app n f1 f2 : ortho n (f1 ++ f2) <-> ortho n f1 /\ ortho n f2 /\ (forall f g, In f f1 -> In g f2 -> inner n f g = r0 /\ inner n g f = r0).
Proof. unfold ortho. rewrite Forall_app, fop_app. tauto. Qed.
Lemma ortho_firstn n k fs : ortho n fs -> ortho n (firstn k fs).
Proof. intros H. rewrite <- (firstn_skipn k fs) in H. apply ortho_app in H. tauto. Qed.
Lemma ortho_skipn n k fs : ortho n fs -> ortho n (skipn k fs).
Proof. intros H. rewrite <- (firstn_skipn k fs) in H. apply ortho_app in H. tauto. Qed.

Lemma ortho_nth n fs z : ortho n fs -> forall i j, i < length fs -> j < length fs -> inner n (nth i fs z) (nth j fs z) = kron i j.
Proof.
  intros [H1 H2] i j Hi Hj. unfold SvdSpec.kron.
  assert (G : forall i j, i < j -> j < length fs -> inner n (nth i fs z) (nth j fs z) = r0 /\ inner n (nth j fs z) (nth i fs z) = r0).
  { clear i j Hi Hj H1. induction H2 as [|f fs Hf Hfs IH]; intros i j Hij Hj; cbn in Hj; [lia|]. destruct j as [|j]; [lia|]. destruct i as [|i]; cbn [nth].
    - rewrite Forall_forall in Hf. apply Hf. apply nth_In. lia.
    - apply IH; lia. }
  destruct (Nat.eqb_spec i j) as [->|E].
  - rewrite Forall_forall in H1. apply H1. apply nth_In. exact Hj.
  - destruct (Nat.lt_gt_cases i j) as [K _]. destruct (K E) as [L|L]; [apply (G i j L Hj)|apply (G j i L Hi)].
Qed.
Lemma ortho_of n fs z : (forall i j, i < length fs -> j < length fs -> inner n (nth i fs z) (nth j fs z) = kron i j) -> ortho n fs.
Proof.
  intros H. split.
  - apply Forall_forall. intros f Hf. apply (In_nth _ _ z) in Hf as (i & Hi & <-). rewrite H by auto. unfold SvdSpec.kron. now rewrite Nat.eqb_refl.
  - induction fs as [|f fs IH]; constructor.
    + apply Forall_forall. intros g Hg. apply (In_nth _ _ z) in Hg as (j & Hj & <-).
      specialize (H 0 (S j)) as H1. specialize (H (S j) 0) as H2. cbn in H1, H2. split; [apply H1|apply H2]; lia.
    + apply IH. intros i j Hi Hj. specialize (H (S i) (S j)). cbn in H. rewrite H by lia. reflexivity.
Qed.
(** Orthonormal families with different supports. *)
Lemma ortho_concat n (Fs : list (list (nat -> R))) (sup : list (nat -> bool)) : length sup = length Fs ->
  (forall b, b < length Fs -> ortho n (nth b Fs [])) ->
  (forall b f i, In f (nth b Fs []) -> i < n -> nth b sup (fun _ => false) i = false -> f i = r0) ->
  (forall b b' i, b < b' -> b' < length Fs -> i < n -> nth b sup (fun _ => false) i = true -> nth b' sup (fun _ => false) i = false) ->
  ortho n (concat Fs).
Proof.
  revert sup. induction Fs as [|F Fs IH]; intros [|w sup] L H1 H2 H3; cbn in L; try discriminate; cbn [concat]; [apply ortho_nil|].
  apply ortho_app. split; [apply (H1 0); cbn; lia|]. split.
  - apply (IH sup); [lia|intros b Hb; apply (H1 (S b)); cbn; lia|intros b; apply (H2 (S b))|].
    intros b b' i Hb Hb' Hi. apply (H3 (S b) (S b') i); cbn; lia.
  - intros f g Hf Hg. apply in_concat in Hg as (G & HG & Hg). apply (In_nth _ _ []) in HG as (b & Hb & <-).
    assert (Z : forall i, i < n -> f i = r0 \/ g i = r0).
    { intros i Hi. destruct (w i) eqn:EW.
      - right. apply (H2 (S b) g i Hg Hi). cbn. apply (H3 0 (S b) i); cbn; auto; lia.
      - left. apply (H2 0 f i Hf Hi EW). }
    split; apply sum_zero; intros i Hi; destruct (Z i Hi) as [E|E]; rewrite E, ?conj_0; ring.
Qed.

Lemma inner_prod n m a b c e f : inner n a b * c * inner m e f = sum n (fun u => sum m (fun v => conj (a u) * b u * c * (conj (e v) * f v))).
Proof.
  unfold inner. rewrite <- !sum_mul_r. apply sum_ext. intros u _. rewrite <- sum_mul_l. apply sum_ext. intros v _. ring.
Qed.

(** Rank-one terms. *)
Notation term := ((nat -> R) * R * (nat -> R))%type.
Definition tp (t : term) := fst (fst t).
Definition td (t : term) := snd (fst t).
Definition tq (t : term) := snd t.
Definition rsum (l : list term) (u v : nat) : R := fold_right (fun t acc => tp t u * td t * tq t v + acc) r0 l.
Lemma rsum_app l1 l2 u v : rsum (l1 ++ l2) u v = rsum l1 u v + rsum l2 u v.
Proof. unfold rsum. induction l1 as [|t l1 IH]; cbn [app fold_right]; [ring|]. rewrite IH. ring. Qed.
Lemma rsum_zero l u v : (forall t, In t l -> tp t u = r0 \/ tq t v = r0) -> rsum l u v = r0.
Proof.
  induction l as [|t l IH]; intros H; cbn [rsum fold_right]; auto. fold (rsum l u v). rewrite IH by (intros; apply H; now right).
  destruct (H t ltac:(now left)) as [E|E]; rewrite E; ring.
Qed.
Lemma rsum_nth l z u v : rsum l u v = sum (length l) (fun x => tp (nth x l z) u * td (nth x l z) * tq (nth x l z) v).
Proof.
  induction l as [|t l IH] using rev_ind; [reflexivity|]. rewrite rsum_app, app_length. cbn [length]. rewrite Nat.add_1_r. cbn [sum_below].
  rewrite IH. f_equal.
  - apply sum_ext. intros x Hx. rewrite app_nth1 by exact Hx. reflexivity.
  - rewrite app_nth2, Nat.sub_diag by lia. cbn. ring.
Qed.

(** The square of the norm of a sum of rank-one terms. *)
Lemma ortho_norm n m l : ortho n (map tp l) -> ortho m (map tq l) -> (forall t, In t l -> conj (td t) = td t) ->
  sum n (fun u => sum m (fun v => rsum l u v * conj (rsum l u v))) = squares r0 radd rmul (map td l).
Proof.
  destruct HC as (Ca & Cm & Ci).
  induction l as [|t l IH]; intros [P1 P2] [Q1 Q2] Hd; cbn [map squares fold_right].
  - apply sum_zero. intros u _. apply sum_zero. intros v _. cbn. ring.
  - cbn [map] in P1, P2, Q1, Q2. inversion P1 as [|x1 l1 Pu Pn]; subst. inversion P2 as [|x2 l2 Px Po]; subst. inversion Q1 as [|x3 l3 Qu Qn]; subst. inversion Q2 as [|x4 l4 Qx Qo]; subst.
    rewrite Forall_forall in Px, Qx. assert (Ht := Hd t ltac:(now left)). fold (squares r0 radd rmul (map td l)).
    rewrite <- IH by (try (split; assumption); intros; apply Hd; now right).
    transitivity (sum n (fun u => sum m (fun v => (tp t u * conj (tp t u)) * (td t * td t) * (tq t v * conj (tq t v)) + rsum l u v * conj (rsum l u v)
      + (tp t u * td t * tq t v * conj (rsum l u v) + conj (tp t u * td t * tq t v) * rsum l u v)))).
    { apply sum_ext. intros u _. apply sum_ext. intros v _. cbn [rsum fold_right]. fold (rsum l u v). rewrite Ca, !Cm, Ht. ring. }
    transitivity (sum n (fun u => sum m (fun v => (tp t u * conj (tp t u)) * (td t * td t) * (tq t v * conj (tq t v)))) +
      sum n (fun u => sum m (fun v => rsum l u v * conj (rsum l u v))) +
      sum n (fun u => sum m (fun v => tp t u * td t * tq t v * conj (rsum l u v) + conj (tp t u * td t * tq t v) * rsum l u v))).
    { rewrite <- !sum_add. apply sum_ext. intros u _. rewrite <- !sum_add. reflexivity. }
    assert (E1 : sum n (fun u => sum m (fun v => (tp t u * conj (tp t u)) * (td t * td t) * (tq t v * conj (tq t v)))) = td t * td t).
    { transitivity (inner n (tp t) (tp t) * (td t * td t) * inner m (tq t) (tq t)); [|rewrite Pu, Qu; ring].
      unfold inner. rewrite <- !sum_mul_r. apply sum_ext. intros u _. rewrite <- sum_mul_l. apply sum_ext. intros v _. ring. }
    assert (E2 : sum n (fun u => sum m (fun v => tp t u * td t * tq t v * conj (rsum l u v) + conj (tp t u * td t * tq t v) * rsum l u v)) = r0).
    { clear IH P1 P2 Q1 Q2 Pn Po Qn Qo E1. induction l as [|t' l IHl].
      - apply sum_zero. intros u _. apply sum_zero. intros v _. cbn. rewrite conj_0. ring.
      - transitivity (sum n (fun u => sum m (fun v => tp t u * td t * tq t v * conj (tp t' u * td t' * tq t' v) + conj (tp t u * td t * tq t v) * (tp t' u * td t' * tq t' v)))
          + sum n (fun u => sum m (fun v => tp t u * td t * tq t v * conj (rsum l u v) + conj (tp t u * td t * tq t v) * rsum l u v))).
        { rewrite <- sum_add. apply sum_ext. intros u _. rewrite <- sum_add. apply sum_ext. intros v _. cbn [rsum fold_right]. fold (rsum l u v). rewrite Ca. ring. }
        rewrite IHl; [|intros g [<-|Hg]; apply Hd; cbn; auto|intros g Hg; apply Px; now right|intros g Hg; apply Qx; now right].
        assert (Ht' := Hd t' ltac:(cbn; auto)). destruct (Px (tp t') ltac:(now left)) as [K1 K2].
        transitivity (inner n (tp t') (tp t) * (td t * td t') * inner m (tq t') (tq t) + inner n (tp t) (tp t') * (td t * td t') * inner m (tq t) (tq t')); [|rewrite K1, K2; ring].
        rewrite !inner_prod. rewrite <- sum_add. match goal with |- ?x + r0 = _ => replace (x + r0) with x by ring end. apply sum_ext. intros u _. rewrite <- sum_add. apply sum_ext. intros v _. rewrite !Cm, Ht, Ht'. ring. }
    rewrite E1, E2. ring.
Qed.
End Rank.
