(** From a matrix to a tensor: numbering the joint values of two groups of indices. *)
From Coq Require Import List Arith Lia Ring Bool Permutation.
From Verif Require Import Util RangeModel RangeSpec RangeProofs TensorModel TensorSpec TensorProofs SemProofs QdSum DenseProofs SvdSpec SvdRank.
Import ListNotations.
Local Arguments Nat.sub : simpl never.

Lemma nda_l {A} (l1 l2 : list A) : NoDup (l1 ++ l2) -> NoDup l1.
Proof. induction l1 as [|x l1 IH]; cbn [app]; intros H; [constructor|]. inversion H; subst. constructor; [|auto]. intros K. apply H2, in_or_app. auto. Qed.
Lemma nda_r {A} (l1 l2 : list A) : NoDup (l1 ++ l2) -> NoDup l2.
Proof. induction l1 as [|x l1 IH]; cbn [app]; intros H; [auto|]. inversion H; auto. Qed.

Section Factor.
Context {R : Type} (r0 r1 : R) (radd rmul rsub : R -> R -> R) (ropp : R -> R).
Context (RT : ring_theory r0 r1 radd rmul rsub ropp eq).
Add Ring RRsf : RT.
Context (conj : R -> R) (HC : conjugation radd rmul conj).
Notation sum := (sum_below r0 radd).
Notation kron := (kron r0 r1).
Notation ortho := (ortho r0 r1 radd rmul conj).
Notation rsum := (rsum r0 radd rmul).
Notation term := ((nat -> R) * R * (nat -> R))%type.
Definition z0 : term := (fun _ => r0, r0, fun _ => r0).

Lemma SRof : semi_ring_theory r0 r1 radd rmul eq.
Proof. constructor; intros; ring. Qed.

(** The matrix A2 is the sum of the terms K, which U2, D, V2 hold, and of the discarded terms E. *)
Definition factored (nu nv : nat) (A2 U2 : nat -> nat -> R) (D : list R) (V2 : nat -> nat -> R) (disc : list R) : Prop :=
  exists K E : list term,
    (forall u v, u < nu -> v < nv -> A2 u v = radd (rsum K u v) (rsum E u v)) /\
    ortho nu (map tp K) /\ ortho nv (map tq K) /\ ortho nu (map tp E) /\ ortho nv (map tq E) /\
    (forall t, In t K \/ In t E -> conj (td t) = td t) /\
    D = map td K /\ disc = map td E /\
    (forall u x, u < nu -> x < length K -> U2 u x = tp (nth x K z0) u) /\
    (forall v x, v < nv -> x < length K -> V2 v x = tq (nth x K z0) v).

Lemma sum_list n f : sum n f = fold_right radd r0 (map f (seq 0 n)).
Proof.
  induction n as [|n IH]; [reflexivity|]. cbn [sum_below]. rewrite seq_S, map_app, fold_right_app, IH. cbn [map fold_right Nat.add].
  generalize (map f (seq 0 n)). intros l. induction l as [|a l IHl]; cbn [fold_right]; [ring|]. rewrite <- IHl. ring.
Qed.
Lemma fold_perm l l' : Permutation l l' -> fold_right radd r0 l = fold_right radd r0 l'.
Proof. induction 1; cbn [fold_right]; [reflexivity|congruence|ring|congruence]. Qed.
Lemma sum_bij a n g F : (forall k, k < a -> g k < n) -> (forall k k', k < a -> k' < a -> g k = g k' -> k = k') ->
  (forall v, v < n -> exists k, k < a /\ g k = v) -> sum a (fun k => F (g k)) = sum n F.
Proof.
  intros H1 H2 H3. rewrite !sum_list. rewrite <- (map_map g F). apply fold_perm, Permutation_map. apply NoDup_Permutation.
  - apply nodup_map_in; [apply seq_NoDup|]. intros x y Hx Hy. apply in_seq in Hx, Hy. apply H2; lia.
  - apply seq_NoDup.
  - intros v. rewrite in_map_iff, in_seq. split.
    + intros (k & <- & Hk). apply in_seq in Hk. split; [lia|]. apply H1. lia.
    + intros [_ Hv]. destruct (H3 v Hv) as (k & Hk & E). exists k. split; [exact E|]. apply in_seq. lia.
Qed.

Section T.
Context {I : Type} (ieq : I -> I -> bool) (dim : I -> nat).
Hypothesis ieq_spec : forall a b, ieq a b = true <-> a = b.
Notation sum_over := (sum_over r0 radd ieq dim).
Notation override := (override ieq).
Notation inrange := (inrange dim).

(** J numbers the joint values of cs: a bijection onto 0..n-1. *)
Definition numbering (cs : list I) (n : nat) (J : (I -> nat) -> nat) : Prop :=
  (forall s s', (forall x, In x cs -> s x = s' x) -> J s = J s') /\
  (forall s, inrange cs s -> J s < n) /\
  (forall s s', inrange cs s -> inrange cs s' -> J s = J s' -> forall x, In x cs -> s x = s' x) /\
  (forall v s, v < n -> exists s', inrange cs s' /\ J s' = v /\ forall x, ~ In x cs -> s' x = s x).

Lemma reindex cs n J F s : NoDup cs -> (forall x, In x cs -> 0 < dim x) -> numbering cs n J -> sum_over cs (fun t => F (J t)) s = sum n F.
Proof.
  intros ND Hp (J1 & J2 & J3 & J4). rewrite <- (sum_over_assign r0 r1 radd rmul SRof ieq dim cs (fun t => F (J t)) s Hp).
  rewrite <- (sum_below_sumn r0 radd).
  assert (EM : forall k, map (assign ieq cs (decode (map dim cs) k) s) cs = decode (map dim cs) k).
  { intros k. apply (assign_map ieq dim ieq_spec); auto. now rewrite decode_length, map_length. }
  assert (IR : forall k, k < size (map dim cs) -> inrange cs (assign ieq cs (decode (map dim cs) k) s)).
  { intros k Hk. apply (inrange_valid dim). rewrite EM. now apply decode_valid. }
  apply (sum_bij _ _ (fun k => J (assign ieq cs (decode (map dim cs) k) s))).
  - intros k Hk. apply J2, IR, Hk.
  - intros k k' Hk Hk' E. pose proof (J3 _ _ (IR k Hk) (IR k' Hk') E) as K. apply map_ext_in in K. rewrite !EM in K.
    rewrite <- (enc_decode (map dim cs) k Hk), <- (enc_decode (map dim cs) k' Hk'). congruence.
  - intros v Hv. destruct (J4 v s Hv) as (s' & H1 & H2 & _). apply (inrange_valid dim) in H1. exists (enc (map dim cs) (map s' cs)). split; [now apply enc_lt|].
    rewrite <- H2. apply J1. intros x Hx. assert (K : map (assign ieq cs (decode (map dim cs) (enc (map dim cs) (map s' cs))) s) cs = map s' cs) by (rewrite EM; now apply decode_enc).
    clear -K Hx. induction cs as [|y cs IH]; [contradiction|]. cbn [map] in K. injection K. intros K1 K2. destruct Hx as [<-|Hx]; auto.
    apply (fun H => ext_in_map H x Hx). exact K1.
Qed.

Section Two.
Context (Ui Vi AA : list I) (nu nv : nat) (Ju Jv : (I -> nat) -> nat) (l r : I).
Hypothesis HP : Permutation AA (Ui ++ Vi).
Hypothesis ND : NoDup AA.
Hypothesis Hpos : forall x, In x AA -> 0 < dim x.
Hypothesis Nu : numbering Ui nu Ju.
Hypothesis Nv : numbering Vi nv Jv.
Hypothesis Hl : ~ In l AA.
Hypothesis Hr : ~ In r AA.

Lemma in_U x : In x Ui -> In x AA.
Proof. intros H. apply (Permutation_in _ (Permutation_sym HP)), in_or_app. auto. Qed.
Lemma in_V x : In x Vi -> In x AA.
Proof. intros H. apply (Permutation_in _ (Permutation_sym HP)), in_or_app. auto. Qed.
Lemma ND_UV : NoDup (Ui ++ Vi).
Proof. eapply Permutation_NoDup; eauto. Qed.
Lemma ND_U : NoDup Ui.
Proof. apply (nda_l Ui Vi), ND_UV. Qed.
Lemma ND_V : NoDup Vi.
Proof. apply (nda_r Ui Vi), ND_UV. Qed.
Lemma disj x : In x Ui -> ~ In x Vi.
Proof.
  pose proof ND_UV as H. clear -H. induction Ui as [|y U IH]; intros Hx Hv; [contradiction|]. cbn in H. inversion H; subst.
  destruct Hx as [<-|Hx]; [apply H2, in_or_app; auto|]. exact (IH H3 Hx Hv).
Qed.

Lemma sum_two G s : sum_over AA (fun t => G (Ju t) (Jv t)) s = sum nu (fun u => sum nv (fun v => G u v)).
Proof.
  assert (RF : respects (fun t : I -> nat => G (Ju t) (Jv t))).
  { intros t t' E. rewrite (proj1 Nu t t'), (proj1 Nv t t'); auto. }
  rewrite (sum_over_perm r0 r1 radd rmul SRof ieq dim ieq_spec AA (Ui ++ Vi) _ RF HP ND).
  rewrite (sum_over_app r0 radd ieq dim).
  rewrite <- (reindex Ui nu Ju (fun u => sum nv (fun v => G u v)) s ND_U ltac:(intros; now apply Hpos, in_U) Nu).
  apply (so_ext_in r0 radd ieq ieq_spec (fun _ => nil) dim). intros t _ _.
  rewrite <- (reindex Vi nv Jv (fun v => G (Ju t) v) t ND_V ltac:(intros; now apply Hpos, in_V) Nv).
  apply (so_ext_in r0 radd ieq ieq_spec (fun _ => nil) dim). intros t' Ht' _. rewrite (proj1 Nu t' t); auto. intros x Hx. apply Ht'. now apply disj.
Qed.

Context (A U V : (I -> nat) -> R) (A2 U2 V2 : nat -> nat -> R) (D disc : list R).
Hypothesis HF : factored nu nv A2 U2 D V2 disc.
Hypothesis HA : forall s, inrange AA s -> A s = A2 (Ju s) (Jv s).
Hypothesis HU : forall s x, inrange Ui s -> x < length D -> U (override s l x) = U2 (Ju s) x.
Hypothesis HV : forall s x, inrange Vi s -> x < length D -> V (override s r x) = V2 (Jv s) x.

Lemma inr_U s : inrange AA s -> inrange Ui s.
Proof. intros H x Hx. apply H. now apply in_U. Qed.
Lemma inr_V s : inrange AA s -> inrange Vi s.
Proof. intros H x Hx. apply H. now apply in_V. Qed.

Lemma udv_rsum K : D = map td K -> (forall u x, u < nu -> x < length K -> U2 u x = tp (nth x K z0) u) ->
  (forall v x, v < nv -> x < length K -> V2 v x = tq (nth x K z0) v) ->
  forall s, inrange AA s -> udv r0 radd rmul ieq U l r D V s = rsum K (Ju s) (Jv s).
Proof.
  intros ED EU EV s Hs. unfold udv. rewrite ED, map_length, (rsum_nth r0 r1 radd rmul rsub ropp RT K z0). apply sum_ext. intros x Hx.
  assert (Hx' : x < length D) by (rewrite ED, map_length; exact Hx).
  rewrite HU, HV by (auto using inr_U, inr_V). rewrite EU, EV; [| |exact Hx| |exact Hx].
  - do 2 f_equal. change r0 with (td z0) at 1. rewrite map_nth. reflexivity.
  - apply (proj1 (proj2 Nv)). now apply inr_V.
  - apply (proj1 (proj2 Nu)). now apply inr_U.
Qed.

Theorem factors_exact s : inrange AA s -> disc = [] -> udv r0 radd rmul ieq U l r D V s = A s.
Proof.
  intros Hs ED. destruct HF as (K & E & H1 & _ & _ & _ & _ & _ & HD & HE & H2 & H3).
  rewrite (udv_rsum K HD H2 H3 s Hs), HA by exact Hs. rewrite H1 by (apply (proj1 (proj2 Nu)) || apply (proj1 (proj2 Nv)); auto using inr_U, inr_V).
  destruct E as [|t E]; [cbn; ring|]. rewrite HE in ED. discriminate.
Qed.
Theorem factors_error s : norm2 r0 radd rmul conj ieq dim AA (fun t => rsub (A t) (udv r0 radd rmul ieq U l r D V t)) s = squares r0 radd rmul disc.
Proof.
  destruct HF as (K & E & H1 & _ & _ & O1 & O2 & Hd & HD & HE & H2 & H3). rewrite HE.
  rewrite <- (ortho_norm r0 r1 radd rmul rsub ropp RT conj HC nu nv E O1 O2) by (intros; apply Hd; auto).
  unfold norm2. rewrite <- sum_two with (s := s). apply (so_ext_in r0 radd ieq ieq_spec (fun _ => nil) dim). intros t _ Ht.
  assert (EQ : rsub (A t) (udv r0 radd rmul ieq U l r D V t) = rsum E (Ju t) (Jv t)); [|rewrite EQ; reflexivity].
  rewrite (udv_rsum K HD H2 H3 t Ht), HA by exact Ht. rewrite H1 by (apply (proj1 (proj2 Nu)) || apply (proj1 (proj2 Nv)); auto using inr_U, inr_V). ring.
Qed.
Theorem factors_isoU : isometry r0 r1 radd rmul conj ieq dim Ui l (length D) U.
Proof.
  intros s x x' Hx Hx'. destruct HF as (K & E & _ & O1 & _ & _ & _ & _ & HD & _ & H2 & _). rewrite HD, map_length in Hx, Hx'.
  rewrite <- (ortho_nth r0 r1 radd rmul conj nu (map tp K) (fun _ => r0) O1 x x') by (rewrite map_length; assumption). unfold inner.
  rewrite <- (reindex Ui nu Ju _ s ND_U ltac:(intros; now apply Hpos, in_U) Nu).
  apply (so_ext_in r0 radd ieq ieq_spec (fun _ => nil) dim). intros t _ Ht. rewrite !HU by (rewrite ?HD, ?map_length; auto). rewrite !H2 by (auto; apply (proj1 (proj2 Nu)); auto).
  change (fun _ : nat => r0) with (tp z0). rewrite !map_nth. reflexivity.
Qed.
Theorem factors_isoV : isometry r0 r1 radd rmul conj ieq dim Vi r (length D) V.
Proof.
  intros s x x' Hx Hx'. destruct HF as (K & E & _ & _ & O1 & _ & _ & _ & HD & _ & _ & H2). rewrite HD, map_length in Hx, Hx'.
  rewrite <- (ortho_nth r0 r1 radd rmul conj nv (map tq K) (fun _ => r0) O1 x x') by (rewrite map_length; assumption). unfold inner.
  rewrite <- (reindex Vi nv Jv _ s ND_V ltac:(intros; now apply Hpos, in_V) Nv).
  apply (so_ext_in r0 radd ieq ieq_spec (fun _ => nil) dim). intros t _ Ht. rewrite !HV by (rewrite ?HD, ?map_length; auto). rewrite !H2 by (auto; apply (proj1 (proj2 Nv)); auto).
  change (fun _ : nat => r0) with (tq z0). rewrite !map_nth. reflexivity.
Qed.
End Two.
End T.
End Factor.
