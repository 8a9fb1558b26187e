From Coq Require Import List NArith Bool Lia.
From Coq Require Import Init.Byte Strings.Byte.
From Verif Require Import SmallStringModel.
Import ListNotations.

Lemma to_N_lt b : (Byte.to_N b < 256)%N.
Proof. pose proof (Byte.to_N_bounded b). lia. Qed.

Lemma to_N_inj a b : Byte.to_N a = Byte.to_N b -> a = b.
Proof.
  intros H. pose proof (Byte.of_to_N a) as Ha. pose proof (Byte.of_to_N b) as Hb.
  rewrite H in Ha. congruence.
Qed.

Lemma byte_eqb_eq a b : Byte.eqb a b = true <-> a = b.
Proof. split; [apply Byte.byte_dec_bl | apply Byte.byte_dec_lb]. Qed.

Lemma key_step_inj a b x y :
  (Byte.to_N a + 256 * x = Byte.to_N b + 256 * y)%N -> a = b /\ x = y.
Proof.
  intros H. pose proof (to_N_lt a). pose proof (to_N_lt b).
  assert (x = y) by lia. subst. split; auto. apply to_N_inj. lia.
Qed.

Lemma ss_key_inj s t : ss_key s = ss_key t -> s = t.
Proof.
  destruct s as [a0 a1 a2 a3 a4 a5 a6], t as [b0 b1 b2 b3 b4 b5 b6]. unfold ss_key, ss_bytes. cbn [fold_right c0 c1 c2 c3 c4 c5 c6].
  intros H.
  repeat (apply key_step_inj in H; destruct H as [-> H]).
  reflexivity.
Qed.

Lemma ss_eqb_eq s t : ss_eqb s t = true <-> s = t.
Proof.
  destruct s as [a0 a1 a2 a3 a4 a5 a6], t as [b0 b1 b2 b3 b4 b5 b6]. unfold ss_eqb, ss_bytes. cbn [combine forallb fst snd c0 c1 c2 c3 c4 c5 c6].
  rewrite !andb_true_iff, !byte_eqb_eq. split.
  - intuition congruence.
  - intros H; inversion H; subst; intuition.
Qed.

Lemma ss_eqb_refl s : ss_eqb s s = true.
Proof. now apply ss_eqb_eq. Qed.

Lemma ss_eqb_neq s t : ss_eqb s t = false <-> s <> t.
Proof.
  rewrite <- ss_eqb_eq. destruct (ss_eqb s t); intuition congruence.
Qed.

Lemma ss_eqb_sym s t : ss_eqb s t = ss_eqb t s.
Proof.
  destruct (ss_eqb s t) eqn:E.
  - apply ss_eqb_eq in E. subst. now rewrite ss_eqb_refl.
  - symmetry. apply ss_eqb_neq. apply ss_eqb_neq in E. congruence.
Qed.

Lemma ss_dec (s t : SmallString) : {s = t} + {s <> t}.
Proof.
  destruct (ss_eqb s t) eqn:E; [left; now apply ss_eqb_eq | right; now apply ss_eqb_neq].
Defined.

Lemma ss_ltb_lt s t : ss_ltb s t = true <-> (ss_key s < ss_key t)%N.
Proof. unfold ss_ltb. apply N.ltb_lt. Qed.

Lemma ss_ltb_ge s t : ss_ltb s t = false <-> (ss_key t <= ss_key s)%N.
Proof. unfold ss_ltb. apply N.ltb_ge. Qed.

Lemma ss_trichotomy s t :
  (ss_key s < ss_key t)%N \/ s = t \/ (ss_key t < ss_key s)%N.
Proof.
  destruct (N.lt_trichotomy (ss_key s) (ss_key t)) as [H|[H|H]]; auto.
  right; left; now apply ss_key_inj.
Qed.

Lemma ss_of_bytes_bytes s : ss_of_bytes (ss_bytes s) = s.
Proof. destruct s; reflexivity. Qed.

Lemma ss_bytes_length s : length (ss_bytes s) = 7.
Proof. reflexivity. Qed.
