(** Finite sums over 0 .. n-1 in a commutative ring, and over all
    configurations of a list of dimensions.  Library-independent vocabulary. *)
From Coq Require Import List Arith Lia Ring Setoid.
Import ListNotations.

Section BigSum.
Context {R : Type} (r0 r1 : R) (radd rmul rsub : R -> R -> R) (ropp : R -> R).
Context (RT : ring_theory r0 r1 radd rmul rsub ropp eq).
Add Ring RRbs : RT.
Notation "x + y" := (radd x y). Notation "x * y" := (rmul x y).

(** f 0 + ... + f (n-1) *)
Fixpoint bsum (n : nat) (f : nat -> R) : R :=
  match n with O => r0 | S n' => bsum n' f + f n' end.

(** Sum over every list [s1; s2; ...] with s_k below the k-th dimension. *)
Fixpoint csum (dims : list nat) (f : list nat -> R) : R :=
  match dims with
  | [] => f []
  | p :: ps => bsum p (fun s => csum ps (fun c => f (s :: c)))
  end.

Definition delta (i j : nat) : R := if Nat.eqb i j then r1 else r0.

Lemma bsum_ext : forall n f g, (forall i, i < n -> f i = g i) -> bsum n f = bsum n g.
Proof.
  induction n as [|n IH]; intros f g H; [reflexivity|]. cbn [bsum].
  rewrite (IH f g) by (intros; apply H; lia). rewrite H by lia. reflexivity.
Qed.
Lemma bsum_zero : forall n f, (forall i, i < n -> f i = r0) -> bsum n f = r0.
Proof.
  induction n as [|n IH]; intros f H; [reflexivity|]. cbn [bsum].
  rewrite IH by (intros; apply H; lia). rewrite H by lia. ring.
Qed.
Lemma bsum_add : forall n f g, bsum n (fun i => f i + g i) = bsum n f + bsum n g.
Proof. induction n as [|n IH]; intros f g; cbn [bsum]; [ring|]. rewrite IH. ring. Qed.
Lemma bsum_mul_l : forall n c f, bsum n (fun i => c * f i) = c * bsum n f.
Proof. induction n as [|n IH]; intros c f; cbn [bsum]; [ring|]. rewrite IH. ring. Qed.
Lemma bsum_mul_r : forall n c f, bsum n (fun i => f i * c) = bsum n f * c.
Proof. induction n as [|n IH]; intros c f; cbn [bsum]; [ring|]. rewrite IH. ring. Qed.
Lemma bsum_swap : forall n m f,
  bsum n (fun i => bsum m (fun j => f i j)) = bsum m (fun j => bsum n (fun i => f i j)).
Proof.
  induction n as [|n IH]; intros m f; cbn [bsum].
  - symmetry. apply bsum_zero. reflexivity.
  - rewrite IH. rewrite <- bsum_add. reflexivity.
Qed.
Lemma bsum_delta : forall n i f, i < n -> bsum n (fun j => delta i j * f j) = f i.
Proof.
  induction n as [|n IH]; intros i f H; [lia|]. cbn [bsum]. destruct (Nat.eq_dec i n) as [->|Hn].
  - rewrite bsum_zero. { unfold delta. rewrite Nat.eqb_refl. ring. }
    intros j Hj. unfold delta. destruct (Nat.eqb_spec n j); [lia|ring].
  - rewrite IH by lia. unfold delta. destruct (Nat.eqb_spec i n); [lia|ring].
Qed.
Lemma bsum_1 : forall f, bsum 1 f = f 0.
Proof. intros f. cbn [bsum]. ring. Qed.
Lemma bsum_split : forall n m f, bsum (n + m) f = bsum n f + bsum m (fun i => f (n + i)%nat).
Proof.
  intros n m f. induction m as [|m IH]; cbn [bsum].
  - rewrite Nat.add_0_r. ring.
  - rewrite Nat.add_succ_r. cbn [bsum]. rewrite IH. ring.
Qed.

Lemma csum_ext : forall dims f g,
  (forall c, Forall2 lt c dims -> f c = g c) -> csum dims f = csum dims g.
Proof.
  induction dims as [|p ps IH]; intros f g H; cbn [csum].
  - apply H. constructor.
  - apply bsum_ext. intros s Hs. apply IH. intros c Hc. apply H. now constructor.
Qed.
Lemma csum_add : forall dims f g, csum dims (fun c => f c + g c) = csum dims f + csum dims g.
Proof.
  induction dims as [|p ps IH]; intros f g; cbn [csum]; [reflexivity|].
  rewrite <- bsum_add. apply bsum_ext. intros. apply IH.
Qed.
Lemma csum_mul_l : forall dims k f, csum dims (fun c => k * f c) = k * csum dims f.
Proof.
  induction dims as [|p ps IH]; intros k f; cbn [csum]; [reflexivity|].
  rewrite <- bsum_mul_l. apply bsum_ext. intros. apply IH.
Qed.
Lemma csum_mul_r : forall dims k f, csum dims (fun c => f c * k) = csum dims f * k.
Proof.
  induction dims as [|p ps IH]; intros k f; cbn [csum]; [reflexivity|].
  rewrite <- bsum_mul_r. apply bsum_ext. intros. apply IH.
Qed.
Lemma csum_bsum : forall dims n f,
  csum dims (fun c => bsum n (fun i => f c i)) = bsum n (fun i => csum dims (fun c => f c i)).
Proof.
  induction dims as [|p ps IH]; intros n f; cbn [csum]; [reflexivity|].
  rewrite bsum_swap. apply bsum_ext. intros s Hs. apply (IH n (fun c i => f (s :: c) i)).
Qed.
Lemma csum_app : forall d1 d2 f,
  csum (d1 ++ d2) f = csum d1 (fun c1 => csum d2 (fun c2 => f (c1 ++ c2))).
Proof.
  induction d1 as [|p ps IH]; intros d2 f; cbn [csum app]; [reflexivity|].
  apply bsum_ext. intros s Hs. rewrite IH. reflexivity.
Qed.
End BigSum.
