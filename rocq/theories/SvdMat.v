(** SVD of one matrix. *)
From Coq Require Import List Arith Lia Ring Bool.
From Verif Require Import Util TensorSpec QnModel QdModel QdAdd SvdModel SvdSpec SvdRank.
Import ListNotations.
Open Scope outcome_scope.
Local Arguments Nat.sub : simpl never.

Section Mat.
Context {R : Type} (r0 r1 : R) (radd rmul rsub : R -> R -> R) (ropp : R -> R).
Context (RT : ring_theory r0 r1 radd rmul rsub ropp eq).
Add Ring RRsma : RT.
Context (conj : R -> R) (HC : conjugation radd rmul conj).
Context (gesdd gesvd : nat -> nat -> list R -> option (list R * list R * list R)).
Hypothesis Hdd : exact_lapack r0 r1 radd rmul conj gesdd.
Hypothesis Hvd : exact_lapack r0 r1 radd rmul conj gesvd.
Notation sum := (sum_below r0 radd).
Notation kron := (kron r0 r1).
Notation cm := (cm r0).
Notation mview := (@mview R).
Notation SVDRefLAPACK := (SVDRefLAPACK r0 conj gesdd gesvd).
Notation SVD := (SVD r0 conj gesdd gesvd).
Notation SVDc := (SVDc r0 conj gesdd gesvd).

Definition velt (v : mview) (i j : nat) : R := nth (i * rs v + j * cs v) (vd v) r0.
Definition good (v : mview) : Prop :=
  (rs v = 1 /\ cs v = rn v \/ rs v = cn v /\ cs v = 1) /\ length (vd v) = rn v * cn v /\ 0 < rn v /\ 0 < cn v.
Lemma good_make d nr nc : length d = nr * nc -> 0 < nr -> 0 < nc -> good (makeMatRef d nr nc).
Proof. intros. unfold good, makeMatRef; cbn. auto 6. Qed.
Lemma good_trans v : good v -> good (vtrans v).
Proof. unfold good, vtrans; cbn. intros ([[A B]|[A B]] & L & P & Q); repeat split; auto; try lia; rewrite Nat.mul_comm; auto. Qed.

Lemma nth_seq_map (f : nat -> R) n k : k < n -> nth k (map f (seq 0 n)) r0 = f k.
Proof. intros H. rewrite (nth_indep _ r0 (f 0)) by (rewrite map_length, seq_length; exact H). rewrite map_nth, seq_nth by exact H. reflexivity. Qed.
Lemma cm_lt m n i j : i < m -> j < n -> i + m * j < m * n.
Proof. intros. nia. Qed.
Lemma cm_map (f : nat -> R) m n i j : i < m -> j < n -> cm m (map f (seq 0 (m * n))) i j = f (i + m * j).
Proof. intros Hi Hj. unfold SvdSpec.cm. apply nth_seq_map. now apply cm_lt. Qed.
Lemma mod_cm m i j : i < m -> (i + m * j) mod m = i.
Proof. intros H. rewrite Nat.add_comm, Nat.mul_comm, Nat.add_comm, Nat.mod_add by lia. apply Nat.mod_small. exact H. Qed.
Lemma div_cm m i j : i < m -> (i + m * j) / m = j.
Proof. intros H. rewrite (Nat.mul_comm m j), Nat.div_add, Nat.div_small by lia. reflexivity. Qed.
Lemma cm_conj m n a i j : i < m -> j < n -> length a = m * n -> cm m (map conj a) i j = conj (cm m a i j).
Proof.
  intros Hi Hj L. unfold SvdSpec.cm. rewrite (nth_indep _ r0 (conj r0)) by (rewrite map_length, L; now apply cm_lt). apply map_nth.
Qed.

Lemma copy_spec v : good v -> exists a, lapack_copy r0 v 0 = Ok a /\ length a = rn v * cn v /\
  forall i j, i < rn v -> j < cn v -> cm (rn v) a i j = velt v i j.
Proof.
  intros (S & L & P & Q). unfold lapack_copy. rewrite segment_ok by lia. cbn [obind skipn]. rewrite firstn_all2 by lia.
  eexists. split; [reflexivity|]. unfold isTransposed. destruct ((rs v =? cn v) && (cs v =? 1)) eqn:E.
  - apply andb_true_iff in E as [E1 E2]. apply Nat.eqb_eq in E1, E2. split; [now rewrite map_length, seq_length|]. intros i j Hi Hj.
    rewrite (cm_map _ (rn v) (cn v)) by auto. rewrite mod_cm, div_cm by exact Hi. unfold velt. rewrite E1, E2. f_equal. lia.
  - split; [exact L|]. intros i j Hi Hj. unfold SvdSpec.cm, velt. destruct S as [[-> ->]|[A B]]; [f_equal; lia|].
    rewrite A, B, !Nat.eqb_refl in E. discriminate.
Qed.
Lemma copy_again v : good v -> isTransposed v = true -> lapack_copy r0 v (rn v * cn v) = UB.
Proof.
  intros (S & L & P & Q) _. unfold lapack_copy, segment. destruct (Nat.leb_spec (rn v * cn v + rn v * cn v) (length (vd v))); [nia|reflexivity].
Qed.

Lemma kron_sym i j : kron i j = kron j i.
Proof. unfold SvdSpec.kron. now rewrite Nat.eqb_sym. Qed.

(** When a method gives an error. *)
Definition may_err (m : svd_method) : Prop :=
  match m with MAuto => fails gesdd /\ fails gesvd | MGesdd => fails gesdd | MGesvd => fails gesvd | MOther => True end.
(** What a decomposition v = u diag(d) w^T of the view v is. *)
Definition decomposed (v : mview) (u d w : list R) : Prop :=
  let k := Nat.min (rn v) (cn v) in
  length d = k /\ length u = rn v * k /\ length w = cn v * k /\
  (forall i j, i < rn v -> j < cn v -> velt v i j = sum k (fun r => rmul (rmul (cm (rn v) u i r) (nth r d r0)) (cm (cn v) w j r))) /\
  (forall r r', r < k -> r' < k -> sum (rn v) (fun i => rmul (conj (cm (rn v) u i r)) (cm (rn v) u i r')) = kron r r') /\
  (forall r r', r < k -> r' < k -> sum (cn v) (fun j => rmul (conj (cm (cn v) w j r)) (cm (cn v) w j r')) = kron r r') /\
  (forall r, r < k -> conj (nth r d r0) = nth r d r0).

Lemma lapack_cases m v : good v -> rn v <= cn v ->
  (exists a u d vt, length a = rn v * cn v /\ (forall i j, i < rn v -> j < cn v -> cm (rn v) a i j = velt v i j) /\
     exact_svd r0 r1 radd rmul conj (rn v) (cn v) a u d vt /\ SVDRefLAPACK m v = Ok (u, d, reorderV r0 conj (cn v) (Nat.min (rn v) (cn v)) vt)) \/
  (SVDRefLAPACK m v = Err /\ may_err m) \/ (SVDRefLAPACK m v = UB /\ m = MAuto /\ fails gesdd).
Proof.
  intros G HL. destruct (copy_spec v G) as (a & EC & LA & HA). pose proof G as (_ & _ & HP & _). unfold SvdModel.SVDRefLAPACK. rewrite EC. cbn [obind].
  assert (K1 : forall r, gesdd (rn v) (cn v) a = Some r -> exists u d vt, r = (u, d, vt) /\ exact_svd r0 r1 radd rmul conj (rn v) (cn v) a u d vt).
  { intros [[u d] vt] E. exists u, d, vt. split; [reflexivity|]. apply (Hdd (rn v) (cn v) a); auto. }
  assert (K2 : forall r, gesvd (rn v) (cn v) a = Some r -> exists u d vt, r = (u, d, vt) /\ exact_svd r0 r1 radd rmul conj (rn v) (cn v) a u d vt).
  { intros [[u d] vt] E. exists u, d, vt. split; [reflexivity|]. apply (Hvd (rn v) (cn v) a); auto. }
  assert (F1 : gesdd (rn v) (cn v) a = None -> fails gesdd) by (intros E; exists (rn v), (cn v), a; auto).
  assert (F2 : gesvd (rn v) (cn v) a = None -> fails gesvd) by (intros E; exists (rn v), (cn v), a; auto).
  destruct m; cbn [obind may_err]; auto.
  - destruct (gesdd (rn v) (cn v) a) as [r|] eqn:E1; cbn [obind].
    + destruct (K1 r eq_refl) as (u & d & vt & -> & EX). left. exists a, u, d, vt. auto.
    + destruct (isTransposed v) eqn:ET.
      * rewrite copy_again by auto. cbn [obind]. right; right. auto.
      * rewrite EC. cbn [obind]. destruct (gesvd (rn v) (cn v) a) as [r|] eqn:E2; cbn [obind]; [|auto 7]. destruct (K2 r eq_refl) as (u & d & vt & -> & EX). left. exists a, u, d, vt. auto.
  - destruct (gesdd (rn v) (cn v) a) as [r|] eqn:E1; cbn [obind]; auto. destruct (K1 r eq_refl) as (u & d & vt & -> & EX). left. exists a, u, d, vt. auto.
  - destruct (gesvd (rn v) (cn v) a) as [r|] eqn:E1; cbn [obind]; auto. destruct (K2 r eq_refl) as (u & d & vt & -> & EX). left. exists a, u, d, vt. auto.
Qed.

Lemma reorder_cm (v : mview) vt j r : rn v <= cn v -> r < rn v -> j < cn v -> cm (cn v) (reorderV r0 conj (cn v) (Nat.min (rn v) (cn v)) vt) j r = conj (cm (rn v) vt r j).
Proof.
  intros HL Hr Hj. unfold reorderV. rewrite Nat.min_l by exact HL. rewrite (Nat.mul_comm (rn v) (cn v)). rewrite (cm_map _ (cn v) (rn v)) by auto.
  rewrite mod_cm, div_cm by exact Hj. unfold SvdSpec.cm. do 2 f_equal. lia.
Qed.

(** SVD and conjugate(VV): a decomposition; an error only if LAPACK reports one (or the method is
    unknown); undefined behaviour only when the transposed matrix has to be copied a second time. *)
Lemma SVDc_spec m v : good v ->
  (exists u d w, SVDc m v = Ok (u, d, w) /\ decomposed v u d w) \/ (SVDc m v = Err /\ may_err m) \/
  (SVDc m v = UB /\ m = MAuto /\ fails gesdd).
Proof.
  intros G. unfold SvdModel.SVDc, SvdModel.SVD. destruct HC as (Ca & Cm & Ci). destruct (Nat.ltb_spec (cn v) (rn v)) as [HL|HL].
  - pose proof (good_trans v G) as G'. destruct (lapack_cases m (vtrans v) G') as [(a & u & d & vt & LA & HA & (E1 & E2 & E3 & E4 & E5 & E6 & E7) & E)|[(E & M1)|(E & M1 & E2)]]; [cbn; lia| | |]; rewrite E; cbn [obind].
    + left. do 3 eexists. split; [reflexivity|]. cbn [rn cn vtrans] in *. rewrite Nat.min_l in * by lia. unfold decomposed. rewrite Nat.min_r by lia.
      pose proof (reorder_cm (vtrans v) vt) as RC. cbn [rn cn vtrans] in RC. rewrite Nat.min_l in RC by lia.
      assert (LW : length (reorderV r0 conj (rn v) (cn v) vt) = rn v * cn v) by (unfold reorderV; rewrite map_length, seq_length; apply Nat.mul_comm).
      split; [exact E1|]. split; [rewrite map_length; exact LW|]. split; [rewrite map_map, map_length; exact E2|].
      assert (CU : forall i r, i < rn v -> r < cn v -> cm (rn v) (map conj (reorderV r0 conj (rn v) (cn v) vt)) i r = cm (cn v) vt r i).
      { intros i r Hi Hr. rewrite (cm_conj (rn v) (cn v)) by auto. rewrite RC by (auto; lia). apply Ci. }
      assert (CW : forall j r, j < cn v -> r < cn v -> cm (cn v) (map conj (map conj u)) j r = cm (cn v) u j r).
      { intros j r Hj Hr. rewrite (cm_conj (cn v) (cn v)) by (auto; rewrite map_length; auto). rewrite (cm_conj (cn v) (cn v)) by auto. apply Ci. }
      split; [|split; [|split; [|exact E7]]].
      * intros i j Hi Hj. transitivity (velt (vtrans v) j i); [unfold velt; cbn; f_equal; lia|]. rewrite <- HA by auto. rewrite E4 by auto.
        apply sum_ext. intros r Hr. rewrite CU, CW by auto. ring.
      * intros r r' Hr Hr'. rewrite kron_sym, <- E6 by auto. apply sum_ext. intros i Hi. rewrite !CU by auto. ring.
      * intros r r' Hr Hr'. rewrite <- E5 by auto. apply sum_ext. intros j Hj. rewrite !CW by auto. reflexivity.
    + auto.
    + auto.
  - destruct (lapack_cases m v G HL) as [(a & u & d & vt & LA & HA & (E1 & E2 & E3 & E4 & E5 & E6 & E7) & E)|[(E & M1)|(E & M1 & E2)]]; rewrite E; cbn [obind].
    + left. do 3 eexists. split; [reflexivity|]. pose proof (reorder_cm v vt) as RC. unfold decomposed. rewrite Nat.min_l in * by lia.
      assert (LW : length (reorderV r0 conj (cn v) (rn v) vt) = cn v * rn v) by (unfold reorderV; rewrite map_length, seq_length; apply Nat.mul_comm).
      assert (CW : forall j r, j < cn v -> r < rn v -> cm (cn v) (map conj (reorderV r0 conj (cn v) (rn v) vt)) j r = cm (rn v) vt r j).
      { intros j r Hj Hr. rewrite (cm_conj (cn v) (rn v)) by auto. rewrite RC by (auto; lia). apply Ci. }
      split; [exact E1|]. split; [exact E2|]. split; [rewrite map_length; exact LW|]. split; [|split; [|split; [|exact E7]]].
      * intros i j Hi Hj. rewrite <- HA by auto. rewrite E4 by auto. apply sum_ext. intros r Hr. rewrite CW by auto. ring.
      * exact E5.
      * intros r r' Hr Hr'. rewrite kron_sym, <- E6 by auto. apply sum_ext. intros j Hj. rewrite !CW by auto. ring.
    + auto.
    + auto.
Qed.
End Mat.
