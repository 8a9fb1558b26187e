(** QR of one matrix. *)
From Coq Require Import List Arith Lia Ring Bool.
From Verif Require Import Util TensorModel TensorSpec QdAdd SvdModel SvdSpec SvdRank SvdMat QrSpec QrModel.
Import ListNotations.
Open Scope outcome_scope.
Local Arguments Nat.sub : simpl never.
Local Arguments Nat.div : simpl never.
Local Arguments Nat.modulo : simpl never.

Section Mat.
Context {R : Type} (r0 r1 : R) (radd rmul rsub : R -> R -> R) (ropp : R -> R).
Context (RT : ring_theory r0 r1 radd rmul rsub ropp eq).
Add Ring RRqm : RT.
Context (conj : R -> R) (HC : conjugation radd rmul conj) (neg : R -> bool).
Hypothesis neg_opp : forall x, neg x = true -> neg (ropp x) = false.
Context (lap : nat -> nat -> nat -> list R -> option (list R * list R)).
Hypothesis Hlap : exact_qr r0 r1 radd rmul conj lap.
Notation sum := (sum_below r0 radd).
Notation kron := (kron r0 r1).
Notation cm := (cm r0).
Notation velt := (velt r0).
Notation QR := (QR r0 ropp neg lap).

(** Q (M x k) and Rm (k x N) are a QR decomposition of a. *)
Definition qr_mat (M N k : nat) (a : nat -> nat -> R) (Q Rm : list R) : Prop :=
  length Q = M * k /\ length Rm = k * N /\
  (forall i j, i < M -> j < N -> a i j = sum k (fun r => rmul (cm M Q i r) (cm k Rm r j))) /\
  (forall r r', r < k -> r' < k -> sum M (fun i => rmul (conj (cm M Q i r)) (cm M Q i r')) = kron r r') /\
  (k = M -> forall i i', i < M -> i' < M -> sum M (fun r => rmul (cm M Q i r) (conj (cm M Q i' r))) = kron i i') /\
  (forall r j, r < k -> j < N -> j < r -> cm k Rm r j = r0).

Lemma conj0 : conj r0 = r0.
Proof. destruct HC as (HA & _ & _). assert (E : conj r0 = radd (conj r0) (conj r0)) by (rewrite <- HA; f_equal; ring). 
  assert (K : rsub (conj r0) (conj r0) = rsub (radd (conj r0) (conj r0)) (conj r0)) by (f_equal; exact E). ring_simplify in K. now symmetry. Qed.
Lemma conj_opp x : conj (ropp x) = ropp (conj x).
Proof. destruct HC as (HA & _ & _). assert (E : radd (conj x) (conj (ropp x)) = r0) by (rewrite <- HA; replace (radd x (ropp x)) with r0 by ring; apply conj0).
  replace (conj (ropp x)) with (rsub (radd (conj x) (conj (ropp x))) (conj x)) by ring. rewrite E. ring. Qed.

Lemma flip_len sel l : length (flip r0 ropp sel l) = length l.
Proof. unfold flip. now rewrite map_length, seq_length. Qed.
Lemma flip_col m n i (q : list R) a b : length q = m * n -> a < m -> b < n -> cm m (flip r0 ropp (fun p => p / m =? i) q) a b = if b =? i then ropp (cm m q a b) else cm m q a b.
Proof. intros L Ha Hb. unfold flip. rewrite L, (cm_map r0) by auto. rewrite div_cm by exact Ha. reflexivity. Qed.
Lemma flip_row m n i (q : list R) a b : length q = m * n -> a < m -> b < n -> cm m (flip r0 ropp (fun p => p mod m =? i) q) a b = if a =? i then ropp (cm m q a b) else cm m q a b.
Proof. intros L Ha Hb. unfold flip. rewrite L, (cm_map r0) by auto. rewrite mod_cm by exact Ha. reflexivity. Qed.

Lemma step_ok M N k a Q Rm i : qr_mat M N k a Q Rm -> i < Nat.min k N ->
  let '(Q', R') := pos_step r0 ropp neg M k (Q, Rm) i in qr_mat M N k a Q' R' /\ neg (cm k R' i i) = false /\
    forall j, j < Nat.min k N -> j <> i -> cm k R' j j = cm k Rm j j.
Proof.
  intros (L1 & L2 & HV & HI & HO & HU) Hi. unfold pos_step. fold (cm k Rm i i). destruct (neg (cm k Rm i i)) eqn:E.
  2:{ split; [|split; [exact E|reflexivity]]. repeat split; auto. }
  split; [|split].
  - split; [now rewrite flip_len|]. split; [now rewrite flip_len|]. split; [|split; [|split]].
    + intros x y Hx Hy. rewrite HV by auto. apply sum_ext. intros r Hr. rewrite (flip_col M k), (flip_row k N) by auto. destruct (r =? i); ring.
    + intros r r' Hr Hr'. destruct (r =? i) eqn:E1, (r' =? i) eqn:E2.
      * rewrite <- HI by auto. apply sum_ext. intros x Hx. rewrite !(flip_col M k), E1, E2, conj_opp by auto. ring.
      * assert (K : kron r r' = r0) by (unfold SvdSpec.kron; apply Nat.eqb_eq in E1; subst r; rewrite Nat.eqb_sym, E2; reflexivity).
        rewrite <- (HI r r') in K by auto. unfold SvdSpec.kron. apply Nat.eqb_eq in E1. subst r. rewrite Nat.eqb_sym, E2.
        apply (f_equal (rmul (ropp r1))) in K. rewrite <- (sum_mul_l r0 r1 radd rmul rsub ropp RT) in K. transitivity (rmul (ropp r1) r0); [|ring]. etransitivity; [|exact K]. apply sum_ext. intros x Hx. rewrite !(flip_col M k), Nat.eqb_refl, E2, conj_opp by auto. ring.
      * assert (K : kron r r' = r0) by (unfold SvdSpec.kron; apply Nat.eqb_eq in E2; subst r'; rewrite E1; reflexivity).
        rewrite <- (HI r r') in K by auto. unfold SvdSpec.kron. apply Nat.eqb_eq in E2. subst r'. rewrite E1.
        apply (f_equal (rmul (ropp r1))) in K. rewrite <- (sum_mul_l r0 r1 radd rmul rsub ropp RT) in K. transitivity (rmul (ropp r1) r0); [|ring]. etransitivity; [|exact K]. apply sum_ext. intros x Hx. rewrite !(flip_col M k), Nat.eqb_refl, E1 by auto. ring.
      * rewrite <- HI by auto. apply sum_ext. intros x Hx. rewrite !(flip_col M k), E1, E2 by auto. ring.
    + intros EK x y Hx Hy. rewrite <- HO by auto. apply sum_ext. intros r Hr. rewrite !(flip_col M k) by lia. destruct (r =? i); rewrite ?conj_opp; ring.
    + intros r j Hr Hj Hl. rewrite (flip_row k N) by auto. rewrite HU by auto. destruct (r =? i); ring.
  - rewrite (flip_row k N), Nat.eqb_refl by lia. now apply neg_opp.
  - intros j Hj Ne. rewrite (flip_row k N) by lia. apply Nat.eqb_neq in Ne. now rewrite Ne.
Qed.
Lemma steps_ok M N k a : forall n Q Rm, qr_mat M N k a Q Rm -> n <= Nat.min k N ->
  let '(Q', R') := fold_left (pos_step r0 ropp neg M k) (seq 0 n) (Q, Rm) in qr_mat M N k a Q' R' /\ forall j, j < n -> neg (cm k R' j j) = false.
Proof.
  induction n as [|n IH]; intros Q Rm H Hn; [cbn; split; [exact H|intros; lia]|]. rewrite seq_S, fold_left_app. cbn [fold_left Nat.add]. specialize (IH Q Rm H ltac:(lia)).
  destruct (fold_left (pos_step r0 ropp neg M k) (seq 0 n) (Q, Rm)) as [Q1 R1]. destruct IH as [H1 H2]. pose proof (step_ok M N k a Q1 R1 n H1 ltac:(lia)) as K.
  destruct (pos_step r0 ropp neg M k (Q1, R1) n) as [Q2 R2]. destruct K as (K1 & K2 & K3). split; [exact K1|]. intros j Hj. destruct (Nat.eq_dec j n) as [->|Ne]; [exact K2|].
  rewrite K3 by lia. apply H2. lia.
Qed.

Lemma QR_spec complete positive v : good v ->
  (exists Q Rm, let k := qr_rows complete (rn v) (cn v) in QR complete positive v = Ok (Q, Rm, k) /\ qr_mat (rn v) (cn v) k (velt v) Q Rm /\
     (positive = true -> forall i, i < k -> i < cn v -> neg (cm k Rm i i) = false)) \/
  (QR complete positive v = Err /\ qr_fails lap).
Proof.
  intros (S & L & P1 & P2). unfold QrModel.QR. destruct (Nat.ltb_spec (rn v) 1); [lia|]. destruct (Nat.ltb_spec (cn v) 1); [lia|]. cbn [orb].
  set (M := rn v) in *. set (N := cn v) in *. set (k := qr_rows complete M N).
  assert (Hk : k = M \/ k = N /\ N <= M) by (unfold k, qr_rows; destruct (Nat.ltb_spec M N); [auto|destruct complete; auto]).
  match goal with |- context [lap M N k ?x] => set (a := x) end.
  assert (LA : length a = M * Nat.max N k) by (unfold a; now rewrite map_length, seq_length).
  destruct (lap M N k a) as [[h q]|] eqn:E.
  2:{ right. split; [reflexivity|]. exists M, N, k, a. auto. }
  left. destruct (Hlap M N k a h q P1 P2 Hk LA E) as (L1 & L2 & HV & HI & HO).
  assert (HQ : forall i r, i < M -> r < k -> cm M (firstn (M * k) q) i r = cm M q i r).
  { intros i r Hi Hr. unfold SvdSpec.cm. assert (B : i + M * r < M * k) by now apply cm_lt. clear -B. revert B. generalize (i + M * r) (M * k). intros x y. revert x q.
    induction y as [|y IH]; intros x q B; [lia|]. destruct q, x; cbn; auto. apply IH. lia. }
  assert (Hp : forall r j, r < k -> j < N -> cm k (map (fun p => if p mod k <=? p / k then nth (p mod k + M * (p / k)) h r0 else r0) (seq 0 (k * N))) r j = if r <=? j then cm M h r j else r0).
  { intros r j Hr Hj. rewrite (cm_map r0) by auto. rewrite mod_cm, div_cm by exact Hr. reflexivity. }
  match goal with |- context [(firstn (M * k) q, ?x)] => set (Rm := x) in * end.
  assert (B : qr_mat M N k (velt v) (firstn (M * k) q) Rm).
  { split; [rewrite firstn_length, L2; apply Nat.min_l, Nat.mul_le_mono_l; lia|]. split; [unfold Rm; now rewrite map_length, seq_length|]. split; [|split; [|split]].
    - intros i j Hi Hj. transitivity (cm M a i j).
      + unfold a. rewrite (cm_map r0) by lia. rewrite mod_cm, div_cm by exact Hi. apply Nat.ltb_lt in Hj. rewrite Hj. reflexivity.
      + rewrite HV by auto. apply sum_ext. intros r Hr. rewrite HQ, Hp by auto. reflexivity.
    - intros r r' Hr Hr'. rewrite <- HI by auto. apply sum_ext. intros i Hi. rewrite !HQ by auto. reflexivity.
    - intros EK i i' Hi Hi'. rewrite <- HO by auto. apply sum_ext. intros r Hr. rewrite !HQ by lia. reflexivity.
    - intros r j Hr Hj Hl. rewrite Hp by auto. destruct (Nat.leb_spec r j); [lia|reflexivity]. }
  cbv zeta. destruct positive.
  - pose proof (steps_ok M N k (velt v) (Nat.min k N) _ _ B (le_n _)) as K. destruct (fold_left _ _ _) as [Q' R']. destruct K as [K1 K2]. exists Q', R'. split; [reflexivity|]. split; [exact K1|].
    intros _ i H1 H2. apply K2. lia.
  - exists (firstn (M * k) q), Rm. split; [reflexivity|]. split; [exact B|]. discriminate.
Qed.
End Mat.
