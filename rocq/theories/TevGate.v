(** Lemmas about the gates of BondGate and about the number of time steps. *)
From Coq Require Import ZArith List Bool Arith Lia Ring Field Factorial.
From Verif Require Import Util BigSum MpsModel MpsTensor MpsSpec DavSpec DavModel DavProofs TevSpec TevModel TevProofs.
Import ListNotations.
Local Open Scope outcome_scope.
Local Arguments Nat.sub : simpl never.
Local Arguments fact : simpl never.

Section Gate.
Context {F : Type} (f0 f1 : F) (fadd fmul fsub : F -> F -> F) (fopp : F -> F)
  (fdiv : F -> F -> F) (finv : F -> F) (fltb : F -> F -> bool)
  (OF : ordered_field f0 f1 fadd fmul fsub fopp fdiv finv fltb).
Notation K := (@cplx F).
Notation c0 := (c0 f0). Notation c1 := (c1 f0 f1).
Notation cadd := (cadd fadd). Notation cmul := (cmul fadd fmul fsub).
Notation csub := (csub fsub). Notation copp := (copp fopp). Notation cof := (cof f0).
Let FT := of_field _ _ _ _ _ _ _ _ _ OF.
Add Field FFtg : FT.
Let CR := cring f0 f1 fadd fmul fsub fopp fdiv finv fltb OF.
Add Ring CRtg : CR.
Notation le x y := (fltb y x = false).
Notation lt x y := (fltb x y = true).
Notation bsum := (bsum c0 cadd).
Notation ofN := (ofN f0 f1 fadd). Notation ofZ := (ofZ f0 f1 fadd fopp).
Notation op2 := (@op2 K).
Notation mul2 := (mul2 c0 cadd cmul). Notation pow2 := (pow2 c0 c1 cadd cmul). Notation one2 := (one2 c0 c1 cmul).
Notation smul2 := (smul2 fadd fmul fsub). Notation add2 := (add2 fadd).
Notation taylor_loop := (taylor_loop f0 f1 fadd fmul fsub finv).
(** The number 1/k. *)
Definition inv_of (k : nat) : K := cof (finv (ofN k)).
Notation taylor := (taylor c0 c1 cadd cmul inv_of).

Lemma ofN_S n : ofN (S n) = fadd (ofN n) f1. Proof. reflexivity. Qed.
Lemma ofN_add a b : ofN (a + b) = fadd (ofN a) (ofN b).
Proof. induction a as [|a IH]; cbn [Nat.add]; [change (ofN 0) with f0; ring|]. rewrite !ofN_S, IH. ring. Qed.
Lemma ofN_mul a b : ofN (a * b) = fmul (ofN a) (ofN b).
Proof. induction a as [|a IH]; cbn [Nat.mul]; [change (ofN 0) with f0; ring|]. rewrite ofN_add, IH, ofN_S. ring. Qed.
Lemma ofN_nonneg n : le f0 (ofN n).
Proof.
  induction n as [|n IH]; [apply (le_refl f0 f1 fadd fmul fsub fopp fdiv finv fltb OF)|]. rewrite ofN_S.
  pose proof (le_add2 f0 f1 fadd fmul fsub fopp fdiv finv fltb OF f0 (ofN n) f0 f1 IH (lt_le f0 f1 fadd fmul fsub fopp fdiv finv fltb OF _ _ (one_pos f0 f1 fadd fmul fsub fopp fdiv finv fltb OF))) as Q.
  now replace (fadd f0 f0) with f0 in Q by ring.
Qed.
Lemma lt_add x y z : lt x y -> lt (fadd x z) (fadd y z).
Proof.
  intros H. apply (lt_add_iff f0 f1 fadd fmul fsub fopp fdiv finv fltb OF _ _ (fopp z)).
  now replace (fadd (fadd x z) (fopp z)) with x by ring; replace (fadd (fadd y z) (fopp z)) with y by ring.
Qed.
Lemma ofN_pos n : 1 <= n -> lt f0 (ofN n).
Proof.
  destruct n as [|n]; [lia|]. intros _. rewrite ofN_S.
  apply (lt_le_trans f0 f1 fadd fmul fsub fopp fdiv finv fltb OF _ f1); [exact (one_pos f0 f1 fadd fmul fsub fopp fdiv finv fltb OF)|].
  pose proof (le_add f0 f1 fadd fmul fsub fopp fdiv finv fltb OF f0 (ofN n) f1 (ofN_nonneg n)) as Q. now replace (fadd f0 f1) with f1 in Q by ring.
Qed.
Lemma ofN_neq n : 1 <= n -> ofN n <> f0.
Proof. intros H. apply (lt_neq f0 f1 fadd fmul fsub fopp fdiv finv fltb OF). now apply ofN_pos. Qed.
Lemma ofN_le a b : a <= b -> le (ofN a) (ofN b).
Proof.
  intros H. replace b with ((b - a) + a) by lia. rewrite ofN_add.
  pose proof (le_add f0 f1 fadd fmul fsub fopp fdiv finv fltb OF f0 (ofN (b - a)) (ofN a) (ofN_nonneg _)) as Q. now replace (fadd f0 (ofN a)) with (ofN a) in Q by ring.
Qed.
Lemma ofN_lt_inv a b : lt (ofN a) (ofN b) -> a < b.
Proof. intros H. destruct (Nat.lt_ge_cases a b) as [|G]; [assumption|]. pose proof (ofN_le b a G). congruence. Qed.
Lemma ofZ_nat n : ofZ (Z.of_nat n) = ofN n.
Proof. destruct n as [|n]; [reflexivity|]. cbn [Z.of_nat TevModel.ofZ]. now rewrite SuccNat2Pos.id_succ. Qed.
Lemma ofZ_neg n : ofZ (- Z.of_nat n) = fopp (ofN n).
Proof. destruct n as [|n]; [cbn; ring|]. cbn [Z.of_nat Z.opp TevModel.ofZ]. now rewrite SuccNat2Pos.id_succ. Qed.

(** ** The Horner loop *)
Lemma fact_pos k : 1 <= fact k. Proof. apply lt_O_fact. Qed.
Lemma inv_fact o : inv_of (fact (S o)) = cmul (inv_of (fact o)) (inv_of (S o)).
Proof.
  unfold inv_of. change (fact (S o)) with (S o * fact o). rewrite ofN_mul, <- (of_mul' f0 f1 fadd fmul fsub fopp fdiv finv fltb OF). f_equal. field.
  split; apply ofN_neq; [lia|apply fact_pos].
Qed.
Variables (d1 d2 : nat) (X : op2).
Fixpoint rm (A : op2) (o : nat) : op2 := match o with 0 => A | S o' => mul2 d1 d2 (rm A o') X end.
Lemma rm_mul A o p q p' q' : rm (mul2 d1 d2 A X) o p q p' q' = rm A (S o) p q p' q'.
Proof.
  revert p' q'. induction o as [|o IH]; intros p' q'; [reflexivity|]. cbn [rm]. unfold TevSpec.mul2 at 1. symmetry. unfold TevSpec.mul2 at 1.
  apply bsum_ext. intros u _. apply bsum_ext. intros v _. now rewrite IH.
Qed.
Lemma rm_one o p q p' q' : rm one2 o p q p' q' = pow2 d1 d2 X o p q p' q'.
Proof.
  revert p' q'. induction o as [|o IH]; intros p' q'; [reflexivity|]. cbn [rm TevSpec.pow2]. unfold TevSpec.mul2.
  apply bsum_ext. intros u _. apply bsum_ext. intros v _. now rewrite IH.
Qed.
Lemma rm_lin A B k o p q p' q' : rm (add2 A (smul2 k B)) o p q p' q' = cadd (rm A o p q p' q') (cmul (rm B o p q p' q') k).
Proof.
  revert p' q'. induction o as [|o IH]; intros p' q'; [reflexivity|]. cbn [rm]. unfold TevSpec.mul2.
  rewrite <- (bsum_mul_r c0 c1 cadd cmul csub copp CR), <- (bsum_add c0 c1 cadd cmul csub copp CR). apply bsum_ext. intros u _.
  rewrite <- (bsum_mul_r c0 c1 cadd cmul csub copp CR), <- (bsum_add c0 c1 cadd cmul csub copp CR). apply bsum_ext. intros v _. rewrite IH. ring.
Qed.
Lemma rm_ext A B o p q : (forall p' q', A p q p' q' = B p q p' q') -> forall p' q', rm A o p q p' q' = rm B o p q p' q'.
Proof.
  intros E. induction o as [|o IH]; intros p' q'; [apply E|]. cbn [rm]. unfold TevSpec.mul2. apply bsum_ext. intros u _. apply bsum_ext. intros v _. now rewrite IH.
Qed.
Lemma loop_sum p q : forall ord term G gate, (forall p' q', term p q p' q' = mul2 d1 d2 G X p q p' q') ->
  (ord = 0 -> forall p' q', gate p q p' q' = G p q p' q') ->
  forall p' q', taylor_loop d1 d2 X ord term gate p q p' q' =
   cadd (bsum ord (fun k => cmul (inv_of (fact k)) (pow2 d1 d2 X k p q p' q'))) (cmul (inv_of (fact ord)) (rm G ord p q p' q')).
Proof.
  induction ord as [|ord IH]; intros term G gate HT HGt p' q'; cbn [TevModel.taylor_loop].
  - rewrite HGt by reflexivity. cbn [BigSum.bsum rm]. unfold inv_of. change (ofN (fact 0)) with (fadd f0 f1).
    replace (finv (fadd f0 f1)) with f1 by (field; replace (fadd f0 f1) with f1 by ring; apply (F_1_neq_0 FT)). rewrite (of_1 f0 f1). ring.
  - set (G' := add2 one2 (smul2 (cof (finv (ofN (S ord)))) term)).
    rewrite (IH _ G' _ (fun _ _ => eq_refl) (fun _ _ _ => eq_refl)). cbn [BigSum.bsum]. unfold G' at 1. rewrite rm_lin, rm_one.
    rewrite (rm_ext _ _ _ _ _ HT), rm_mul. rewrite inv_fact. change (cof (finv (ofN (S ord)))) with (inv_of (S ord)). ring.
Qed.
Lemma horner p q p' q' n : p < d1 -> q < d2 -> 1 <= n ->
  taylor_loop d1 d2 X n X (fun _ _ _ _ => c0) p q p' q' = taylor d1 d2 X n p q p' q'.
Proof.
  intros Hp Hq Hn. rewrite (loop_sum p q n X one2); [| |lia].
  - unfold TevSpec.taylor. cbn [BigSum.bsum]. now rewrite rm_one.
  - clear p' q'. intros p' q'. unfold TevSpec.mul2, TevSpec.one2. symmetry.
    transitivity (bsum d1 (fun u => cmul (delta c0 c1 p u) (bsum d2 (fun v => cmul (delta c0 c1 q v) (X u v p' q'))))).
    + apply bsum_ext. intros u _. rewrite <- (bsum_mul_l c0 c1 cadd cmul csub copp CR). apply bsum_ext. intros v _. ring.
    + rewrite (bsum_delta c0 c1 cadd cmul csub copp CR) by assumption.
      exact (bsum_delta c0 c1 cadd cmul csub copp CR d2 q (fun v => X p v p' q') Hq).
Qed.
Lemma pow2_ext (Y : op2) n : (forall p q p' q', X p q p' q' = Y p q p' q') -> forall p q p' q', pow2 d1 d2 X n p q p' q' = pow2 d1 d2 Y n p q p' q'.
Proof.
  intros E. induction n as [|n IH]; intros; [reflexivity|]. cbn [TevSpec.pow2]. unfold TevSpec.mul2. apply bsum_ext. intros u _. apply bsum_ext. intros v _. now rewrite IH, E.
Qed.
Lemma taylor_ext (Y : op2) n : (forall p q p' q', X p q p' q' = Y p q p' q') -> forall p q p' q', taylor d1 d2 X n p q p' q' = taylor d1 d2 Y n p q p' q'.
Proof. intros E p q p' q'. unfold TevSpec.taylor. apply bsum_ext. intros k _. f_equal. now apply pow2_ext. Qed.

(** ** The number of steps *)
Variables (c1em9 : F) (trunc : F -> Z).
Hypothesis c_pos : lt f0 c1em9.
(** Conversion to int drops the fraction. *)
Definition trunc_ok : Prop :=
  (forall x, le f0 x -> exists n, trunc x = Z.of_nat n /\ le (ofN n) x /\ lt x (ofN (S n))) /\
  (forall x, trunc (fopp x) = (- trunc x)%Z).
Hypothesis TO : trunc_ok.
Notation nsteps := (nsteps f0 f1 fadd fmul fsub fopp fdiv fltb c1em9 trunc).
Lemma trunc_at x n : le (ofN n) x -> lt x (ofN (S n)) -> trunc x = Z.of_nat n.
Proof.
  intros H1 H2. destruct (proj1 TO x) as (m & E & L & U); [apply (le_trans f0 f1 fadd fmul fsub fopp fdiv finv fltb OF _ (ofN n)); [apply ofN_nonneg|assumption]|].
  assert (m < S n).
  { apply ofN_lt_inv. destruct (fltb (ofN m) (ofN (S n))) eqn:Q; [reflexivity|]. pose proof (le_trans f0 f1 fadd fmul fsub fopp fdiv finv fltb OF _ _ _ Q L). congruence. }
  assert (n < S m).
  { apply ofN_lt_inv. destruct (fltb (ofN n) (ofN (S m))) eqn:Q; [reflexivity|]. pose proof (le_trans f0 f1 fadd fmul fsub fopp fdiv finv fltb OF _ _ _ Q H1). congruence. }
  rewrite E. f_equal. lia.
Qed.
Lemma nonzero_test x : x <> f0 -> fltb x f0 || fltb f0 x = true.
Proof.
  intros H. destruct (fltb x f0) eqn:E; [reflexivity|]. cbn. destruct (le_cases f0 f1 fadd fmul fsub fopp fdiv finv fltb OF f0 x E) as [Q|Q]; [assumption|]. now destruct H.
Qed.
Lemma trunc_steps k : lt (fmul c1em9 (ofN k)) f1 -> trunc (fadd (ofN k) (fmul c1em9 (ofN k))) = Z.of_nat k.
Proof.
  intros H. apply trunc_at.
  - pose proof (mul_nonneg f0 f1 fadd fmul fsub fopp fdiv finv fltb OF _ _ (lt_le f0 f1 fadd fmul fsub fopp fdiv finv fltb OF _ _ c_pos) (ofN_nonneg k)) as Q.
    pose proof (le_add f0 f1 fadd fmul fsub fopp fdiv finv fltb OF _ _ (ofN k) Q) as Q1. replace (fadd f0 (ofN k)) with (ofN k) in Q1 by ring.
    now replace (fadd (fmul c1em9 (ofN k)) (ofN k)) with (fadd (ofN k) (fmul c1em9 (ofN k))) in Q1 by ring.
  - rewrite ofN_S. pose proof (lt_add _ _ (ofN k) H) as Q. replace (fadd (fmul c1em9 (ofN k)) (ofN k)) with (fadd (ofN k) (fmul c1em9 (ofN k))) in Q by ring.
    now replace (fadd f1 (ofN k)) with (fadd (ofN k) f1) in Q by ring.
Qed.
Lemma nsteps_at (z : Z) k tstep ttotal : tstep <> f0 -> (z = Z.of_nat k \/ z = - Z.of_nat k)%Z -> ttotal = fmul (ofZ z) tstep ->
  lt (fmul c1em9 (ofN k)) f1 -> (Z.of_nat k <= 2147483647)%Z -> nsteps ttotal tstep = Ok z.
Proof.
  intros HT Hz -> HK HB. unfold TevModel.nsteps. rewrite (nonzero_test _ HT). cbn [negb].
  replace (fdiv (fmul (ofZ z) tstep) tstep) with (ofZ z) by (field; assumption).
  assert (E : trunc (fadd (ofZ z) (fmul c1em9 (ofZ z))) = z).
  { destruct Hz as [->| ->]; [rewrite ofZ_nat; now apply trunc_steps|]. rewrite ofZ_neg.
    replace (fadd (fopp (ofN k)) (fmul c1em9 (fopp (ofN k)))) with (fopp (fadd (ofN k) (fmul c1em9 (ofN k)))) by ring.
    rewrite (proj2 TO), trunc_steps by assumption. reflexivity. }
  rewrite E. destruct (Z.leb_spec (-2147483648) z); [|lia]. destruct (Z.leb_spec z 2147483647); [|lia]. cbn [andb negb].
  replace (fsub (fmul (ofZ z) tstep) (fmul (ofZ z) tstep)) with f0 by ring. unfold fabs. rewrite (le_refl f0 f1 fadd fmul fsub fopp fdiv finv fltb OF).
  now rewrite (lt_le f0 f1 fadd fmul fsub fopp fdiv finv fltb OF _ _ c_pos).
Qed.
Lemma nsteps_many k tstep ttotal z : ttotal = fmul (ofN k) tstep -> le f1 (fmul c1em9 (ofN k)) -> lt c1em9 (fabs f0 fopp fltb tstep) ->
  nsteps ttotal tstep <> Ok z.
Proof.
  intros -> HK HT H. unfold TevModel.nsteps in H.
  assert (NT : tstep <> f0). { intros ->. unfold fabs in HT. rewrite (le_refl f0 f1 fadd fmul fsub fopp fdiv finv fltb OF) in HT. pose proof (lt_le f0 f1 fadd fmul fsub fopp fdiv finv fltb OF _ _ c_pos). congruence. }
  rewrite (nonzero_test _ NT) in H. cbn [negb] in H.
  replace (fdiv (fmul (ofN k) tstep) tstep) with (ofN k) in H by (field; assumption).
  set (x := fadd (ofN k) (fmul c1em9 (ofN k))) in *.
  assert (HX : le (ofN (S k)) x).
  { unfold x. rewrite ofN_S. pose proof (le_add f0 f1 fadd fmul fsub fopp fdiv finv fltb OF _ _ (ofN k) HK) as Q.
    replace (fadd f1 (ofN k)) with (fadd (ofN k) f1) in Q by ring. now replace (fadd (fmul c1em9 (ofN k)) (ofN k)) with (fadd (ofN k) (fmul c1em9 (ofN k))) in Q by ring. }
  destruct (proj1 TO x) as (m & E & L & U); [apply (le_trans f0 f1 fadd fmul fsub fopp fdiv finv fltb OF _ (ofN (S k))); [apply ofN_nonneg|assumption]|].
  assert (Hm : S k < S m).
  { apply ofN_lt_inv. destruct (fltb (ofN (S k)) (ofN (S m))) eqn:Q; [reflexivity|]. pose proof (le_trans f0 f1 fadd fmul fsub fopp fdiv finv fltb OF _ _ _ Q HX). congruence. }
  rewrite E in H. destruct (negb _); [discriminate|]. rewrite ofZ_nat in H.
  replace (fsub (fmul (ofN m) tstep) (fmul (ofN k) tstep)) with (fmul (ofN (m - k)) tstep) in H
    by (replace m with ((m - k) + k) at 2 by lia; rewrite ofN_add; ring).
  set (j := m - k) in *. assert (Hj : 1 <= j) by lia.
  assert (A : le (fabs f0 fopp fltb tstep) (fabs f0 fopp fltb (fmul (ofN j) tstep))).
  { assert (J1 : le f1 (ofN j)) by (pose proof (ofN_le 1 j Hj) as Q; rewrite ofN_S in Q; change (ofN 0) with f0 in Q; now replace (fadd f0 f1) with f1 in Q by ring).
    unfold fabs. destruct (fltb tstep f0) eqn:S1.
    - assert (N : lt f0 (fopp tstep)) by now apply (neg_pos f0 f1 fadd fmul fsub fopp fdiv finv fltb OF).
      assert (S2 : fltb (fmul (ofN j) tstep) f0 = true).
      { pose proof (lt_mul_pos f0 f1 fadd fmul fsub fopp fdiv finv fltb OF _ _ _ (ofN_pos j Hj) S1) as Q. now replace (fmul (ofN j) f0) with f0 in Q by ring. }
      rewrite S2. pose proof (mul_le f0 f1 fadd fmul fsub fopp fdiv finv fltb OF _ _ _ (lt_le f0 f1 fadd fmul fsub fopp fdiv finv fltb OF _ _ N) J1) as Q.
      replace (fmul (fopp tstep) f1) with (fopp tstep) in Q by ring. now replace (fmul (fopp tstep) (ofN j)) with (fopp (fmul (ofN j) tstep)) in Q by ring.
    - rewrite (mul_nonneg f0 f1 fadd fmul fsub fopp fdiv finv fltb OF _ _ (ofN_nonneg j) S1).
      pose proof (mul_le f0 f1 fadd fmul fsub fopp fdiv finv fltb OF _ _ _ S1 J1) as Q. replace (fmul tstep f1) with tstep in Q by ring.
      now replace (fmul tstep (ofN j)) with (fmul (ofN j) tstep) in Q by ring. }
  rewrite (lt_le_trans f0 f1 fadd fmul fsub fopp fdiv finv fltb OF _ _ _ HT A) in H. discriminate.
Qed.
End Gate.
