(** C33: LogNum agrees with the real number sign*exp(lognum) it stands for. *)
From Coq Require Import Reals ZArith Bool Lia Lra.
From Verif Require Import Util LogNumModel.
Local Open Scope outcome_scope.

(** Specification: l stands for the real number x.  A zero stands for 0 whatever its logarithm. *)
Definition stands (l : lognum) (x : R) : Prop :=
  exists y, lg l = Some y /\ (sg l = -1 \/ sg l = 0 \/ sg l = 1)%Z /\ x = (IZR (sg l) * exp y)%R.
(** The form the constructor gives a zero. *)
Definition plain (l : lognum) : Prop := sg l = 0%Z -> lg l = Some 0%R.

Lemma flt_iff x y : flt (Some x) (Some y) = true <-> (x < y)%R.
Proof. cbn. destruct (Rlt_dec x y); split; intros; auto; discriminate. Qed.
Lemma feq_iff x y : feq (Some x) (Some y) = true <-> x = y.
Proof. cbn. destruct (Req_EM_T x y); split; intros; auto; discriminate. Qed.
Lemma sgn_cases l x : stands l x -> (sg l = (-1)%Z /\ (x < 0)%R) \/ (sg l = 0%Z /\ x = 0%R) \/ (sg l = 1%Z /\ (0 < x)%R).
Proof.
  intros (y & E & [H|[H|H]] & ->); rewrite H; pose proof (exp_pos y); [left|right; left|right; right]; split; auto; lra.
Qed.
Lemma bool_iff (b : bool) (P : Prop) : (b = true <-> P) -> b = false <-> ~ P.
Proof. destruct b; intros [A B]; split; intros; auto; try discriminate. exfalso; auto. intros K; specialize (B K); discriminate. Qed.

Theorem C33_make : forall x : R, stands (ln_of (Some x)) x /\ plain (ln_of (Some x)).
Proof.
  intros x. unfold ln_of, plain. destruct (feq (Some x) (Some 0%R)) eqn:E.
  - apply feq_iff in E. subst. split; [|reflexivity]. exists 0%R. cbn. split; [reflexivity|]. split; [auto|]. ring.
  - apply (bool_iff _ _ (feq_iff x 0)) in E. destruct (flt (Some x) (Some 0%R)) eqn:E2; cbn [fmap lg sg]; (split; [|discriminate]).
    + apply flt_iff in E2. exists (ln (- x)). cbn. split; [reflexivity|]. split; [auto|]. rewrite exp_ln by lra. lra.
    + apply (bool_iff _ _ (flt_iff x 0)) in E2. exists (ln x). cbn. split; [reflexivity|]. split; [auto|]. rewrite exp_ln by lra. lra.
Qed.

Theorem C33_mul : forall l m x y, stands l x -> stands m y -> stands (ln_mul l m) (x * y).
Proof.
  intros l m x y (a & Ea & Sa & ->) (b & Eb & Sb & ->). exists (a + b)%R. unfold ln_mul. cbn [lg sg]. rewrite Ea, Eb. split; [reflexivity|].
  split; [lia|]. rewrite exp_plus, mult_IZR. ring.
Qed.
Theorem C33_mul_real : forall l x r, stands l x -> stands (ln_mulr l (Some r)) (x * r).
Proof.
  intros l x r H. unfold ln_mulr. destruct (feq (Some r) (Some (-1)%R)) eqn:E.
  - apply feq_iff in E. subst r. destruct H as (a & Ea & Sa & ->). exists a. cbn [lg sg]. split; [exact Ea|]. split; [lia|]. rewrite mult_IZR. ring.
  - apply C33_mul; [exact H|apply C33_make].
Qed.
Theorem C33_div : forall debug l m x y, stands l x -> stands m y -> y <> 0%R ->
  exists q, ln_div debug l m = Ok q /\ stands q (x / y).
Proof.
  intros debug l m x y (a & Ea & Sa & ->) (b & Eb & Sb & ->) Hy. unfold ln_div.
  assert (sg m <> 0)%Z by (intros Q; apply Hy; rewrite Q; ring).
  replace (sg m =? 0)%Z with false by (symmetry; apply Z.eqb_neq; auto). rewrite andb_false_r. eexists. split; [reflexivity|].
  exists (a - b)%R. cbn [lg sg]. rewrite Ea, Eb. split; [reflexivity|]. split; [lia|]. unfold Rminus. rewrite exp_plus, exp_Ropp, mult_IZR.
  pose proof (exp_pos b). assert (IZR (sg m) <> 0)%R by (intros Q; apply Hy; rewrite Q; ring).
  assert (IZR (sg m) * IZR (sg m) = 1)%R by (destruct Sb as [Q|[Q|Q]]; rewrite Q; try lia; lra).
  replace (IZR (sg m)) with (/ IZR (sg m))%R at 1; [field; split; lra|]. apply (Rmult_eq_reg_l (IZR (sg m))); auto. rewrite Rinv_r by auto. lra.
Qed.
Theorem C33_neg : forall l x, stands l x -> stands (ln_neg l) (- x).
Proof. intros l x (a & Ea & Sa & ->). exists a. unfold ln_neg. cbn [lg sg]. split; [exact Ea|]. split; [lia|]. rewrite mult_IZR. ring. Qed.

(** Addition goes through real numbers; release build (no checks). *)
Theorem C33_add : forall maxlog l m x y, stands l x -> stands m y ->
  exists s, ln_add false maxlog l m = Ok s /\ stands s (x + y) /\ plain s.
Proof.
  assert (G : forall maxlog l x, stands l x -> real false maxlog l = Ok (Some x)).
  { intros maxlog l x (a & Ea & Sa & ->). unfold real. cbn [andb]. rewrite Ea. destruct (Z.eqb_spec (sg l) 0) as [->|]; [do 2 f_equal; ring|reflexivity]. }
  intros maxlog l m x y Hl Hm. unfold ln_add. rewrite (G _ _ _ Hl), (G _ _ _ Hm). cbn [obind fop]. eexists. split; [reflexivity|]. apply C33_make.
Qed.
(** Debug build: the same whenever both operands are in the range of double, an error otherwise. *)
Theorem C33_add_debug : forall maxlog l m x y, stands l x -> stands m y -> (0 < maxlog)%R ->
  ((x <> 0 -> exp (- maxlog) <= Rabs x <= exp maxlog) -> (y <> 0 -> exp (- maxlog) <= Rabs y <= exp maxlog) ->
     exists s, ln_add true maxlog l m = Ok s /\ stands s (x + y))%R /\
  ((x <> 0 /\ (Rabs x < exp (- maxlog) \/ exp maxlog < Rabs x))%R -> ln_add true maxlog l m = Err).
Proof.
  assert (AB : forall l a, (sg l = -1 \/ sg l = 0 \/ sg l = 1)%Z -> (IZR (sg l) * exp a <> 0)%R -> Rabs (IZR (sg l) * exp a) = exp a).
  { intros l a [H|[H|H]] K; rewrite H in *; pose proof (exp_pos a); [rewrite Rabs_left; lra|exfalso; apply K; ring|rewrite Rabs_right; lra]. }
  assert (G : forall maxlog l x, stands l x -> (x <> 0 -> exp (- maxlog) <= Rabs x <= exp maxlog)%R -> real true maxlog l = Ok (Some x)).
  { intros maxlog l x (a & Ea & Sa & ->) HR. unfold real. cbn [andb]. destruct (Z.eqb_spec (sg l) 0) as [Q|Q]; [rewrite Q; do 2 f_equal; ring|].
    assert (NZ : (IZR (sg l) * exp a <> 0)%R). { apply Rmult_integral_contrapositive. split; [apply not_0_IZR; auto|pose proof (exp_pos a); lra]. }
    specialize (HR NZ). rewrite AB in HR by auto. unfold isTooBig, isTooSmall. rewrite Ea.
    replace (flt (Some maxlog) (Some a)) with false. 2:{ symmetry. apply (bool_iff _ _ (flt_iff maxlog a)). intros K. apply exp_increasing in K. lra. }
    replace (flt (Some a) (Some (- maxlog)%R)) with false. 2:{ symmetry. apply (bool_iff _ _ (flt_iff a (- maxlog))). intros K. apply exp_increasing in K. lra. }
    reflexivity. }
  intros maxlog l m x y Hl Hm Hpos. split.
  - intros Rx Ry. unfold ln_add. rewrite (G _ _ _ Hl Rx), (G _ _ _ Hm Ry). cbn [obind fop]. eexists. split; [reflexivity|]. apply C33_make.
  - intros [NZ HR]. destruct Hl as (a & Ea & Sa & ->). rewrite AB in HR by auto. unfold ln_add, real.
    destruct (Z.eqb_spec (sg l) 0) as [Q|Q]; [exfalso; apply NZ; rewrite Q; ring|]. cbn [andb]. unfold isTooBig, isTooSmall. rewrite Ea.
    destruct HR as [HR|HR]; apply exp_lt_inv in HR.
    + rewrite (proj2 (flt_iff a (- maxlog))) by auto. rewrite orb_true_r. reflexivity.
    + rewrite (proj2 (flt_iff maxlog a)) by auto. reflexivity.
Qed.

(** Comparisons, for plain zeros. *)
Theorem C33_order : forall l m x y, stands l x -> stands m y -> plain l -> plain m ->
  (ln_eqb l m = true <-> x = y) /\ (ln_neqb l m = true <-> x <> y) /\ (ln_lt l m = true <-> x < y)%R /\ (ln_le l m = true <-> x <= y)%R /\
  (ln_gt l m = true <-> x > y)%R /\ (ln_ge l m = true <-> x >= y)%R.
Proof.
  intros l m x y Hl Hm Pl Pm.
  assert (LT : ln_lt l m = true <-> (x < y)%R).
  { destruct (sgn_cases _ _ Hl) as [[S1 K1]|[[S1 K1]|[S1 K1]]], (sgn_cases _ _ Hm) as [[S2 K2]|[[S2 K2]|[S2 K2]]];
      unfold ln_lt; rewrite S1, S2; cbn [Z.eqb Z.ltb Z.compare Pos.compare Pos.compare_cont negb Pos.eqb CompOpp];
      destruct Hl as (a & Ea & _ & ->), Hm as (b & Eb & _ & ->); rewrite ?Ea, ?Eb; try (split; intros; [discriminate|lra]); try (split; intros; [lra|reflexivity]).
    - rewrite flt_iff, S1, S2. split; intros H.
      + apply exp_increasing in H. lra.
      + apply exp_lt_inv. lra.
    - rewrite flt_iff, S1, S2. split; intros H.
      + apply exp_increasing in H. lra.
      + apply exp_lt_inv. lra. }
  assert (EQ : ln_eqb l m = true <-> x = y).
  { unfold ln_eqb. rewrite andb_true_iff, Z.eqb_eq. split.
    - destruct Hl as (a & Ea & _ & ->), Hm as (b & Eb & _ & ->). rewrite Ea, Eb, feq_iff. intros [-> ->]. reflexivity.
    - intros Q. assert (QS : sg l = sg m) by (destruct (sgn_cases _ _ Hl) as [[S1 K1]|[[S1 K1]|[S1 K1]]], (sgn_cases _ _ Hm) as [[S2 K2]|[[S2 K2]|[S2 K2]]]; try (rewrite S1, S2; reflexivity); lra).
      split; [exact QS|]. destruct (Z.eq_dec (sg l) 0) as [Z0|Z0].
      + rewrite (Pl Z0), (Pm ltac:(congruence)). apply feq_iff. reflexivity.
      + destruct Hl as (a & Ea & _ & ->), Hm as (b & Eb & _ & ->). rewrite Ea, Eb, feq_iff. rewrite QS in Q, Z0.
        apply Rmult_eq_reg_l in Q; [apply exp_inv; exact Q|]. apply not_0_IZR; auto. }
  split; [exact EQ|]. split; [|split; [exact LT|split; [|split]]].
  - unfold ln_neqb. unfold ln_eqb in EQ. rewrite <- negb_andb, negb_true_iff. apply bool_iff. exact EQ.
  - unfold ln_le. rewrite orb_true_iff, LT, EQ. lra.
  - unfold ln_gt. rewrite andb_true_iff, !negb_true_iff, (bool_iff _ _ LT), (bool_iff _ _ EQ). lra.
  - unfold ln_ge. rewrite negb_true_iff, (bool_iff _ _ LT). lra.
Qed.
(** magnitudeLessThan is right for every form of zero. *)
Theorem C33_magnitude : forall l m x y, stands l x -> stands m y -> ln_maglt l m = true <-> (Rabs x < Rabs y)%R.
Proof.
  intros l m x y (a & Ea & Sa & ->) (b & Eb & Sb & ->). unfold ln_maglt.
  assert (AB : forall l a, (sg l = -1 \/ sg l = 1)%Z -> Rabs (IZR (sg l) * exp a) = exp a).
  { intros l' c [H|H]; rewrite H; pose proof (exp_pos c); [rewrite Rabs_left; lra|rewrite Rabs_right; lra]. }
  destruct (Z.eqb_spec (sg l) 0) as [Q|Q]; [|destruct (Z.eqb_spec (sg m) 0) as [Q2|Q2]].
  - rewrite Q, Rmult_0_l, Rabs_R0, negb_true_iff, Z.eqb_neq. split.
    + intros H. rewrite AB by lia. apply exp_pos.
    + intros H Z0. rewrite Z0, Rmult_0_l, Rabs_R0 in H. lra.
  - rewrite Q2, Rmult_0_l, Rabs_R0. split; [discriminate|]. intros H. pose proof (Rabs_pos (IZR (sg l) * exp a)). lra.
  - rewrite !AB by lia. rewrite Ea, Eb, flt_iff. split; [apply exp_increasing|apply exp_lt_inv].
Qed.
(** approxEquals: the quotient of two non-zero numbers is positive and within exp(+-1e-12) of 1. *)
Theorem C33_approx : forall l m x y, stands l x -> stands m y -> x <> 0%R -> y <> 0%R ->
  ln_approx l m = true <-> (exp (- / 1000000000000) < x / y < exp (/ 1000000000000))%R.
Proof.
  intros l m x y Hl Hm Nx Ny. unfold ln_approx. rewrite andb_true_iff, Z.eqb_eq.
  assert (NEG : forall u v : R, (u < 0 -> 0 < v -> u / v < 0)%R).
  { intros u v Hu Hv. unfold Rdiv. apply Rinv_0_lt_compat in Hv. nra. }
  assert (NEG' : forall u v : R, (0 < u -> v < 0 -> u / v < 0)%R).
  { intros u v Hu Hv. unfold Rdiv. apply Rinv_lt_0_compat in Hv. nra. }
  assert (P := exp_pos (- / 1000000000000)).
  assert (SAME : forall a b, ((exp a / exp b) = exp (a - b))%R).
  { intros a b. unfold Rminus, Rdiv. rewrite exp_plus, exp_Ropp. reflexivity. }
  destruct (sgn_cases _ _ Hl) as [[S1 K1]|[[S1 K1]|[S1 K1]]], (sgn_cases _ _ Hm) as [[S2 K2]|[[S2 K2]|[S2 K2]]]; try lra.
  2:{ split; [rewrite S1, S2; intros [Q _]; discriminate|]. specialize (NEG _ _ K1 K2). lra. }
  2:{ split; [rewrite S1, S2; intros [Q _]; discriminate|]. specialize (NEG' _ _ K1 K2). lra. }
  all: destruct Hl as (a & Ea & _ & ->), Hm as (b & Eb & _ & ->); rewrite Ea, Eb, S1, S2; cbn [fop fmap]; rewrite flt_iff;
    match goal with |- _ <-> (_ < ?q < _)%R => replace q with (exp (a - b)) by (rewrite <- SAME; field; pose proof (exp_pos b); lra) end;
    (split; [intros [_ H]; apply Rabs_def2 in H; split; apply exp_increasing; lra|intros [H1 H2]; apply exp_lt_inv in H1, H2; split; [reflexivity|apply Rabs_def1; lra]]).
Qed.
Theorem C33_pow : forall l x p, stands l x -> (0 < x)%R -> stands (ln_pow l p) (Rpower x p).
Proof.
  intros l x p H Hx. destruct (sgn_cases _ _ H) as [[S K]|[[S K]|[S K]]]; try lra. destruct H as (a & Ea & _ & ->).
  exists (a * p)%R. unfold ln_pow. cbn [lg sg]. rewrite Ea. split; [reflexivity|]. split; [auto|]. rewrite S, Rmult_1_l. unfold Rpower. rewrite ln_exp, Rmult_1_l. f_equal. ring.
Qed.
Theorem C33_sqrt : forall l x, stands l x -> ((0 <= x)%R -> exists s, ln_sqrt l = Ok s /\ stands s (sqrt x)) /\ ((x < 0)%R -> ln_sqrt l = Err).
Proof.
  intros l x H. unfold ln_sqrt. destruct (sgn_cases _ _ H) as [[S K]|[[S K]|[S K]]]; rewrite S; cbn [Z.ltb Z.compare]; split; intros Q; try lra; try reflexivity.
  - eexists. split; [reflexivity|]. destruct H as (a & Ea & _ & ->). exists (a * / 2)%R. unfold ln_pow. cbn [lg sg]. rewrite Ea, S. split; [reflexivity|]. split; [auto|]. rewrite !Rmult_0_l. apply sqrt_0.
  - eexists. split; [reflexivity|]. rewrite <- Rpower_sqrt by lra. apply C33_pow; auto.
Qed.
(** real0 gives the number, or 0 if it is below the range of double. *)
Theorem C33_real0 : forall maxlog l x, stands l x ->
  (real0 false maxlog l = Ok (Some (if Rlt_dec (Rabs x) (exp (- maxlog)) then 0 else x)))%R.
Proof.
  intros maxlog l x (a & Ea & Sa & ->). unfold real0, isRealZero, real. rewrite Ea. cbn [andb]. pose proof (exp_pos (- maxlog)). pose proof (exp_pos a).
  destruct (Z.eqb_spec (sg l) 0) as [Q|Q]; cbn [orb].
  - rewrite Q, Rmult_0_l. destruct (Rlt_dec _ _); reflexivity.
  - assert (AB : Rabs (IZR (sg l) * exp a) = exp a) by (destruct Sa as [Z0|[Z0|Z0]]; rewrite Z0; [rewrite Rabs_left; lra|lia|rewrite Rabs_right; lra]).
    rewrite AB. cbn [flt fmap]. destruct (Rlt_dec a (- maxlog)) as [K|K], (Rlt_dec (exp a) (exp (- maxlog))) as [J|J]; auto.
    + exfalso. apply J, exp_increasing, K.
    + exfalso. apply K, exp_lt_inv, J.
Qed.

(** Zeros: 2*0 and 0 stand for the same number, but == says no and > says yes. *)
Theorem C33_zero_refuted : let z := ln_of (Some 0%R) in let z' := ln_mul (ln_of (Some 2%R)) z in
  stands z 0 /\ stands z' 0 /\ ln_eqb z' z = false /\ ln_gt z' z = true /\ ln_gt z z' = true /\ ln_le z' z = false.
Proof.
  cbv zeta. assert (K : ln_of (Some 2%R) = mkLN (Some (ln 2)) 1).
  { unfold ln_of. replace (feq (Some 2%R) (Some 0%R)) with false by (symmetry; apply (bool_iff _ _ (feq_iff 2 0)); lra).
    replace (flt (Some 2%R) (Some 0%R)) with false by (symmetry; apply (bool_iff _ _ (flt_iff 2 0)); lra). reflexivity. }
  assert (K0 : ln_of (Some 0%R) = mkLN (Some 0%R) 0). { unfold ln_of. rewrite (proj2 (feq_iff 0 0)); auto. }
  assert (L2 : (ln 2 + 0 <> 0)%R). { rewrite Rplus_0_r. pose proof ln_lt_2. lra. }
  rewrite K, K0. unfold ln_mul. cbn [lg sg fop Z.mul].
  split; [exists 0%R; cbn; repeat split; auto; ring|]. split; [exists (ln 2 + 0)%R; cbn; repeat split; auto; ring|].
  unfold ln_gt, ln_le, ln_lt, ln_eqb. cbn [lg sg Z.eqb negb Z.ltb Z.compare andb orb].
  replace (feq (Some (ln 2 + 0)%R) (Some 0%R)) with false by (symmetry; apply (bool_iff _ _ (feq_iff _ _)); auto).
  replace (feq (Some 0%R) (Some (ln 2 + 0)%R)) with false by (symmetry; apply (bool_iff _ _ (feq_iff _ _)); auto). auto.
Qed.
(** pow ignores the sign: (-2)^2 comes out as -4. *)
Theorem C33_pow_negative_refuted : exists l, stands l (-2) /\ stands (ln_pow l 2) (-4).
Proof.
  exists (mkLN (Some (ln 2)) (-1)). split; [exists (ln 2); cbn; repeat split; auto; rewrite exp_ln by lra; lra|].
  exists (ln 2 * 2)%R. cbn. split; [reflexivity|]. split; [auto|]. replace (ln 2 * 2)%R with (ln 2 + ln 2)%R by ring. rewrite exp_plus, exp_ln by lra. lra.
Qed.
(** Release build: anything divided by zero is zero. *)
Theorem C33_div_zero_refuted : forall l m x, stands l x -> stands m 0 -> exists q, ln_div false l m = Ok q /\ stands q 0.
Proof.
  intros l m x (a & Ea & Sa & ->) Hm. destruct (sgn_cases _ _ Hm) as [[S K]|[[S K]|[S K]]]; try lra. destruct Hm as (b & Eb & Sb & _).
  eexists. split; [reflexivity|]. exists (a - b)%R. cbn [lg sg]. rewrite Ea, Eb, S, Z.mul_0_r. split; [reflexivity|]. split; [auto|ring].
Qed.
(** A default LogNum (NaN) compares greater than every positive number, and they than it. *)
Theorem C33_nan_refuted : forall m x, stands m x -> (0 < x)%R -> ln_gt ln_default m = true /\ ln_gt m ln_default = true.
Proof.
  intros m x H Hx. destruct (sgn_cases _ _ H) as [[S K]|[[S K]|[S K]]]; try lra. unfold ln_gt, ln_lt, ln_eqb, ln_default. cbn [lg sg]. rewrite S. cbn.
  destruct (lg m); auto.
Qed.

(** 3 * (-2) / 5 + 1: the theorems apply one after the other. *)
Example C33_nonvacuous : exists q s, ln_div true (ln_mulr (ln_of (Some 3%R)) (Some (-2)%R)) (ln_of (Some 5%R)) = Ok q /\
  ln_add false 700 q (ln_of (Some 1%R)) = Ok s /\ stands s (- (1 / 5)) /\ ln_lt s (ln_of (Some 0%R)) = true.
Proof.
  destruct (C33_div true _ _ _ _ (C33_mul_real _ _ (-2) (proj1 (C33_make 3))) (proj1 (C33_make 5)) ltac:(lra)) as (q & E & H).
  destruct (C33_add 700 q _ _ _ H (proj1 (C33_make 1))) as (s & E' & H' & P). exists q, s. split; [exact E|]. split; [exact E'|].
  replace (- (1 / 5))%R with (3 * -2 / 5 + 1)%R by lra. split; [exact H'|].
  apply (C33_order s (ln_of (Some 0%R)) _ 0 H' (proj1 (C33_make 0)) P (proj2 (C33_make 0))). lra.
Qed.

Print Assumptions C33_make.
Print Assumptions C33_mul.
Print Assumptions C33_mul_real.
Print Assumptions C33_div.
Print Assumptions C33_neg.
Print Assumptions C33_add.
Print Assumptions C33_add_debug.
Print Assumptions C33_order.
Print Assumptions C33_magnitude.
Print Assumptions C33_approx.
Print Assumptions C33_pow.
Print Assumptions C33_sqrt.
Print Assumptions C33_real0.
Print Assumptions C33_zero_refuted.
Print Assumptions C33_pow_negative_refuted.
Print Assumptions C33_div_zero_refuted.
Print Assumptions C33_nan_refuted.
