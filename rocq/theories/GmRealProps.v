(** C63 for the real numbers of Coq: all square roots exist, so that gmres converges for every invertible real matrix
    and every invertible Hermitian matrix. These theorems rest on the axioms of Coq's Reals library. *)
From Coq Require Import List Arith Bool Lia Ring Field Reals Lra.
From Verif Require Import Util BigSum DavSpec DavModel DavProofs GmSpec GmModel GmProofs GmProps.
Import ListNotations.
Local Open Scope nat_scope.

Definition Rltb (x y : R) : bool := if Rlt_dec x y then true else false.
Definition Rroot (x : R) : outcome R := if Rlt_dec x 0 then UB else Ok (sqrt x).
Lemma Rltb_lt : forall x y, Rltb x y = true <-> (x < y)%R.
Proof. intros x y. unfold Rltb. destruct (Rlt_dec x y); split; intros; auto; try discriminate; contradiction. Qed.
Lemma Rltb_le : forall x y, Rltb x y = false <-> (y <= x)%R.
Proof. intros x y. unfold Rltb. destruct (Rlt_dec x y); split; intros; auto; try discriminate; lra. Qed.
Lemma R_ordered : ordered_field 0%R 1%R Rplus Rmult Rminus Ropp Rdiv Rinv Rltb.
Proof.
  constructor.
  - exact Rfield.
  - intros x. apply Rltb_le. lra.
  - intros x y z. rewrite !Rltb_lt. lra.
  - intros x y. rewrite !Rltb_le. lra.
  - intros x y z. rewrite !Rltb_lt. lra.
  - intros x y. rewrite !Rltb_lt. intros. apply Rmult_lt_0_compat; assumption.
Qed.
Lemma Rroot_ok : sqrt_ok 0%R Rmult Rltb Rroot.
Proof. intros x r H. unfold Rroot in H. destruct (Rlt_dec x 0); [discriminate|]. injection H as <-. rewrite Rltb_le. split; [apply sqrt_sqrt; lra|apply sqrt_pos]. Qed.
Lemma Rroot_total : forall x, Rltb x 0 = false -> exists r, Rroot x = Ok r.
Proof. intros x H. rewrite Rltb_le in H. unfold Rroot. destruct (Rlt_dec x 0); [lra|]. eauto. Qed.

(** * Real systems: columns of n real numbers and n x n matrices *)
Notation rid := (fun x : R => x).
Definition Rgmres (n : nat) (M : nat -> nat -> R) :=
  GmModel.gmres 1%R Rmult Rinv Rltb Rroot 0%R 1%R Rplus Rmult Rminus Ropp Rinv (feq Rltb) rid rid (fabs 0%R Ropp Rltb) Rroot rid
    (cplus Rplus) (cscale Rmult) (cdot 0%R Rplus Rmult rid n) (matvec 0%R Rplus Rmult n M).
Definition rsum (n : nat) (f : nat -> R) : R := fold_right (fun i s => (f i + s)%R) 0%R (seq 0 n).
(** |v|, and (M v)_i *)
Definition rnorm (n : nat) (v : nat -> R) : R := sqrt (rsum n (fun i => (v i * v i)%R)).
Definition rapply (n : nat) (M : nat -> nat -> R) (v : nat -> R) : nat -> R := fun i => rsum n (fun j => (M i j * v j)%R).
Definition rzero (n : nat) (v : nat -> R) : Prop := forall i, i < n -> v i = 0%R.

Lemma rsum_bsum : forall n f, rsum n f = bsum 0%R Rplus n f.
Proof.
  intros n f. unfold rsum. induction n as [|n IH]; [reflexivity|]. rewrite seq_S, fold_right_app. cbn [fold_right Nat.add bsum]. rewrite <- IH.
  generalize (seq 0 n) as l. intros l. clear IH. induction l as [|a l IH]; cbn [fold_right]; [ring|]. rewrite IH. ring.
Qed.
Lemma rsum_sq_nonneg : forall n v, (0 <= rsum n (fun i => (v i * v i)%R))%R.
Proof. intros n v. unfold rsum. induction (seq 0 n) as [|a l IH]; cbn [fold_right]; [lra|]. pose proof (Rle_0_sqr (v a)) as Q. unfold Rsqr in Q. lra. Qed.
Lemma rnorm_sq : forall n v, (rnorm n v * rnorm n v)%R = cdot 0%R Rplus Rmult rid n v v.
Proof. intros n v. unfold rnorm. rewrite sqrt_sqrt by apply rsum_sq_nonneg. apply rsum_bsum. Qed.
Lemma rnorm_pos : forall n v, (0 <= rnorm n v)%R. Proof. intros. apply sqrt_pos. Qed.
Lemma rsum_ext : forall n f g, (forall i, i < n -> f i = g i) -> rsum n f = rsum n g.
Proof. intros n f g H. rewrite !rsum_bsum. apply bsum_ext. exact H. Qed.

Definition SCR := C63_real_scalars 0%R 1%R Rplus Rmult Rminus Ropp Rdiv Rinv Rltb Rroot R_ordered Rroot_ok.


Lemma dot_vsub : forall n M b x, cdot 0%R Rplus Rmult rid n (vsub 1%R Ropp (cplus Rplus) (cscale Rmult) b (matvec 0%R Rplus Rmult n M x)) (vsub 1%R Ropp (cplus Rplus) (cscale Rmult) b (matvec 0%R Rplus Rmult n M x)) =
  (rnorm n (fun i => b i - rapply n M x i) * rnorm n (fun i => b i - rapply n M x i))%R.
Proof.
  intros n M b x. rewrite rnorm_sq. unfold cdot. apply bsum_ext. intros i _. unfold vsub, cplus, cscale, rapply. rewrite rsum_bsum. unfold matvec. ring.
Qed.
Lemma rzero_vzero : forall n v, vzero 0%R (cdot 0%R Rplus Rmult rid n) v <-> rzero n v.
Proof.
  intros n v. split.
  - intros H i Hi. pose proof (sum_zero 0%R 1%R Rplus Rmult Rminus Ropp Rdiv Rinv Rltb R_ordered 0%R 1%R Rplus Rmult Rminus Ropp Rdiv Rinv (feq Rltb) rid rid (fabs 0%R Ropp Rltb) Rroot SCR n v (H v) i Hi) as Z.
    cbv beta in Z. destruct (Rmult_integral _ _ Z); assumption.
  - intros H u. unfold cdot. rewrite <- rsum_bsum. rewrite (rsum_ext n _ (fun _ => 0%R)) by (intros i Hi; rewrite (H i Hi); ring).
    rewrite rsum_bsum. induction n as [|n IH]; [reflexivity|]. cbn [bsum]. rewrite IH; [ring|]. intros i Hi. apply H. lia.
Qed.
Lemma sq_le_le : forall a b, (0 <= b)%R -> (a * a <= b * b)%R -> (a <= b)%R.
Proof. intros a b Hb H. apply Rnot_lt_le. intros L. assert (b * b < a * a)%R by (apply Rmult_le_0_lt_compat; lra). lra. Qed.

(** For every n, every n x n matrix M whose only zero is 0, every right hand side and starting vector, every
    ErrGoal > 0, RestartIter >= n and MaxIter >= n: gmres returns, and |b - M x'| <= ErrGoal |b| for b that is not 0.
    With any RestartIter >= 1 and MaxIter it returns, and |b - M x'| <= |b - M x|. *)
Theorem C63_real_matrices : forall n M b x fuel m max_iter tol,
  (forall v, rzero n (rapply n M v) -> rzero n v) -> (0 < tol)%R -> 1 <= m -> max_iter < fuel ->
  exists x' conv, Rgmres n M fuel m max_iter tol b x = Ok (x', conv) /\
    (rnorm n (fun i => b i - rapply n M x' i) <= rnorm n (fun i => b i - rapply n M x i))%R /\
    (n <= m -> n <= max_iter -> conv = true) /\
    (conv = true -> ~ rzero n b -> (rnorm n (fun i => b i - rapply n M x' i) <= tol * rnorm n b)%R) /\
    (conv = true -> rzero n b -> (rnorm n (fun i => b i - rapply n M x' i) <= tol)%R).
Proof.
  intros n M b x fuel m max_iter tol INJ PT Hm Hf.
  destruct (C63_columns 0%R 1%R Rplus Rmult Rminus Ropp Rdiv Rinv Rltb R_ordered 0%R 1%R Rplus Rmult Rminus Ropp Rdiv Rinv (feq Rltb) rid rid (fabs 0%R Ropp Rltb) Rroot SCR n M) as (SP & LI & DIM & _).
  assert (CASE : (forall t : R, rid t = t) \/ self_adjoint (cdot 0%R Rplus Rmult rid n) (matvec 0%R Rplus Rmult n M)) by (left; reflexivity).
  assert (IN : injective 0%R (cdot 0%R Rplus Rmult rid n) (matvec 0%R Rplus Rmult n M)).
  { intros v H. rewrite rzero_vzero in *. apply INJ. intros i Hi. unfold rapply. rewrite rsum_bsum. exact (H i Hi). }
  assert (TA : forall t, exists a, fabs 0%R Ropp Rltb t = Ok a) by (intros t; unfold fabs; eauto).
  assert (PT' : Rltb 0 tol = true) by (apply Rltb_lt; exact PT).
  destruct (C63_returns 0%R 1%R Rplus Rmult Rminus Ropp Rdiv Rinv Rltb Rroot R_ordered Rroot_ok 0%R 1%R Rplus Rmult Rminus Ropp Rdiv Rinv (feq Rltb) rid rid (fabs 0%R Ropp Rltb) Rroot rid SCR (fun _ => eq_refl)
    _ _ _ _ SP LI CASE Rroot_total TA Rroot_total IN fuel m max_iter tol b x PT' Hm Hf) as ([x' conv] & E).
  exists x', conv. split; [exact E|].
  set (q := if Req_EM_T (rnorm n b * rnorm n b) 0 then (tol * tol)%R else ((tol * tol) * (rnorm n b * rnorm n b))%R).
  destruct (C63_residual 0%R 1%R Rplus Rmult Rminus Ropp Rdiv Rinv Rltb Rroot R_ordered Rroot_ok 0%R 1%R Rplus Rmult Rminus Ropp Rdiv Rinv (feq Rltb) rid rid (fabs 0%R Ropp Rltb) Rroot rid SCR (fun _ => eq_refl)
    _ _ _ _ SP LI CASE fuel m max_iter tol b x x' conv _ q PT' E (dot_vsub n M b x)) as (p' & R' & L & C).
  { exists (rnorm n b * rnorm n b)%R. split; [symmetry; apply rnorm_sq|]. unfold q. destruct (Req_EM_T _ 0); split; intros; try reflexivity; contradiction. }
  unfold residual2 in R'. rewrite dot_vsub in R'. subst p'. rewrite Rltb_le in L. split; [apply sq_le_le; [apply rnorm_pos|exact L]|].
  assert (Z : (rnorm n b * rnorm n b)%R = 0%R <-> rzero n b).
  { rewrite rnorm_sq, <- rzero_vzero. split; [apply (sp_def _ _ _ _ _ _ _ _ _ _ SP)|intros H; apply H]. }
  split; [|split].
  - intros H1 H2. destruct (C63_solves 0%R 1%R Rplus Rmult Rminus Ropp Rdiv Rinv Rltb Rroot R_ordered Rroot_ok 0%R 1%R Rplus Rmult Rminus Ropp Rdiv Rinv (feq Rltb) rid rid (fabs 0%R Ropp Rltb) Rroot rid SCR (fun _ => eq_refl)
      _ _ _ _ SP LI CASE Rroot_total TA Rroot_total IN n fuel m max_iter tol b x DIM PT' H1 H2 ltac:(lia)) as (x2 & E2).
    assert (Q : Ok (x', conv) = Ok (x2, true)) by (rewrite <- E; exact E2). injection Q as _ Q. exact Q.
  - intros H NZ. specialize (C H). rewrite Rltb_le in C. apply sq_le_le; [apply Rmult_le_pos; [lra|apply rnorm_pos]|]. unfold q in C. destruct (Req_EM_T _ 0) as [e|e]; [exfalso; apply NZ, Z, e|lra].
  - intros H NZ. specialize (C H). rewrite Rltb_le in C. apply sq_le_le; [lra|]. unfold q in C. destruct (Req_EM_T _ 0) as [e|e]; [lra|exfalso; apply e, Z, NZ].
Qed.

(** * Complex systems: columns of n complex numbers and Hermitian n x n matrices *)
Notation C := (@cplx R).
Notation cadd_ := (cadd Rplus). Notation cmul_ := (cmul Rplus Rmult Rminus). Notation csub_ := (csub Rminus). Notation copp_ := (copp Ropp).
Notation cinv_ := (cinv Rplus Rmult Ropp Rinv). Notation cdiv_ := (cdiv Rplus Rmult Rminus Ropp Rinv). Notation ceq_ := (ceq Rltb). Notation cconj_ := (cconj Ropp). Notation cof_ := (cof 0%R).
Notation cabs_ := (cabs Rplus Rmult Rroot). Notation csqrt_ := (csqrt 0%R 1%R Rplus Rmult Rminus Ropp Rinv Rltb Rroot). Notation c0_ := (c0 0%R). Notation c1_ := (c1 0%R 1%R).
Definition Cgmres (n : nat) (M : nat -> nat -> C) :=
  GmModel.gmres 1%R Rmult Rinv Rltb Rroot c0_ c1_ cadd_ cmul_ csub_ copp_ cinv_ ceq_ cconj_ cof_ cabs_ csqrt_ fst
    (cplus cadd_) (cscale cmul_) (cdot c0_ cadd_ cmul_ cconj_ n) (matvec c0_ cadd_ cmul_ n M).
Definition csum (n : nat) (f : nat -> C) : C := (rsum n (fun i => fst (f i)), rsum n (fun i => snd (f i))).
Definition cnorm (n : nat) (v : nat -> C) : R := sqrt (rsum n (fun i => (fst (v i) * fst (v i) + snd (v i) * snd (v i))%R)).
Definition capply (n : nat) (M : nat -> nat -> C) (v : nat -> C) : nat -> C := fun i => csum n (fun j => cmul_ (M i j) (v j)).
Definition cnull (n : nat) (v : nat -> C) : Prop := forall i, i < n -> v i = c0_.

Lemma csum_bsum : forall n f, csum n f = bsum c0_ cadd_ n f.
Proof.
  intros n f. unfold csum. rewrite !rsum_bsum. induction n as [|n IH]; [reflexivity|]. cbn [bsum]. rewrite <- IH. reflexivity.
Qed.
Lemma csum_sq_nonneg : forall n (v : nat -> C), (0 <= rsum n (fun i => (fst (v i) * fst (v i) + snd (v i) * snd (v i))%R))%R.
Proof. intros n v. unfold rsum. induction (seq 0 n) as [|a l IH]; cbn [fold_right]; [lra|]. pose proof (Rle_0_sqr (fst (v a))) as Q. pose proof (Rle_0_sqr (snd (v a))) as Q2. unfold Rsqr in Q, Q2. lra. Qed.
Lemma cnorm_sq : forall n v, cof_ (cnorm n v * cnorm n v)%R = cdot c0_ cadd_ cmul_ cconj_ n v v.
Proof.
  intros n v. unfold cnorm. rewrite sqrt_sqrt by apply csum_sq_nonneg. unfold cdot. rewrite <- csum_bsum. unfold csum, cof. f_equal.
  - apply rsum_ext. intros i _. unfold cmul, cconj; cbn [fst snd]. ring.
  - rewrite (rsum_ext n _ (fun _ => 0%R)) by (intros i _; unfold cmul, cconj; cbn [fst snd]; ring). rewrite rsum_bsum. induction n as [|n IH]; cbn [bsum]; [reflexivity|]. rewrite <- IH. ring.
Qed.
Lemma cnorm_pos : forall n v, (0 <= cnorm n v)%R. Proof. intros. apply sqrt_pos. Qed.
Definition SCC := C63_complex_scalars 0%R 1%R Rplus Rmult Rminus Ropp Rdiv Rinv Rltb Rroot R_ordered Rroot_ok.
Lemma cdot_vsub : forall n M b x, cdot c0_ cadd_ cmul_ cconj_ n (vsub c1_ copp_ (cplus cadd_) (cscale cmul_) b (matvec c0_ cadd_ cmul_ n M x)) (vsub c1_ copp_ (cplus cadd_) (cscale cmul_) b (matvec c0_ cadd_ cmul_ n M x)) =
  cof_ (cnorm n (fun i => csub_ (b i) (capply n M x i)) * cnorm n (fun i => csub_ (b i) (capply n M x i)))%R.
Proof.
  intros n M b x. rewrite cnorm_sq. unfold cdot. apply bsum_ext. intros i _. unfold vsub, cplus, cscale, capply. rewrite csum_bsum. unfold matvec.
  destruct (bsum c0_ cadd_ n _) as [p q], (b i) as [r s]. unfold cmul, cconj, cadd, csub, copp, c1; cbn [fst snd]. f_equal; ring.
Qed.
Lemma cnull_vzero : forall n v, vzero c0_ (cdot c0_ cadd_ cmul_ cconj_ n) v <-> cnull n v.
Proof.
  intros n v. split.
  - intros H i Hi. pose proof (sum_zero 0%R 1%R Rplus Rmult Rminus Ropp Rdiv Rinv Rltb R_ordered c0_ c1_ cadd_ cmul_ csub_ copp_ cdiv_ cinv_ ceq_ cconj_ cof_ cabs_ csqrt_ SCC n v (H v) i Hi) as Z.
    destruct (v i) as [p q]. unfold cmul, cconj, c0 in *; cbn [fst snd] in *. injection Z as Z _. pose proof (Rle_0_sqr p) as Q. pose proof (Rle_0_sqr q) as Q2. unfold Rsqr in Q, Q2.
    assert (Ep : (p * p = 0)%R) by nra. assert (Eq : (q * q = 0)%R) by nra. f_equal; [destruct (Rmult_integral _ _ Ep)|destruct (Rmult_integral _ _ Eq)]; assumption.
  - intros H u. unfold cdot. assert (G : forall k, k <= n -> bsum c0_ cadd_ k (fun i => cmul_ (cconj_ (u i)) (v i)) = c0_); [|apply G; lia].
    induction k as [|k IH]; intros Hk; [reflexivity|]. cbn [bsum]. rewrite IH by lia. rewrite (H k) by lia. unfold cadd, cmul, cconj, c0; cbn [fst snd]. f_equal; ring.
Qed.

(** The same for every Hermitian matrix. *)
Theorem C63_hermitian_matrices : forall n M b x fuel m max_iter tol,
  (forall i j, i < n -> j < n -> M i j = cconj_ (M j i)) -> (forall v, cnull n (capply n M v) -> cnull n v) -> (0 < tol)%R -> 1 <= m -> max_iter < fuel ->
  exists x' conv, Cgmres n M fuel m max_iter tol b x = Ok (x', conv) /\
    (cnorm n (fun i => csub_ (b i) (capply n M x' i)) <= cnorm n (fun i => csub_ (b i) (capply n M x i)))%R /\
    (n <= m -> n <= max_iter -> conv = true) /\
    (conv = true -> ~ cnull n b -> (cnorm n (fun i => csub_ (b i) (capply n M x' i)) <= tol * cnorm n b)%R) /\
    (conv = true -> cnull n b -> (cnorm n (fun i => csub_ (b i) (capply n M x' i)) <= tol)%R).
Proof.
  intros n M b x fuel m max_iter tol HE INJ PT Hm Hf.
  destruct (C63_columns 0%R 1%R Rplus Rmult Rminus Ropp Rdiv Rinv Rltb R_ordered c0_ c1_ cadd_ cmul_ csub_ copp_ cdiv_ cinv_ ceq_ cconj_ cof_ cabs_ csqrt_ SCC n M) as (SP & LI & DIM & SA).
  assert (CASE : (forall t : C, cconj_ t = t) \/ self_adjoint (cdot c0_ cadd_ cmul_ cconj_ n) (matvec c0_ cadd_ cmul_ n M)) by (right; apply SA; exact HE).
  assert (IN : injective c0_ (cdot c0_ cadd_ cmul_ cconj_ n) (matvec c0_ cadd_ cmul_ n M)).
  { intros v H. rewrite cnull_vzero in *. apply INJ. intros i Hi. unfold capply. rewrite csum_bsum. exact (H i Hi). }
  destruct (complex_total 0%R 1%R Rplus Rmult Rminus Ropp Rdiv Rinv Rltb Rroot R_ordered Rroot_ok Rroot_total) as (TA & TS).
  assert (PT' : Rltb 0 tol = true) by (apply Rltb_lt; exact PT).
  destruct (C63_returns 0%R 1%R Rplus Rmult Rminus Ropp Rdiv Rinv Rltb Rroot R_ordered Rroot_ok c0_ c1_ cadd_ cmul_ csub_ copp_ cdiv_ cinv_ ceq_ cconj_ cof_ cabs_ csqrt_ fst SCC (fun _ => eq_refl)
    _ _ _ _ SP LI CASE Rroot_total TA TS IN fuel m max_iter tol b x PT' Hm Hf) as ([x' conv] & E).
  exists x', conv. split; [exact E|].
  set (q := if Req_EM_T (cnorm n b * cnorm n b) 0 then (tol * tol)%R else ((tol * tol) * (cnorm n b * cnorm n b))%R).
  destruct (C63_residual 0%R 1%R Rplus Rmult Rminus Ropp Rdiv Rinv Rltb Rroot R_ordered Rroot_ok c0_ c1_ cadd_ cmul_ csub_ copp_ cdiv_ cinv_ ceq_ cconj_ cof_ cabs_ csqrt_ fst SCC (fun _ => eq_refl)
    _ _ _ _ SP LI CASE fuel m max_iter tol b x x' conv _ q PT' E (cdot_vsub n M b x)) as (p' & R' & L & CV).
  { exists (cnorm n b * cnorm n b)%R. split; [symmetry; apply cnorm_sq|]. unfold q. destruct (Req_EM_T _ 0); split; intros; try reflexivity; contradiction. }
  unfold residual2 in R'. rewrite cdot_vsub in R'. injection R' as <-. rewrite Rltb_le in L. split; [apply sq_le_le; [apply cnorm_pos|exact L]|].
  assert (Z : (cnorm n b * cnorm n b)%R = 0%R <-> cnull n b).
  { rewrite <- cnull_vzero. split.
    - intros H. apply (sp_def _ _ _ _ _ _ _ _ _ _ SP). rewrite <- cnorm_sq, H. reflexivity.
    - intros H. specialize (H b). rewrite <- cnorm_sq in H. exact (f_equal fst H). }
  split; [|split].
  - intros H1 H2. destruct (C63_solves 0%R 1%R Rplus Rmult Rminus Ropp Rdiv Rinv Rltb Rroot R_ordered Rroot_ok c0_ c1_ cadd_ cmul_ csub_ copp_ cdiv_ cinv_ ceq_ cconj_ cof_ cabs_ csqrt_ fst SCC (fun _ => eq_refl)
      _ _ _ _ SP LI CASE Rroot_total TA TS IN n fuel m max_iter tol b x DIM PT' H1 H2 ltac:(lia)) as (x2 & E2).
    assert (Q : Ok (x', conv) = Ok (x2, true)) by (rewrite <- E; exact E2). injection Q as _ Q. exact Q.
  - intros H NZ. specialize (CV H). rewrite Rltb_le in CV. apply sq_le_le; [apply Rmult_le_pos; [lra|apply cnorm_pos]|]. unfold q in CV. destruct (Req_EM_T _ 0) as [e|e]; [exfalso; apply NZ, Z, e|lra].
  - intros H NZ. specialize (CV H). rewrite Rltb_le in CV. apply sq_le_le; [lra|]. unfold q in CV. destruct (Req_EM_T _ 0) as [e|e]; [lra|exfalso; apply e, Z, NZ].
Qed.

(** Both theorems apply: the matrix ((1,1),(0,1)) and the Hermitian ((0,-i),(i,0)) are injective. *)
Definition shear (i j : nat) : R := match i, j with S O, O => 0%R | _, _ => 1%R end.
Definition sigma_y (i j : nat) : C := match i, j with O, S O => (0, -1)%R | S O, O => (0, 1)%R | _, _ => (0, 0)%R end.
Example C63_nonvacuous_R : (forall v, rzero 2 (rapply 2 shear v) -> rzero 2 v) /\
  (forall i j, i < 2 -> j < 2 -> sigma_y i j = cconj_ (sigma_y j i)) /\ (forall v, cnull 2 (capply 2 sigma_y v) -> cnull 2 v) /\
  (exists x', Rgmres 2 shear 3 2 2 (1/100) (fun _ => 1%R) (fun _ => 0%R) = Ok (x', true)) /\
  (exists x', Cgmres 2 sigma_y 3 2 2 (1/100) (fun _ => (1, 0)%R) (fun _ => (0, 0)%R) = Ok (x', true)).
Proof.
  assert (A1 : forall v, rzero 2 (rapply 2 shear v) -> rzero 2 v).
  { intros v H. pose proof (H 0 ltac:(lia)) as H0. pose proof (H 1 ltac:(lia)) as H1. unfold rapply, rsum in *. cbn in H0, H1. intros [|[|i]] Hi; [lra|lra|lia]. }
  assert (A2 : forall i j, i < 2 -> j < 2 -> sigma_y i j = cconj_ (sigma_y j i)).
  { intros [|[|i]] [|[|j]] Hi Hj; try lia; unfold cconj; cbn; f_equal; ring. }
  assert (A3 : forall v, cnull 2 (capply 2 sigma_y v) -> cnull 2 v).
  { intros v H. pose proof (H 0 ltac:(lia)) as H0. pose proof (H 1 ltac:(lia)) as H1. unfold capply, csum, rsum, cmul, c0 in *. cbn in H0, H1. injection H0 as P Q. injection H1 as P' Q'.
    intros [|[|i]] Hi; [| |lia]; unfold c0; apply injective_projections; cbn [fst snd]; lra. }
  split; [exact A1|]. split; [exact A2|]. split; [exact A3|]. split.
  - destruct (C63_real_matrices 2 shear (fun _ => 1%R) (fun _ => 0%R) 3 2 2 (1/100)%R A1 ltac:(lra) ltac:(lia) ltac:(lia)) as (x' & c & E & _ & T & _). rewrite (T ltac:(lia) ltac:(lia)) in E. eauto.
  - destruct (C63_hermitian_matrices 2 sigma_y (fun _ => (1, 0)%R) (fun _ => (0, 0)%R) 3 2 2 (1/100)%R A2 A3 ltac:(lra) ltac:(lia) ltac:(lia)) as (x' & c & E & _ & T & _). rewrite (T ltac:(lia) ltac:(lia)) in E. eauto.
Qed.
Example C63_nonvacuous_complex_refuted : exists x' p',
  GmModel.gmres 1%R Rmult Rinv Rltb Rroot c0_ c1_ cadd_ cmul_ csub_ copp_ cinv_ ceq_ cconj_ cof_ cabs_ csqrt_ fst cadd_ cmul_ (fun u v => cmul_ (cconj_ u) v) (cmul_ (0, 1)%R) 2 1 1 (1/2)%R c1_ c0_ = Ok (x', false) /\
  residual2 c1_ copp_ cof_ cadd_ cmul_ (fun u v => cmul_ (cconj_ u) v) (cmul_ (0, 1)%R) c1_ x' p' /\ (1 < p')%R.
Proof.
  destruct (complex_total 0%R 1%R Rplus Rmult Rminus Ropp Rdiv Rinv Rltb Rroot R_ordered Rroot_ok Rroot_total) as (TA & TS).
  destruct (C63_complex_refuted 0%R 1%R Rplus Rmult Rminus Ropp Rdiv Rinv Rltb Rroot R_ordered Rroot_ok c0_ c1_ cadd_ cmul_ csub_ copp_ cdiv_ cinv_ ceq_ cconj_ cof_ cabs_ csqrt_ fst SCC (fun _ => eq_refl)
    (0, 1)%R (1/2)%R Rroot_total TA TS) as (x' & p' & E & _ & R' & L).
  - unfold cmul, copp, c1; cbn [fst snd]; f_equal; ring.
  - unfold cconj, copp; cbn [fst snd]; f_equal; ring.
  - apply Rltb_lt; lra.
  - apply Rltb_lt; lra.
  - exists x', p'. split; [exact E|]. split; [exact R'|]. apply Rltb_lt. exact L.
Qed.

Print Assumptions C63_real_matrices.
Print Assumptions C63_hermitian_matrices.
