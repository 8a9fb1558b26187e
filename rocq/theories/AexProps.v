(** C67: what applyExp computes. *)
From Coq Require Import List Arith Bool ZArith Lia Ring Field QArith Qcanon Reals Lra.
From Verif Require Import Util BigSum DavSpec DavProofs DavProps GmSpec GmModel GmProofs GmProps GmRealProps PadeSpec PadeModel PadeProofs PadeNorm PadeProps AexSpec AexModel AexProofs.
Import ListNotations.
Local Open Scope outcome_scope.
Local Open Scope nat_scope.

Section C67.
(** F: the real numbers; T: the scalars, real or complex; V: the tensors; H: the linear operator. *)
Context {F : Type} (f0 f1 : F) (fadd fmul fsub : F -> F -> F) (fopp : F -> F) (fdiv : F -> F -> F) (finv : F -> F)
  (fltb : F -> F -> bool) (OF : ordered_field f0 f1 fadd fmul fsub fopp fdiv finv fltb)
  (fsqrt : F -> outcome F) (SQ : sqrt_ok f0 fmul fltb fsqrt).
Context {T : Type} (t0 t1 : T) (tadd tmul tsub : T -> T -> T) (topp : T -> T) (tdiv : T -> T -> T) (tinv : T -> T).
Context (FT : field_theory t0 t1 tadd tmul tsub topp tdiv tinv eq).
Context (tconj : T -> T) (emb : F -> T) (re : T -> F) (NU : numbers f0 f1 fadd fmul t0 t1 tadd tmul tconj emb re).
Context (tabs : T -> F) (AB : abs_ok f0 fadd fmul fltb t0 t1 tadd tmul tabs f1).
Context (tlog : F -> Z) (gesv : nat -> @mat T -> @mat T -> outcome (@mat T)) (debug : bool).
Context {V : Type} (vadd : V -> V -> V) (vscale : T -> V -> V) (dot : V -> V -> T) (H : V -> V).
Context (SP : space f0 fltb t0 tadd tmul tconj emb vadd vscale dot) (LI : linear vadd vscale dot H).
Notation applyExp := (applyExp f0 f1 fadd fmul fsub fopp finv fltb fsqrt t0 t1 tadd tmul tsub topp tinv emb re tabs tlog gesv debug vadd vscale dot H).
Notation expMatrix := (expMatrix f0 fadd fltb t0 t1 tadd tmul tsub topp tinv tabs tlog gesv debug).
Notation comb := (comb t0 vadd vscale). Notation krylov := (krylov t0 vadd vscale). Notation mpoly := (mpoly t0 t1 tadd tmul).
Notation tN := (ofN t0 t1 tadd).
Let RUN : forall phi tau tol cutoff max_iter res e, applyExp phi tau tol cutoff max_iter = Ok (res, e) -> _ :=
  run_apply f0 f1 fadd fmul fsub fopp fdiv finv fltb OF fsqrt SQ t0 t1 tadd tmul tsub topp tdiv tinv FT tconj emb re NU tabs tlog gesv debug vadd vscale dot H SP.
Add Field FTap : FT.

(** If the Lanczos sequence is exhausted after m products with H, the result is sum_i X(i,0) u_i, where X is
    expMatrix(M,tau) for an m x m matrix M, and for every polynomial p of degree below m, p(H)phi is the same
    combination with p(M) for X. If H is self-adjoint the u_i are orthogonal and as long as phi: so the result differs from
    p(H)phi by |phi| times what the first columns of expMatrix(M,tau) and p(M) differ by. *)
Theorem C67_exhausted : forall phi tau tol cutoff max_iter res m beta,
  applyExp phi tau tol cutoff max_iter = Ok (res, Exhausted m beta) ->
  1 <= m <= max_iter /\ (fltb beta f0 = false -> fltb beta cutoff = true) /\ exists (M : nat -> nat -> F) X u,
    (forall i j, M i j = M j i) /\
    expMatrix m m (fun i j => emb (M i j)) tau 6 = Ok X /\ veq dot res (comb m (fun i => X i 0) u) /\
    (forall p, length p <= m -> veq dot (comb m (fun i => mpoly m p (fun i j => emb (M i j)) i 0) u) (krylov H phi p)) /\
    (self_adjoint dot H -> forall i j, i < m -> j < m -> dot (u i) (u j) = if i =? j then dot phi phi else t0).
Proof.
  intros phi tau tol co mi res m b E. destruct (RUN _ _ _ _ _ _ _ E) as (nrm & EN & NZ & D). cbn [done] in D.
  destruct D as (it & B & vs & v0 & v1 & beta & X & -> & L & I & ON & ER & EB & EX & ->).
  split; [lia|]. split; [intros P; unfold fabsv in EB; now rewrite P in EB|].
  eexists. exists X, (us emb vscale nrm vs). split; [|split; [exact EX|split; [|split]]].
  - intros i j. unfold upd2. assert (SY : forall a b, B a b = B b a) by (destruct I; assumption). rewrite (SY i j). now rewrite andb_comm.
  - intros g. eapply us_assemble; eassumption.
  - intros p Hp. eapply exhausted_poly; eassumption.
  - intros SA. eapply us_orth; try eassumption. exact (ON SA).
Qed.

(** If the loop is left by the convergence test after m products, the same holds with a matrix M of m+2 rows, of which
    the first m+1 count, for every polynomial of degree at most m (its last row and its column m are zero but for a 1
    where they meet, as in Expokit, so that X(m+1,0) estimates the error of X(m,0)); and unless m is MaxIter, the estimate of the error from
    phi1 = |phi| |X(m,0)| and phi2 = |phi| |X(m+1,0)| |H u_(m-1)|/|u_(m-1)| is below ErrGoal. *)
Theorem C67_stopped : forall phi tau tol cutoff max_iter res m,
  applyExp phi tau tol cutoff max_iter = Ok (res, Stopped m) ->
  2 <= m <= max_iter /\ exists (M : nat -> nat -> F) X u,
    (forall j, j < m + 2 -> M (m + 1) j = if j =? m then f1 else f0) /\ (forall i, i < m + 2 -> M i m = if i =? m + 1 then f1 else f0) /\
    expMatrix (m + 2) (m + 2) (fun i j => emb (M i j)) tau 6 = Ok X /\ veq dot res (comb (m + 1) (fun i => X i 0) u) /\
    (forall p, length p <= m + 1 -> veq dot (comb (m + 1) (fun i => mpoly (m + 2) p (fun i j => emb (M i j)) i 0) u) (krylov H phi p)) /\
    (self_adjoint dot H -> forall i j, i < m + 1 -> j < m + 1 -> dot (u i) (u j) = if i =? j then dot phi phi else t0) /\
    (m < max_iter -> exists nrm av, vnorm fsqrt re dot phi = Ok nrm /\
       dot (H (u (m - 1))) (H (u (m - 1))) = tmul (dot phi phi) (emb (fmul av av)) /\
       let phi1 := tabs (tmul (emb nrm) (X m 0)) in
       let phi2 := tabs (tmul (emb nrm) (tmul (X (m + 1)%nat 0) (emb av))) in
       let ten := ofN f0 f1 fadd 10 in
       (fltb (fmul ten phi2) phi1 = true -> fltb phi2 tol = true) /\
       (fltb (fmul ten phi2) phi1 = false -> fltb phi2 phi1 = true -> fltb (fmul (fmul phi1 phi2) (finv (fsub phi1 phi2))) tol = true) /\
       (fltb (fmul ten phi2) phi1 = false -> fltb phi2 phi1 = false -> fltb phi1 tol = true)).
Proof.
  intros phi tau tol co mi res m E. destruct (RUN _ _ _ _ _ _ _ E) as (nrm & EN & NZ & D). cbn [done] in D.
  destruct D as (it & B & vs & v0 & v1 & beta & X & av & -> & L1 & L & I & ON & EX & -> & EA & EE).
  split; [lia|]. replace (S it + 2) with (S (S (S it))) by lia. replace (S it + 1) with (S (S it)) by lia. replace (S it - 1) with it by lia.
  pose proof (in_far _ _ _ _ _ _ _ _ _ _ _ _ _ _ _ _ _ I) as FAR. pose proof (in_new _ _ _ _ _ _ _ _ _ _ _ _ _ _ _ _ _ I) as NEW. pose proof (in_sym _ _ _ _ _ _ _ _ _ _ _ _ _ _ _ _ _ I) as SYM.
  eexists. exists X, (us emb vscale nrm vs). split; [|split; [|split; [exact EX|split; [|split; [|split]]]]].
  - intros j Hj. unfold upd2. rewrite Nat.eqb_refl. destruct (Nat.eqb_spec j (S it)) as [->|N]; [reflexivity|]. cbn [andb].
    destruct (Nat.eqb_spec (S (S it)) it); [lia|]. cbn [andb]. destruct (Nat.eq_dec j (S (S it))) as [->|]; [apply NEW; lia|apply FAR; lia].
  - intros i Hi. unfold upd2. rewrite Nat.eqb_refl, !andb_true_r. destruct (Nat.eqb_spec i (S (S it))); [reflexivity|].
    destruct (Nat.eqb_spec i it); [reflexivity|]. destruct (Nat.eq_dec i (S it)) as [->|]; [apply NEW; lia|]. rewrite SYM. apply FAR. lia.
  - intros g. eapply us_assemble; eassumption.
  - intros p Hp. eapply stopped_poly; eassumption.
  - intros SA. eapply us_orth; try eassumption. exact (ON SA).
  - intros Lm. specialize (EE Lm). exists nrm, av. split; [exact EN|]. split.
    + assert (EH : dot (H (vs it)) (H (vs it)) = emb (fmul av av)) by (eapply (norm_sq f0); eassumption).
      rewrite <- EH. eapply us_image; eassumption.
    + cbv zeta. unfold estimate in EE. split; [|split].
      * intros Q. now rewrite Q in EE.
      * intros Q Q'. now rewrite Q, Q' in EE.
      * intros Q Q'. now rewrite Q, Q' in EE.
Qed.

(** If the sequence is exhausted exactly, the result is that of the [6/6] Pade approximant r of exp with scaling and
    squaring for H itself: r(tau H/2^ns)^(2^ns) phi. *)
Theorem C67_exact : gesv_ok t0 t1 tadd tmul gesv -> forall phi tau tol cutoff max_iter res m,
  applyExp phi tau tol cutoff max_iter = Ok (res, Exhausted m f0) ->
  exists ns num den, pade t0 t1 tadd tmul tinv 6 num den /\
    rational_power t0 vadd vscale dot H (tmul (tinv (tN (2 ^ ns))) tau) num den (2 ^ ns) phi res.
Proof.
  intros GO phi tau tol co mi res m E. destruct (RUN _ _ _ _ _ _ _ E) as (nrm & EN & NZ & D). cbn [done] in D.
  destruct D as (it & B & vs & v0 & v1 & beta & X & -> & L & I & ON & ER & EB & EX & ->).
  apply unfold_exp in EX. destruct EX as (_ & _ & _ & EX).
  eapply (expPade_ok t0 t1 tadd tmul tsub topp tdiv tinv FT) in EX; [|assumption|lia]. destruct EX as (ns & Y & _ & _ & HY & HX). cbv zeta in HY.
  exists ns. do 2 eexists. split; [exact (pade_coefs t0 t1 tadd tmul tsub topp tdiv tinv FT (char0 f0 f1 fadd fmul fsub fopp fdiv finv fltb OF t0 t1 tadd tmul tabs AB) 6)|].
  assert (R : rational_power t0 vadd vscale dot H (tmul (tinv (tN (2 ^ ns))) tau) (num t0 t1 tadd tmul tinv 6) (den t0 t1 tadd tmul topp tinv 6) (2 ^ ns) phi (comb (S it) (fun i => X i 0) (us emb vscale nrm vs))).
  { eapply exhausted_pade; try eassumption; [|lia|].
    - intros i g Hi. eapply exhausted_rel; eassumption.
    - eapply us_0; eassumption. }
  destruct R as (u & R1 & R2 & R3). exists u. split; [exact R1|]. split; [|exact R3]. intros g. rewrite (R2 g). symmetry. eapply us_assemble; eassumption.
Qed.

(** For a self-adjoint H and an imaginary tau (real-time evolution) the norm is then kept, exactly. *)
Theorem C67_norm : gesv_ok t0 t1 tadd tmul gesv -> self_adjoint dot H -> forall phi tau tol cutoff max_iter res m beta,
  tconj tau = topp tau -> applyExp phi tau tol cutoff max_iter = Ok (res, Exhausted m beta) -> dot res res = dot phi phi.
Proof.
  intros GO SA phi tau tol co mi res m b Ht E. destruct (C67_exhausted _ _ _ _ _ _ _ _ E) as (Hm & _ & M & X & u & SY & EX & ER & _ & ON).
  specialize (ON SA).
  assert (U : unitary t0 t1 tadd tmul tconj m X).
  { eapply (C66_unitary f0 f1 fadd fmul fsub fopp fdiv finv fltb OF t0 t1 tadd tmul tsub topp tdiv tinv FT tabs AB); [exact GO|exact (nu_conj _ _ _ _ _ _ _ _ _ _ _ NU)| |exact EX].
    intros i j Hi Hj. cbv beta. rewrite (cj_mul _ _ _ _ (nu_conj _ _ _ _ _ _ _ _ _ _ _ NU)), Ht, (SY j i), (proj2 (nu_real _ _ _ _ _ _ _ _ _ _ _ NU (emb (M i j))) (ex_intro _ (M i j) eq_refl)). ring. }
  destruct U as [U _]. transitivity (dot (comb m (fun i => X i 0) u) (comb m (fun i => X i 0) u)).
  - eapply veq_self; eassumption.
  - eapply comb_norm; try eassumption. lia.
Qed.

(** For a self-adjoint H on a space of dimension at most n there are at most n products. *)
Theorem C67_dimension : self_adjoint dot H -> forall n, dimension_at_most t0 t1 dot n ->
  forall phi tau tol cutoff max_iter res m, (forall beta, applyExp phi tau tol cutoff max_iter = Ok (res, Exhausted m beta) -> m <= n) /\
    (applyExp phi tau tol cutoff max_iter = Ok (res, Stopped m) -> m < n).
Proof.
  assert (SUB : forall n k v, n <= k -> orthonormal t0 t1 dot k v -> orthonormal t0 t1 dot n v) by (intros n k v L ON i j Hi Hj; apply ON; lia).
  intros SA n DIM phi tau tol co mi res m. split.
  - intros b E. destruct (RUN _ _ _ _ _ _ _ E) as (nrm & EN & NZ & D). cbn [done] in D.
    destruct D as (it & B & vs & v0 & v1 & beta & X & -> & _ & _ & ON & _). destruct (le_lt_dec (S it) n) as [L|L]; [assumption|].
    exfalso. exact (DIM vs (SUB _ _ _ L (ON SA))).
  - intros E. destruct (RUN _ _ _ _ _ _ _ E) as (nrm & EN & NZ & D). cbn [done] in D.
    destruct D as (it & B & vs & v0 & v1 & beta & X & av & -> & _ & _ & _ & ON & _). destruct (le_lt_dec n (S it)) as [L|L]; [|assumption].
    exfalso. apply (DIM vs). apply (SUB (S n) (S (S it))); [lia|exact (ON SA)].
Qed.

(** The result is phi itself, not exp(tau H)phi, if MaxIter is 0, or if it is 1 and phi is no eigenvector to within
    NormCutoff; with a larger MaxIter this way out is not taken. *)
Theorem C67_one_iteration_refuted : forall phi tau tol cutoff max_iter res e, applyExp phi tau tol cutoff max_iter = Ok (res, e) ->
  (max_iter = 0 -> res = phi) /\ (max_iter = 1 -> (exists beta, e = Exhausted 1 beta) \/ res = phi) /\ (2 <= max_iter -> e <> Unchanged).
Proof.
  intros phi tau tol co mi res e E. destruct (RUN _ _ _ _ _ _ _ E) as (nrm & _ & _ & D). destruct e as [|m b|m]; cbn [done] in D.
  - destruct D as [-> D]. repeat split; auto. intros L. lia.
  - destruct D as (it & B & vs & v0 & v1 & beta & X & -> & L & _). repeat split; intros; try lia; try discriminate.
    left. exists b. f_equal. lia.
  - destruct D as (it & B & vs & v0 & v1 & beta & X & av & -> & L1 & L & _). repeat split; intros; try lia; discriminate.
Qed.

(** exp(0 H)phi = phi is not what it computes: with tau = 0 and MaxIter above 1 it does not return, since expMatrix does not
    (C66_zero_refuted). Neither does it for a phi = 0. *)
Theorem C67_zero_time_refuted : forall phi tol cutoff max_iter res e, 2 <= max_iter -> applyExp phi t0 tol cutoff max_iter <> Ok (res, e).
Proof.
  intros phi tol co mi res e L2 E. pose proof (proj2 (proj2 (C67_one_iteration_refuted _ _ _ _ _ _ _ E)) L2) as NU'.
  assert (Z : forall n M X, 1 <= n -> expMatrix n n M t0 6 <> Ok X).
  { intros n M X Hn Q. rewrite (C66_zero_refuted f0 f1 fadd fmul fsub fopp fdiv finv fltb OF t0 t1 tadd tmul tsub topp tinv tabs AB tlog gesv debug) in Q.
    - destruct debug; discriminate Q.
    - assumption.
    - lia.
    - intros; ring. }
  destruct e as [|m b|m]; [now apply NU'| |].
  - destruct (C67_exhausted _ _ _ _ _ _ _ _ E) as (Hm & _ & M & X & u & _ & EX & _). exact (Z _ _ _ (proj1 Hm) EX).
  - destruct (C67_stopped _ _ _ _ _ _ _ E) as (Hm & M & X & u & _ & _ & EX & _). apply (Z _ _ _) in EX; [assumption|lia].
Qed.
Theorem C67_zero_vector_refuted : forall phi tau tol cutoff max_iter r, vzero t0 dot phi -> applyExp phi tau tol cutoff max_iter <> Ok r.
Proof.
  intros phi tau tol co mi [res e] Z E. destruct (RUN _ _ _ _ _ _ _ E) as (nrm & EN & NZ & _).
  assert (En : dot phi phi = emb (fmul nrm nrm)) by (eapply (norm_sq f0); eassumption). rewrite (Z phi) in En.
  apply NZ. assert (E0 : fmul nrm nrm = f0).
  { rewrite <- (nu_re _ _ _ _ _ _ _ _ _ _ _ NU (fmul nrm nrm)), <- En, <- (nu_0 _ _ _ _ _ _ _ _ _ _ _ NU). apply (nu_re _ _ _ _ _ _ _ _ _ _ _ NU). }
  pose proof (of_field _ _ _ _ _ _ _ _ _ OF) as FF.
  destruct (fltb f0 nrm) eqn:P.
  - pose proof (of_mul _ _ _ _ _ _ _ _ _ OF _ _ P P) as Q. rewrite E0, (of_irrefl _ _ _ _ _ _ _ _ _ OF) in Q. discriminate.
  - apply (of_total _ _ _ _ _ _ _ _ _ OF); [|assumption]. eapply norm_sq; eassumption.
Qed.
End C67.

(** The absolute value of an ordered field. *)
Section Abs.
Context {F : Type} (f0 f1 : F) (fadd fmul fsub : F -> F -> F) (fopp : F -> F) (fdiv : F -> F -> F) (finv : F -> F)
  (fltb : F -> F -> bool) (OF : ordered_field f0 f1 fadd fmul fsub fopp fdiv finv fltb).
Let FF := of_field _ _ _ _ _ _ _ _ _ OF.
Add Field FFap : FF.
Definition sabs (x : F) : F := if fltb x f0 then fopp x else x.
Notation le x y := (fltb y x = false).
Lemma opp_pos x : fltb x f0 = true -> fltb f0 (fopp x) = true.
Proof. intros L. pose proof (of_add _ _ _ _ _ _ _ _ _ OF _ _ (fopp x) L) as Q. replace (fadd x (fopp x)) with f0 in Q by ring. now replace (fadd f0 (fopp x)) with (fopp x) in Q by ring. Qed.
Lemma sabs_le x : le x (sabs x).
Proof.
  unfold sabs. destruct (fltb x f0) eqn:L; [|apply (of_irrefl _ _ _ _ _ _ _ _ _ OF)].
  apply (lt_le _ _ _ _ _ _ _ _ _ OF). apply (of_trans _ _ _ _ _ _ _ _ _ OF _ f0); [assumption|now apply opp_pos].
Qed.
Lemma opp_le x : le f0 x -> le (fopp x) f0.
Proof.
  intros L. destruct (fltb f0 (fopp x)) eqn:Q; [|reflexivity]. pose proof (of_add _ _ _ _ _ _ _ _ _ OF _ _ x Q) as Q'.
  replace (fadd (fopp x) x) with f0 in Q' by ring. replace (fadd f0 x) with x in Q' by ring. congruence.
Qed.
Lemma sabs_opp_le x : le (fopp x) (sabs x).
Proof.
  unfold sabs. destruct (fltb x f0) eqn:L; [apply (of_irrefl _ _ _ _ _ _ _ _ _ OF)|].
  apply (le_trans _ _ _ _ _ _ _ _ _ OF _ f0); [now apply opp_le|assumption].
Qed.
Lemma sabs_pos x : le f0 (sabs x).
Proof. unfold sabs. destruct (fltb x f0) eqn:L; [|assumption]. apply (lt_le _ _ _ _ _ _ _ _ _ OF). now apply opp_pos. Qed.
Lemma sabs_unique x y : le f0 y -> fmul y y = fmul x x -> sabs x = y.
Proof.
  intros L E. apply (root_unique f0 f1 fadd fmul fsub fopp fdiv finv fltb (fun _ => UB) OF); [intros ? ? Q; discriminate Q|apply sabs_pos|assumption|].
  rewrite E. unfold sabs. destruct (fltb x f0); ring.
Qed.
Lemma sabs_sq x : fmul (sabs x) (sabs x) = fmul x x.
Proof. unfold sabs. destruct (fltb x f0); ring. Qed.
Lemma le_mul x y : le f0 x -> le f0 y -> le f0 (fmul x y).
Proof.
  intros Hx Hy. destruct (le_cases _ _ _ _ _ _ _ _ _ OF f0 x Hx) as [Px|<-]; [|replace (fmul f0 y) with f0 by ring; apply (of_irrefl _ _ _ _ _ _ _ _ _ OF)].
  destruct (le_cases _ _ _ _ _ _ _ _ _ OF f0 y Hy) as [Py|<-]; [|replace (fmul x f0) with f0 by ring; apply (of_irrefl _ _ _ _ _ _ _ _ _ OF)].
  apply (lt_le _ _ _ _ _ _ _ _ _ OF). now apply (of_mul _ _ _ _ _ _ _ _ _ OF).
Qed.
Lemma le_one : le f0 f1.
Proof. replace f1 with (fmul f1 f1) by ring. apply (sq_nonneg _ _ _ _ _ _ _ _ _ OF). Qed.
Lemma sabs_ok : abs_ok f0 fadd fmul fltb f0 f1 fadd fmul sabs f1.
Proof.
  split.
  - apply sabs_pos.
  - intros x. split.
    + unfold sabs. destruct (fltb x f0); intros E; [|assumption]. transitivity (fopp (fopp x)); [ring|]. rewrite E. ring.
    + intros ->. apply sabs_unique; [apply (of_irrefl _ _ _ _ _ _ _ _ _ OF)|reflexivity].
  - apply sabs_unique; [apply le_one|reflexivity].
  - intros x y. apply sabs_unique; [apply le_mul; apply sabs_pos|].
    transitivity (fmul (fmul (sabs x) (sabs x)) (fmul (sabs y) (sabs y))); [ring|]. rewrite !sabs_sq. ring.
  - intros x y. unfold sabs at 3. destruct (fltb (fadd x y) f0).
    + replace (fopp (fadd x y)) with (fadd (fopp x) (fopp y)) by ring. apply (le_add2 _ _ _ _ _ _ _ _ _ OF); apply sabs_opp_le.
    + apply (le_add2 _ _ _ _ _ _ _ _ _ OF); apply sabs_le.
  - intros n. apply sabs_unique; [|reflexivity]. induction n as [|n IH]; cbn [ofN]; [apply (of_irrefl _ _ _ _ _ _ _ _ _ OF)|].
    replace f0 with (fadd f0 f0) by ring. apply (le_add2 _ _ _ _ _ _ _ _ _ OF); replace (fadd f0 f0) with f0 by ring; [exact IH|apply le_one].
Qed.
Lemma real_numbers : numbers f0 f1 fadd fmul f0 f1 fadd fmul (fun x => x) (fun x => x) (fun x => x).
Proof. constructor; try reflexivity; [constructor; reflexivity|]. intros x. split; [intros _; exists x|]; reflexivity. Qed.
End Abs.

(** The hypotheses hold for the rational numbers, with columns of two numbers as vectors: H swaps the two entries, phi = (1,0),
    tau = 1; the sequence is exhausted exactly after two products. *)
Definition qcramer (n : nat) (Q P : @mat Qc) : outcome (@mat Qc) :=
  match n with
  | 2 => let d := (Q 0%nat 0%nat * Q 1%nat 1%nat - Q 0%nat 1%nat * Q 1%nat 0%nat)%Qc in
         if Qc_eq_dec d 0 then Err
         else Ok (fun i j => if (i =? 0)%nat then ((Q 1%nat 1%nat * P 0%nat j - Q 0%nat 1%nat * P 1%nat j) / d)%Qc else ((Q 0%nat 0%nat * P 1%nat j - Q 1%nat 0%nat * P 0%nat j) / d)%Qc)
  | _ => Err
  end.
Lemma qcramer_ok : gesv_ok 0%Qc 1%Qc Qcplus Qcmult qcramer.
Proof.
  intros n Q P X H. destruct n as [|[|[|n]]]; cbn [qcramer] in H; try discriminate H.
  destruct (Qc_eq_dec _ _) as [|N] in H; [discriminate H|]. injection H as <-. split.
  - intros i j Hi Hj. unfold mmul. cbn [bsum]. cbn [Nat.eqb].
    destruct (two_cases i Hi) as [-> | ->]; field; assumption.
  - set (d := (Q 0%nat 0%nat * Q 1%nat 1%nat - Q 0%nat 1%nat * Q 1%nat 0%nat)%Qc) in *.
    exists (fun i j => ((if (i =? 0)%nat then if (j =? 0)%nat then Q 1%nat 1%nat else - Q 0%nat 1%nat else if (j =? 0)%nat then - Q 1%nat 0%nat else Q 0%nat 0%nat) / d)%Qc).
    intros i j Hi Hj. unfold mmul, mone. cbn [bsum].
    destruct (two_cases i Hi) as [-> | ->]; destruct (two_cases j Hj) as [-> | ->]; cbn [Nat.eqb]; unfold d in *; field; assumption.
Qed.
Definition swapM (i j : nat) : Qc := if i =? j then 0%Qc else 1%Qc.
Definition qapplyExp (M : nat -> nat -> Qc) :=
  applyExp 0%Qc 1%Qc Qcplus Qcmult Qcminus Qcopp Qcinv Qcltb qsqrt 0%Qc 1%Qc Qcplus Qcmult Qcminus Qcopp Qcinv (fun x => x) (fun x => x) (sabs 0%Qc Qcopp Qcltb)
    (fun _ => (-1)%Z) qcramer false (cplus Qcplus) (cscale Qcmult) (cdot 0%Qc Qcplus Qcmult (fun x => x) 2) (matvec 0%Qc Qcplus Qcmult 2 M).
Definition exit_of (o : outcome ((nat -> Qc) * exit Qc)) : exit Qc := match o with Ok (_, e) => e | _ => Unchanged end.
Definition ran (o : outcome ((nat -> Qc) * exit Qc)) : bool := match o with Ok _ => true | _ => false end.
Definition res_of (o : outcome ((nat -> Qc) * exit Qc)) : nat -> Qc := match o with Ok (r, _) => r | _ => fun _ => 0%Qc end.
Lemma got_exit o : ran o = true -> o = Ok (res_of o, exit_of o).
Proof. now destruct o as [[r e]| |]. Qed.
Example C67_nonvacuous : exists res, qapplyExp swapM (rcol 1 0) 1%Qc (qc 1 100) (qc 1 1000) 5 = Ok (res, Exhausted 2 0%Qc) /\
  exists ns num den, pade 0%Qc 1%Qc Qcplus Qcmult Qcinv 6 num den /\
    rational_power 0%Qc (cplus Qcplus) (cscale Qcmult) (cdot 0%Qc Qcplus Qcmult (fun x => x) 2) (matvec 0%Qc Qcplus Qcmult 2 swapM)
      (/ ofN 0%Qc 1%Qc Qcplus (2 ^ ns) * 1)%Qc num den (2 ^ ns) (rcol 1 0) res.
Proof.
  set (o := qapplyExp swapM (rcol 1 0) 1%Qc (qc 1 100) (qc 1 1000) 5).
  assert (E : o = Ok (res_of o, Exhausted 2 0%Qc)) by (transitivity (Ok (res_of o, exit_of o)); [apply got_exit; vm_compute; reflexivity|f_equal; f_equal; vm_compute; reflexivity]).
  exists (res_of o). split; [exact E|].
  destruct (C63_columns 0%Qc 1%Qc Qcplus Qcmult Qcminus Qcopp Qcdiv Qcinv Qcltb Qc_ordered 0%Qc 1%Qc Qcplus Qcmult Qcminus Qcopp Qcdiv Qcinv (feq Qcltb) (fun x => x) (fun x => x)
     (fabs 0%Qc Qcopp Qcltb) qsqrt (C63_real_scalars 0%Qc 1%Qc Qcplus Qcmult Qcminus Qcopp Qcdiv Qcinv Qcltb qsqrt Qc_ordered qsqrt_ok) 2 swapM) as (SP & LI & _).
  eapply C67_exact; [exact Qc_ordered|exact qsqrt_ok| |apply real_numbers|exact (sabs_ok _ _ _ _ _ _ _ _ _ Qc_ordered)|exact SP|exact LI|exact qcramer_ok|exact E].
  exact Qcft.
Qed.

(** Real-time evolution: for the complex numbers (over the real numbers of Coq), H = 2 and phi = 1 of one entry, and tau = i,
    it returns a number of absolute value 1. *)
Notation CR := (@cplx R). Notation "'z0'" := (c0 0%R). Notation "'z1'" := (c1 0%R 1%R). Notation zadd := (cadd Rplus). Notation zmul := (cmul Rplus Rmult Rminus).
Notation zsub := (csub Rminus). Notation zopp := (copp Ropp). Notation zinv := (GmProps.cinv Rplus Rmult Ropp Rinv). Notation zdiv := (GmProps.cdiv Rplus Rmult Rminus Ropp Rinv).
Notation zconj := (cconj Ropp). Notation zof := (cof 0%R).
Definition zscalars := C63_complex_scalars 0%R 1%R Rplus Rmult Rminus Ropp Rdiv Rinv Rltb Rroot R_ordered Rroot_ok.
Definition zabs (z : CR) : R := sqrt (fst z * fst z + snd z * snd z).
Lemma zabs_ok : abs_ok 0%R Rplus Rmult Rltb z0 z1 zadd zmul zabs 1%R.
Proof.
  assert (P : forall a b : R, (0 <= a * a + b * b)%R) by (intros a b; pose proof (Rle_0_sqr a); pose proof (Rle_0_sqr b); unfold Rsqr in *; lra).
  split.
  - intros x. apply Rltb_le, sqrt_pos.
  - intros [a b]. unfold zabs. cbn [fst snd]. split.
    + intros E. apply sqrt_eq_0 in E; [|apply P]. destruct (Rplus_sqr_eq_0 a b E) as [-> ->]. reflexivity.
    + intros E. injection E as -> ->. replace (0 * 0 + 0 * 0)%R with 0%R by ring. apply sqrt_0.
  - unfold zabs, c1. cbn [fst snd]. replace (1 * 1 + 0 * 0)%R with 1%R by ring. apply sqrt_1.
  - intros [a b] [c d]. unfold zabs, cmul. cbn [fst snd]. rewrite <- sqrt_mult by apply P. f_equal. ring.
  - intros [a b] [c d]. apply Rltb_le. unfold zabs, cadd. cbn [fst snd].
    pose proof (triangle 0 0 (a + c) (b + d) a b) as T. unfold dist_euc, Rsqr in T.
    replace ((0 - (a + c)) * (0 - (a + c)) + (0 - (b + d)) * (0 - (b + d)))%R with ((a + c) * (a + c) + (b + d) * (b + d))%R in T by ring.
    replace ((0 - a) * (0 - a) + (0 - b) * (0 - b))%R with (a * a + b * b)%R in T by ring.
    replace ((a - (a + c)) * (a - (a + c)) + (b - (b + d)) * (b - (b + d)))%R with (c * c + d * d)%R in T by ring. exact T.
  - intros n. assert (E : ofN z0 z1 zadd n = (ofN 0%R 1%R Rplus n, 0%R)).
    { induction n as [|n IH]; [reflexivity|]. cbn [ofN]. rewrite IH. unfold cadd, c1. cbn [fst snd]. f_equal. ring. }
    rewrite E. unfold zabs. cbn [fst snd]. replace (ofN 0%R 1%R Rplus n * ofN 0%R 1%R Rplus n + 0 * 0)%R with (Rsqr (ofN 0%R 1%R Rplus n)) by (unfold Rsqr; ring).
    apply sqrt_Rsqr. clear E. induction n as [|n IH]; cbn [ofN]; lra.
Qed.
Lemma znumbers : numbers 0%R 1%R Rplus Rmult z0 z1 zadd zmul zconj zof fst.
Proof.
  pose proof zscalars as S. destruct S. constructor; try assumption; [|reflexivity]. constructor; try assumption.
  unfold cconj, c1. cbn [fst snd]. f_equal. lra.
Qed.
Definition zgesv (n : nat) (Q P : @mat CR) : outcome (@mat CR) :=
  match n with
  | 1 => if Req_EM_T (fst (Q 0 0)) 0 then if Req_EM_T (snd (Q 0 0)) 0 then Err else Ok (fun i j => zdiv (P 0 j) (Q 0 0)) else Ok (fun i j => zdiv (P 0 j) (Q 0 0))
  | _ => Err
  end.
Lemma zgesv_case Q P : (Q 0 0 = z0 /\ zgesv 1 Q P = Err) \/ (Q 0 0 <> z0 /\ zgesv 1 Q P = Ok (fun i j => zdiv (P 0 j) (Q 0 0))).
Proof.
  cbn [zgesv]. destruct (Q 0 0) as [a b]. cbn [fst snd]. destruct (Req_EM_T a 0) as [->|N]; [destruct (Req_EM_T b 0) as [->|N]|].
  - left. split; reflexivity.
  - right. split; [|reflexivity]. intros E. now injection E.
  - right. split; [|reflexivity]. intros E. now injection E.
Qed.
Add Field zfield : (sc_field _ _ _ _ _ _ _ _ _ _ _ _ _ _ _ _ _ _ zscalars).
Lemma zgesv_ok : gesv_ok z0 z1 zadd zmul zgesv.
Proof.
  intros n Q P X H. destruct n as [|[|n]]; try discriminate H. destruct (zgesv_case Q P) as [[_ E]|[N E]]; rewrite E in H; [discriminate H|].
  injection H as <-. split.
  - intros i j Hi Hj. replace i with 0 by lia. unfold mmul. cbn [bsum]. field. exact N.
  - exists (fun _ _ => zinv (Q 0 0)). intros i j Hi Hj. replace i with 0 by lia. replace j with 0 by lia. unfold mmul, mone. cbn [bsum Nat.eqb]. field. exact N.
Qed.
Lemma zgesv_total : gesv_total z0 zadd zmul zgesv 1.
Proof.
  intros Q P H. destruct (zgesv_case Q P) as [[Z _]|[_ E]]; [|rewrite E; eexists; reflexivity]. exfalso.
  assert (K : z1 = z0).
  { apply (H (fun _ => z1)) with (i := 0); [|lia]. intros i Hi. replace i with 0 by lia. cbn [bsum]. rewrite Z. ring. }
  injection K. lra.
Qed.
Definition zapplyExp :=
  applyExp 0%R 1%R Rplus Rmult Rminus Ropp Rinv Rltb Rroot z0 z1 zadd zmul zsub zopp zinv zof fst zabs rlog zgesv false
    (cplus zadd) (cscale zmul) (cdot z0 zadd zmul zconj 1) (matvec z0 zadd zmul 1 (fun _ _ => (2%R, 0%R))).
Lemma root_val a b : (a = b * b)%R -> (0 <= b)%R -> Rroot a = Ok b.
Proof. intros -> P. unfold Rroot. destruct (Rlt_dec (b * b) 0) as [L|_]; [pose proof (Rle_0_sqr b); unfold Rsqr in *; lra|]. f_equal. now apply sqrt_square. Qed.
Lemma Rltb_T x y : (x < y)%R -> Rltb x y = true. Proof. apply Rltb_lt. Qed.
Lemma Rltb_F x y : (y <= x)%R -> Rltb x y = false. Proof. apply Rltb_le. Qed.
Example C67_nonvacuous_real_time : exists res, zapplyExp (fun _ => z1) (0%R, 1%R) (1 / 100)%R (1 / 100)%R 5 = Ok (res, Exhausted 1 0%R) /\
  self_adjoint (cdot z0 zadd zmul zconj 1) (matvec z0 zadd zmul 1 (fun _ _ => (2%R, 0%R))) /\
  zmul (zconj (res 0)) (res 0) = z1.
Proof.
  destruct (C63_columns 0%R 1%R Rplus Rmult Rminus Ropp Rdiv Rinv Rltb R_ordered z0 z1 zadd zmul zsub zopp zdiv zinv _ zconj zof _ _ zscalars 1 (fun _ _ => (2%R, 0%R)))
    as (SP & LI & _ & SA).
  assert (SA' : self_adjoint (cdot z0 zadd zmul zconj 1) (matvec z0 zadd zmul 1 (fun _ _ => (2%R, 0%R)))).
  { apply SA. intros i j _ _. unfold cconj. cbn [fst snd]. f_equal. ring. }
  assert (E : exists res, zapplyExp (fun _ => z1) (0%R, 1%R) (1 / 100)%R (1 / 100)%R 5 = Ok (res, Exhausted 1 0%R)).
  { generalize 4 as left. intros left. unfold zapplyExp, applyExp. unfold vnorm at 1.
    rewrite (root_val _ 1%R) by (first [lra | unfold cdot; cbn [bsum]; unfold cmul, cadd, cconj, c0, c1; cbn [fst snd]; ring]). cbn [obind].
    unfold fis0 at 1. rewrite (Rltb_T 0 1) by lra. cbn [negb andb]. cbn [lanczos].
    set (v1 := cscale zmul (zof (/ 1)%R) (fun _ => z1)). assert (V : v1 = fun _ => zmul (zof (/1)%R) z1) by reflexivity.
    set (w := matvec z0 zadd zmul 1 (fun _ _ => (2%R, 0%R)) v1).
    assert (W : w 0 = (2%R, 0%R)) by (unfold w, matvec, v1, cscale; cbn [bsum]; unfold cmul, cadd, cof, c0, c1; cbn [fst snd]; f_equal; field).
    assert (V0 : v1 0 = z1) by (unfold v1, cscale, cmul, cof, c1; cbn [fst snd]; f_equal; field).
    unfold vnorm at 1. rewrite (root_val _ 2%R) by (first [lra | unfold cdot; cbn [bsum]; rewrite W; unfold cmul, cadd, cconj, c0; cbn [fst snd]; ring]). cbn [obind].
    set (al := fst (cdot z0 zadd zmul zconj 1 w v1)).
    assert (A : al = 2%R) by (unfold al, cdot; cbn [bsum]; rewrite W, V0; unfold cmul, cadd, cconj, c0, c1; cbn [fst snd]; ring).
    cbn [Nat.ltb Nat.leb]. unfold vnorm at 1.
    rewrite (root_val _ 0%R) by (first [lra | unfold cdot, vsub, cplus, cscale; cbn [bsum]; rewrite W, V0, A; unfold cmul, cadd, cconj, copp, cof, c0, c1; cbn [fst snd]; ring]). cbn [obind].
    rewrite (Rltb_F 0 0) by lra. rewrite (Rltb_T 0 (1 / 100)) by lra.
    destruct (C66_total 0%R 1%R Rplus Rmult Rminus Ropp Rdiv Rinv Rltb R_ordered z0 z1 zadd zmul zsub zopp zdiv zinv (sc_field _ _ _ _ _ _ _ _ _ _ _ _ _ _ _ _ _ _ zscalars) zabs zabs_ok
              rlog zgesv false rlog_ok 1 zgesv_total (fun i j => zof (upd2 (fun _ _ => 0%R) 0 0 al i j)) (0%R, 1%R) 6 0 0) as [X HX]; [lia|lia| |lia|].
    - unfold upd2. cbn [Nat.eqb andb]. rewrite A. unfold cmul, cof, c0. cbn [fst snd]. intros Q. injection Q. lra.
    - cbn [Nat.add]. rewrite HX. cbn [obind]. eexists. reflexivity. }
  destruct E as [res E]. exists res. split; [exact E|]. split; [exact SA'|].
  assert (N : cdot z0 zadd zmul zconj 1 res res = cdot z0 zadd zmul zconj 1 (fun _ => z1) (fun _ => z1)).
  { eapply C67_norm; [exact R_ordered|exact Rroot_ok|exact (sc_field _ _ _ _ _ _ _ _ _ _ _ _ _ _ _ _ _ _ zscalars)|exact znumbers|exact zabs_ok|exact SP|exact LI|exact zgesv_ok|exact SA'| |exact E].
    unfold cconj, copp. cbn [fst snd]. f_equal; ring. }
  unfold cdot in N. cbn [bsum] in N. transitivity (zadd z0 (zmul (zconj (res 0)) (res 0))); [ring|]. rewrite N.
  unfold cadd, cmul, cconj, c0, c1. cbn [fst snd]. f_equal; ring.
Qed.
Print Assumptions C67_exhausted. Print Assumptions C67_stopped. Print Assumptions C67_exact. Print Assumptions C67_norm. Print Assumptions C67_dimension.
Print Assumptions C67_one_iteration_refuted. Print Assumptions C67_zero_time_refuted. Print Assumptions C67_zero_vector_refuted.
Print Assumptions C67_nonvacuous. Print Assumptions C67_nonvacuous_real_time.
