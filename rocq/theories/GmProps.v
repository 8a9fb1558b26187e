(** C63: gmres solves the system to the tolerance it claims and never makes the residual worse. *)
From Coq Require Import List Arith Bool Lia Ring Field.
From Coq Require Import ZArith QArith QArith.Qcanon.
From Verif Require Import Util BigSum DavSpec DavModel DavProofs DavProps GmSpec GmModel GmProofs.
Import ListNotations.
Local Open Scope outcome_scope.
Local Open Scope nat_scope.

Section Props.
Context {F : Type} (f0 f1 : F) (fadd fmul fsub : F -> F -> F) (fopp : F -> F) (fdiv : F -> F -> F) (finv : F -> F)
  (fltb : F -> F -> bool) (fsqrt : F -> outcome F)
  (OF : ordered_field f0 f1 fadd fmul fsub fopp fdiv finv fltb) (FS : sqrt_ok f0 fmul fltb fsqrt).
Let FT := of_field _ _ _ _ _ _ _ _ _ OF.
Add Field FFgp : FT.
Notation le x y := (fltb y x = false).
Notation lt x y := (fltb x y = true).

Section Any.
Context {T : Type} (t0 t1 : T) (tadd tmul tsub : T -> T -> T) (topp : T -> T) (tdiv : T -> T -> T) (tinv : T -> T)
  (teqb : T -> T -> bool) (tconj : T -> T) (emb : F -> T) (tabs : T -> outcome F) (tsqrt : T -> outcome T) (re : T -> F)
  (SC : scalars f0 f1 fadd fmul fltb t0 t1 tadd tmul tsub topp tdiv tinv teqb tconj emb tabs tsqrt) (RE : forall x, re (emb x) = x).
Let TF : field_theory t0 t1 tadd tmul tsub topp tdiv tinv eq := sc_field _ _ _ _ _ _ _ _ _ _ _ _ _ _ _ _ _ _ SC.
Let TR : ring_theory t0 t1 tadd tmul tsub topp eq := F_R TF.
Add Field TTgp : TF.
Section Space.
Context {V : Type} (vadd : V -> V -> V) (vscale : T -> V -> V) (dot : V -> V -> T) (A : V -> V).
Notation gmres := (gmres f1 fmul finv fltb fsqrt t0 t1 tadd tmul tsub topp tinv teqb tconj emb tabs tsqrt re vadd vscale dot A).
Notation residual2 := (residual2 t1 topp emb vadd vscale dot A).
Notation goal2 := (goal2 f0 emb dot fmul).
Notation vsub := (vsub t1 topp vadd vscale).
Notation krylov := (krylov t0 vadd vscale A).

Section Linear.
Context (SP : space f0 fltb t0 tadd tmul tconj emb vadd vscale dot) (LI : linear vadd vscale dot A)
  (CASE : (forall t, tconj t = t) \/ self_adjoint dot A).

(** A real system, or a complex one with a Hermitian operator, and ErrGoal > 0: whatever gmres returns has a
    residual that is not above that of the vector it was given, and if a convergence test ended it the residual is
    at most ErrGoal |b| (ErrGoal for b = 0). *)
Theorem C63_residual : forall fuel m max_iter tol b x x' conv p q, lt f0 tol ->
  gmres fuel m max_iter tol b x = Ok (x', conv) -> residual2 b x p -> goal2 tol b q ->
  exists p', residual2 b x' p' /\ le p' p /\ (conv = true -> le p' q).
Proof. exact (gmres_residual f0 f1 fadd fmul fsub fopp fdiv finv fltb fsqrt OF FS t0 t1 tadd tmul tsub topp tdiv tinv teqb tconj emb tabs tsqrt re SC RE vadd vscale dot A SP LI CASE). Qed.

(** Without restart: a run that used all its MaxIter steps has the smallest residual of all vectors
    x + c_0 r + c_1 A r + ... + c_(MaxIter-1) A^(MaxIter-1) r, where r = b - A x. *)
Theorem C63_minimal : forall fuel m max_iter tol b x x' cs p' p, lt f0 tol -> max_iter <= m ->
  gmres fuel m max_iter tol b x = Ok (x', false) -> length cs <= max_iter ->
  residual2 b x' p' -> residual2 b (vadd x (krylov (vsub b (A x)) cs)) p -> le p' p.
Proof. exact (gmres_minimal f0 f1 fadd fmul fsub fopp fdiv finv fltb fsqrt OF FS t0 t1 tadd tmul tsub topp tdiv tinv teqb tconj emb tabs tsqrt re SC RE vadd vscale dot A SP LI CASE). Qed.

Section Total.
Context (FT_ : forall x, le f0 x -> exists r, fsqrt x = Ok r) (TA : forall x, exists a, tabs x = Ok a)
  (TS : forall x, le f0 x -> exists y, tsqrt (emb x) = Ok y) (INJ : injective t0 dot A).
(** Where the square roots exist and A is injective: gmres with RestartIter >= 1 and ErrGoal > 0 returns, after at
    most MaxIter+1 rounds. *)
Theorem C63_returns : forall fuel m max_iter tol b x, lt f0 tol -> 0 < m -> max_iter < fuel -> exists o, gmres fuel m max_iter tol b x = Ok o.
Proof. exact (gmres_total f0 f1 fadd fmul fsub fopp fdiv finv fltb fsqrt OF FS t0 t1 tadd tmul tsub topp tdiv tinv teqb tconj emb tabs tsqrt re SC RE vadd vscale dot A SP LI CASE FT_ (fun x => TA (emb x)) TS INJ). Qed.
(** If also RestartIter and MaxIter are at least the dimension of the space, it converges, for every b and every
    starting vector. *)
Theorem C63_solves : forall N fuel m max_iter tol b x, dimension_at_most t0 t1 dot N -> lt f0 tol -> N <= m -> N <= max_iter -> 0 < fuel ->
  exists x', gmres fuel m max_iter tol b x = Ok (x', true).
Proof. intros N fuel m max_iter tol b x D. exact (gmres_solves f0 f1 fadd fmul fsub fopp fdiv finv fltb fsqrt OF FS t0 t1 tadd tmul tsub topp tdiv tinv teqb tconj emb tabs tsqrt re SC RE vadd vscale dot A SP LI CASE FT_ (fun x => TA (emb x)) TS N INJ D fuel m max_iter tol b x). Qed.
End Total.
End Linear.

(** RestartIter = 0: unless the vector given is already a solution within the tolerance, gmres never returns. *)
Theorem C63_restart_zero_refuted : (forall v, exists p, dot v v = emb p /\ le f0 p) -> forall fuel max_iter tol b x p q, 0 < max_iter -> residual2 b x p -> goal2 tol b q -> lt q p ->
  forall o, gmres fuel 0 max_iter tol b x <> Ok o.
Proof.
  intros SPP fuel max_iter tol b x p q HM R G L o H. unfold GmModel.gmres in H.
  destruct (vnorm fsqrt re dot b) as [nb| |] eqn:EN; cbn [obind] in H; try discriminate. destruct (vnorm fsqrt re dot (vsub b (A x))) as [beta| |] eqn:EB; cbn [obind] in H; try discriminate.
  assert (VN : forall v r, vnorm fsqrt re dot v = Ok r -> dot v v = emb (fmul r r) /\ le f0 r).
  { intros v r Hv. unfold GmModel.vnorm in Hv. destruct (SPP v) as (z & E & _). rewrite E, RE in Hv. destruct (FS _ _ Hv) as (E2 & P). split; [rewrite E2; exact E|exact P]. }
  set (normb := if teqb (emb nb) t0 then f1 else nb) in *.
  assert (K : fltb tol (fmul beta (finv normb)) = true).
  { destruct (fltb tol (fmul beta (finv normb))) eqn:ET; [reflexivity|]. exfalso. destruct (VN _ _ EB) as (EB2 & PB). destruct (VN _ _ EN) as (EN2 & PN2).
    unfold GmSpec.residual2 in R. rewrite EB2 in R. apply (sc_inj _ _ _ _ _ _ _ _ _ _ _ _ _ _ _ _ _ _ SC) in R. subst p.
    destruct G as (n & En & G1 & G2). rewrite EN2 in En. apply (sc_inj _ _ _ _ _ _ _ _ _ _ _ _ _ _ _ _ _ _ SC) in En. subst n.
    assert (PB' : lt f0 normb).
    { unfold normb. destruct (teqb (emb nb) t0) eqn:E.
      - destruct (le_cases _ _ _ _ _ _ _ _ _ OF f0 (fmul f1 f1) (sq_nonneg _ _ _ _ _ _ _ _ _ OF f1)) as [Q|Q]; [replace (fmul f1 f1) with f1 in Q by ring; exact Q|]. exfalso. apply (F_1_neq_0 FT). rewrite Q. ring.
      - destruct (le_cases _ _ _ _ _ _ _ _ _ OF f0 nb PN2) as [Q|<-]; [exact Q|]. rewrite (sc_0 _ _ _ _ _ _ _ _ _ _ _ _ _ _ _ _ _ _ SC), (proj2 (sc_eqb _ _ _ _ _ _ _ _ _ _ _ _ _ _ _ _ _ _ SC t0 t0) eq_refl) in E. discriminate. }
    pose proof (div_le f0 f1 fadd fmul fsub fopp fdiv finv fltb OF _ _ _ PB' ET) as X.
    pose proof (sq_le f0 f1 fadd fmul fsub fopp fdiv finv fltb OF _ _ PB X) as Y.
    assert (Z : fmul (fmul tol normb) (fmul tol normb) = q).
    { unfold normb. destruct (teqb (emb nb) t0) eqn:E.
      - apply (sc_eqb _ _ _ _ _ _ _ _ _ _ _ _ _ _ _ _ _ _ SC) in E. rewrite <- (sc_0 _ _ _ _ _ _ _ _ _ _ _ _ _ _ _ _ _ _ SC) in E. apply (sc_inj _ _ _ _ _ _ _ _ _ _ _ _ _ _ _ _ _ _ SC) in E. subst nb. rewrite G2 by ring. ring.
      - rewrite G1; [ring|]. intros Q. apply (le_zero_mul f0 f1 fadd fmul fltb t0 t1 tadd tmul tsub topp tdiv tinv teqb tconj emb tabs tsqrt SC) in Q. subst nb. rewrite (sc_0 _ _ _ _ _ _ _ _ _ _ _ _ _ _ _ _ _ _ SC), (proj2 (sc_eqb _ _ _ _ _ _ _ _ _ _ _ _ _ _ _ _ _ _ SC t0 t0) eq_refl) in E. discriminate. }
    rewrite Z in Y. rewrite Y in L. discriminate. }
  rewrite K in H. cbn [negb] in H. revert H. apply (restart_zero f0 f1 fadd fmul fsub fopp fdiv finv fltb fsqrt OF); assumption.
Qed.
End Space.

(** Columns of n numbers, and matrices. *)
Definition cdot (n : nat) (u v : nat -> T) : T := bsum t0 tadd n (fun i => tmul (tconj (u i)) (v i)).
Definition cplus (u v : nat -> T) : nat -> T := fun i => tadd (u i) (v i).
Definition cscale (c : T) (v : nat -> T) : nat -> T := fun i => tmul c (v i).
Definition matvec (n : nat) (M : nat -> nat -> T) (v : nat -> T) : nat -> T := fun i => bsum t0 tadd n (fun j => tmul (M i j) (v j)).
Notation bs_S := (bs_S t0 tadd).
Let bext := bsum_ext t0 tadd.
Let bzero := bsum_zero t0 t1 tadd tmul tsub topp TR.
Let badd := bsum_add t0 t1 tadd tmul tsub topp TR.
Let bmul := bsum_mul_l t0 t1 tadd tmul tsub topp TR.
Let bswap := bsum_swap t0 t1 tadd tmul tsub topp TR.
Let cjm := sc_conj_mul _ _ _ _ _ _ _ _ _ _ _ _ _ _ _ _ _ _ SC.
Let cjj := sc_conj_conj _ _ _ _ _ _ _ _ _ _ _ _ _ _ _ _ _ _ SC.
Lemma col_conj : forall n f, tconj (bsum t0 tadd n f) = bsum t0 tadd n (fun i => tconj (f i)).
Proof. exact (bs_conj f0 f1 fadd fmul fltb t0 t1 tadd tmul tsub topp tdiv tinv teqb tconj emb tabs tsqrt SC). Qed.
Lemma dom : forall x y, tmul x y = t0 -> x = t0 \/ y = t0.
Proof.
  intros x y H. destruct (teqb x t0) eqn:E; [left; apply (sc_eqb _ _ _ _ _ _ _ _ _ _ _ _ _ _ _ _ _ _ SC); exact E|right].
  assert (N : x <> t0) by (intros Q; apply (sc_eqb _ _ _ _ _ _ _ _ _ _ _ _ _ _ _ _ _ _ SC) in Q; rewrite Q in E; discriminate).
  transitivity (tmul (tinv x) (tmul x y)); [field; exact N|]. rewrite H. ring.
Qed.
Lemma col_space : forall n, space f0 fltb t0 tadd tmul tconj emb cplus cscale (cdot n).
Proof.
  intros n. constructor; unfold cdot, cplus, cscale.
  - intros u v w. rewrite <- badd. apply bext. intros i _. ring.
  - intros c u v. rewrite <- bmul. apply bext. intros i _. ring.
  - intros u v. rewrite col_conj. apply bext. intros i _. rewrite cjm, cjj. ring.
  - intros v. apply (sum_pos f0 f1 fadd fmul fsub fopp fdiv finv fltb OF t0 t1 tadd tmul tsub topp tdiv tinv teqb tconj emb tabs tsqrt SC). intros k _. apply (sc_pos _ _ _ _ _ _ _ _ _ _ _ _ _ _ _ _ _ _ SC).
  - intros v H u. unfold cdot. apply bzero. intros i Hi.
    pose proof (sum_zero f0 f1 fadd fmul fsub fopp fdiv finv fltb OF t0 t1 tadd tmul tsub topp tdiv tinv teqb tconj emb tabs tsqrt SC n v H i Hi) as Z.
    apply dom in Z. destruct Z as [Z| ->]; [|ring].
    assert (Z2 : v i = t0) by (rewrite <- (cjj (v i)), Z; apply (cj_0 f0 f1 fadd fmul fltb t0 t1 tadd tmul tsub topp tdiv tinv teqb tconj emb tabs tsqrt SC)). rewrite Z2. ring.
Qed.
Lemma col_linear : forall n M, linear cplus cscale (cdot n) (matvec n M).
Proof.
  intros n M. constructor; unfold veq, cdot, cplus, cscale, matvec.
  - intros v w u. apply bext. intros i _. f_equal. rewrite <- badd. apply bext. intros j _. ring.
  - intros c v u. apply bext. intros i _. f_equal. rewrite <- bmul. apply bext. intros j _. ring.
  - intros v w H u. assert (E : forall j, j < n -> v j = w j).
    { intros j Hj. pose proof (H (fun k => if j =? k then t1 else t0)) as Q. 
      rewrite (bext n _ (fun i => tmul (v i) (if j =? i then t1 else t0))) in Q by (intros i _; destruct (j =? i); [rewrite (cj_1 f0 f1 fadd fmul fltb t0 t1 tadd tmul tsub topp tdiv tinv teqb tconj emb tabs tsqrt SC)|rewrite (cj_0 f0 f1 fadd fmul fltb t0 t1 tadd tmul tsub topp tdiv tinv teqb tconj emb tabs tsqrt SC)]; ring).
      rewrite (bext n (fun i => tmul (tconj _) (w i)) (fun i => tmul (w i) (if j =? i then t1 else t0))) in Q by (intros i _; destruct (j =? i); [rewrite (cj_1 f0 f1 fadd fmul fltb t0 t1 tadd tmul tsub topp tdiv tinv teqb tconj emb tabs tsqrt SC)|rewrite (cj_0 f0 f1 fadd fmul fltb t0 t1 tadd tmul tsub topp tdiv tinv teqb tconj emb tabs tsqrt SC)]; ring).
      rewrite !(bs_pick f0 f1 fadd fmul fltb t0 t1 tadd tmul tsub topp tdiv tinv teqb tconj emb tabs tsqrt SC) in Q by exact Hj. exact Q. }
    apply bext. intros i _. f_equal. apply bext. intros j Hj. rewrite E by exact Hj. reflexivity.
Qed.
Lemma col_self : forall n M, (forall i j, i < n -> j < n -> M i j = tconj (M j i)) -> self_adjoint (cdot n) (matvec n M).
Proof.
  intros n M H u v. unfold cdot, matvec.
  rewrite (bext n (fun i => tmul (tconj (u i)) _) (fun i => bsum t0 tadd n (fun j => tmul (tconj (u i)) (tmul (M i j) (v j))))) by (intros i _; rewrite bmul; reflexivity).
  rewrite bswap. apply bext. intros j Hj. rewrite col_conj. rewrite (TR.(Rmul_comm)). rewrite <- bmul. apply bext. intros i Hi. rewrite cjm, (H i j) by assumption. ring.
Qed.
Lemma col_dim : forall n, dimension_at_most t0 t1 (cdot n) n.
Proof.
  intros n v ON.
  assert (B : forall i, i < n -> exists p, emb f1 = tadd (bsum t0 tadd (S n) (fun k => tmul (tconj (v k i)) (v k i))) (emb p) /\ le f0 p).
  { intros i Hi. set (e := fun j => if i =? j then t1 else t0).
    assert (D : forall u, cdot n u e = tconj (u i)).
    { intros u. unfold cdot, e. exact (bs_pick f0 f1 fadd fmul fltb t0 t1 tadd tmul tsub topp tdiv tinv teqb tconj emb tabs tsqrt SC n i (fun k => tconj (u k)) Hi). }
    destruct (bessel f0 f1 fadd fmul fltb t0 t1 tadd tmul tsub topp tdiv tinv teqb tconj emb tabs tsqrt SC cplus cscale (cdot n) (col_space n) (S n) v e f1 ON) as (p & E & P).
    { rewrite D. unfold e. rewrite Nat.eqb_refl. rewrite (sc_1 _ _ _ _ _ _ _ _ _ _ _ _ _ _ _ _ _ _ SC). apply (cj_1 f0 f1 fadd fmul fltb t0 t1 tadd tmul tsub topp tdiv tinv teqb tconj emb tabs tsqrt SC). }
    exists p. split; [|exact P]. rewrite E. f_equal. apply bext. intros k _. rewrite !D, cjj. ring. }
  assert (S1 : forall m, m <= n -> exists p, bsum t0 tadd m (fun _ => t1) = tadd (bsum t0 tadd m (fun i => bsum t0 tadd (S n) (fun k => tmul (tconj (v k i)) (v k i)))) (emb p) /\ le f0 p).
  { induction m as [|m IH]; intros Hm.
    - exists f0. rewrite (sc_0 _ _ _ _ _ _ _ _ _ _ _ _ _ _ _ _ _ _ SC). split; [cbn; ring|apply (le_refl _ _ _ _ _ _ _ _ _ OF)].
    - destruct IH as (p & E & P); [lia|]. destruct (B m ltac:(lia)) as (q & E2 & Q). exists (fadd p q). split.
      + cbn [bsum]. cbn [bsum] in E, E2. rewrite E. rewrite (sc_1 _ _ _ _ _ _ _ _ _ _ _ _ _ _ _ _ _ _ SC) in E2. rewrite E2, (sc_add _ _ _ _ _ _ _ _ _ _ _ _ _ _ _ _ _ _ SC). ring.
      + replace f0 with (fadd f0 f0) by ring. apply (le_add2 _ _ _ _ _ _ _ _ _ OF); assumption. }
  destruct (S1 n (le_n n)) as (p & E & P). rewrite bswap in E.
  rewrite (bext (S n) (fun j => bsum t0 tadd n (fun i => tmul (tconj (v j i)) (v j i))) (fun _ => t1)) in E.
  2:{ intros k Hk. pose proof (ON k k Hk Hk) as Q. rewrite Nat.eqb_refl in Q. exact Q. }
  cbn [bsum] in E. assert (Z : emb (fadd f1 p) = emb f0).
  { rewrite (sc_add _ _ _ _ _ _ _ _ _ _ _ _ _ _ _ _ _ _ SC), (sc_1 _ _ _ _ _ _ _ _ _ _ _ _ _ _ _ _ _ _ SC), (sc_0 _ _ _ _ _ _ _ _ _ _ _ _ _ _ _ _ _ _ SC).
    transitivity (tsub (tadd (tadd (bsum t0 tadd n (fun _ => t1)) t1) (emb p)) (bsum t0 tadd n (fun _ => t1))); [ring|]. rewrite <- E. ring. }
  apply (sc_inj _ _ _ _ _ _ _ _ _ _ _ _ _ _ _ _ _ _ SC) in Z.
  assert (P1 : lt f0 f1).
  { destruct (le_cases _ _ _ _ _ _ _ _ _ OF f0 (fmul f1 f1) (sq_nonneg _ _ _ _ _ _ _ _ _ OF f1)) as [Q|Q]; [replace (fmul f1 f1) with f1 in Q by ring; exact Q|]. exfalso. apply (F_1_neq_0 FT). rewrite Q. ring. }
  pose proof (le_add _ _ _ _ _ _ _ _ _ OF f0 p f1 P) as Q. replace (fadd p f1) with f0 in Q by (rewrite <- Z; ring). replace (fadd f0 f1) with f1 in Q by ring. rewrite P1 in Q. discriminate.
Qed.
(** Columns of n numbers are such a space, matrices are such operators, and the dimension is at most n. *)
Theorem C63_columns : forall n M, space f0 fltb t0 tadd tmul tconj emb cplus cscale (cdot n) /\ linear cplus cscale (cdot n) (matvec n M) /\
  dimension_at_most t0 t1 (cdot n) n /\ ((forall i j, i < n -> j < n -> M i j = tconj (M j i)) -> self_adjoint (cdot n) (matvec n M)).
Proof. intros n M. split; [apply col_space|]. split; [apply col_linear|]. split; [apply col_dim|apply col_self]. Qed.

(** A complex system whose operator is not Hermitian: i x = 1 from x = 0, whose solution is -i. gmres returns i/5, whose
    residual 6/5 is larger than the 1 it started with: the loop projects with the conjugate of the overlap. *)
Theorem C63_complex_refuted : forall ii tol, (forall x, le f0 x -> exists r, fsqrt x = Ok r) -> (forall x, exists a, tabs x = Ok a) ->
  (forall x, le f0 x -> exists y, tsqrt (emb x) = Ok y) ->
  tmul ii ii = topp t1 -> tconj ii = topp ii -> lt f0 tol -> lt tol f1 ->
  exists x' p', gmres f1 fmul finv fltb fsqrt t0 t1 tadd tmul tsub topp tinv teqb tconj emb tabs tsqrt re tadd tmul (fun u v => tmul (tconj u) v) (tmul ii) 2 1 1 tol t1 t0 = Ok (x', false) /\
    residual2 t1 topp emb tadd tmul (fun u v => tmul (tconj u) v) (tmul ii) t1 t0 f1 /\
    residual2 t1 topp emb tadd tmul (fun u v => tmul (tconj u) v) (tmul ii) t1 x' p' /\ lt f1 p'.
Proof.
  intros ii tol TF_ TA TS II CI PT PL.
  set (dot := fun u v => tmul (tconj u) v). set (two := fadd f1 f1). set (five := fadd two (fadd two f1)). set (six := fadd five f1).
  pose proof (sc_0 _ _ _ _ _ _ _ _ _ _ _ _ _ _ _ _ _ _ SC) as S0. pose proof (sc_1 _ _ _ _ _ _ _ _ _ _ _ _ _ _ _ _ _ _ SC) as S1.
  pose proof (sc_add _ _ _ _ _ _ _ _ _ _ _ _ _ _ _ _ _ _ SC) as SA. pose proof (sc_mul _ _ _ _ _ _ _ _ _ _ _ _ _ _ _ _ _ _ SC) as SM. pose proof (sc_inj _ _ _ _ _ _ _ _ _ _ _ _ _ _ _ _ _ _ SC) as SI.
  pose proof (sc_eqb _ _ _ _ _ _ _ _ _ _ _ _ _ _ _ _ _ _ SC) as SE. pose proof (sc_conj_add _ _ _ _ _ _ _ _ _ _ _ _ _ _ _ _ _ _ SC) as CA.
  pose proof (cj_0 f0 f1 fadd fmul fltb t0 t1 tadd tmul tsub topp tdiv tinv teqb tconj emb tabs tsqrt SC) as C0. pose proof (cj_1 f0 f1 fadd fmul fltb t0 t1 tadd tmul tsub topp tdiv tinv teqb tconj emb tabs tsqrt SC) as C1.
  pose proof (cj_opp f0 f1 fadd fmul fltb t0 t1 tadd tmul tsub topp tdiv tinv teqb tconj emb tabs tsqrt SC) as CO. pose proof (cj_emb f0 f1 fadd fmul fltb t0 t1 tadd tmul tsub topp tdiv tinv teqb tconj emb tabs tsqrt SC) as CE.
  pose proof (emb_inv f0 f1 fadd fmul fsub fopp fdiv finv fltb OF t0 t1 tadd tmul tsub topp tdiv tinv teqb tconj emb tabs tsqrt SC) as EI.
  assert (P1 : lt f0 f1) by (apply (of_trans _ _ _ _ _ _ _ _ _ OF _ tol); assumption).
  assert (PA : forall a c, lt f0 a -> lt f0 c -> lt f0 (fadd a c)).
  { intros a c Ha Hc. apply (of_trans _ _ _ _ _ _ _ _ _ OF _ c); [exact Hc|]. pose proof (of_add _ _ _ _ _ _ _ _ _ OF _ _ c Ha) as Q. replace (fadd f0 c) with c in Q by ring. exact Q. }
  assert (P2 : lt f0 two) by (apply PA; assumption). assert (P5 : lt f0 five) by (repeat apply PA; assumption). assert (P6 : lt f0 six) by (apply PA; assumption).
  pose proof (lt_neq _ _ _ _ _ _ _ _ _ OF _ P2) as N2. pose proof (lt_neq _ _ _ _ _ _ _ _ _ OF _ P5) as N5. pose proof (lt_neq _ _ _ _ _ _ _ _ _ OF _ P1) as N1.
  assert (NE : forall x, x <> f0 -> emb x <> t0) by (intros x H E; apply H; apply SI; rewrite E; symmetry; exact S0).
  assert (EF : forall x, x <> t0 -> teqb x t0 = false) by (intros x H; destruct (teqb x t0) eqn:E; [apply SE in E; contradiction|reflexivity]).
  assert (UN : forall a c, le f0 a -> lt f0 c -> fmul a a = fmul c c -> a = c).
  { intros a c Ha Hc E. assert (Z : fmul (fsub a c) (fadd a c) = f0) by (transitivity (fsub (fmul a a) (fmul c c)); [ring|rewrite E; ring]).
    assert (NZ : fadd a c <> f0). { apply (lt_neq _ _ _ _ _ _ _ _ _ OF). apply (lt_le_trans _ _ _ _ _ _ _ _ _ OF _ c); [exact Hc|]. pose proof (le_add _ _ _ _ _ _ _ _ _ OF f0 a c Ha) as Q. replace (fadd f0 c) with c in Q by ring. exact Q. }
    transitivity (fadd (fmul (fmul (fsub a c) (fadd a c)) (finv (fadd a c))) c); [field; exact NZ|]. rewrite Z. ring. }
  assert (SQ : forall a, lt f0 a -> fsqrt (fmul a a) = Ok a).
  { intros a Ha. destruct (TF_ (fmul a a) (sq_nonneg _ _ _ _ _ _ _ _ _ OF a)) as (r & Er). rewrite Er. f_equal. destruct (FS _ _ Er) as (E & P). apply UN; assumption. }
  assert (AB : forall x a, lt f0 a -> tmul (tconj x) x = emb (fmul a a) -> tabs x = Ok a).
  { intros x a Ha E. destruct (TA x) as (r & Er). rewrite Er. f_equal. destruct (sc_abs _ _ _ _ _ _ _ _ _ _ _ _ _ _ _ _ _ _ SC _ _ Er) as (E2 & P). rewrite E in E2. apply SI in E2. apply UN; assumption. }
  assert (VN : forall v a, lt f0 a -> tmul (tconj v) v = emb (fmul a a) -> vnorm fsqrt re dot v = Ok a).
  { intros v a Ha E. unfold GmModel.vnorm, dot. rewrite E, RE. apply SQ. exact Ha. }
  assert (DV : forall x y, y <> t0 -> tdivo t0 tmul tinv teqb x y = Ok (tmul x (tinv y))) by (intros x y H; unfold GmModel.tdivo; rewrite EF by exact H; reflexivity).
  assert (E2 : emb two = tadd t1 t1) by (unfold two; rewrite SA, S1; reflexivity).
  pose proof (NE _ N2) as NE2. pose proof (NE _ N5) as NE5.
  (* the root of 3/4 *)
  set (q34 := fmul (fadd two f1) (finv (fmul two two))).
  assert (P34 : lt f0 q34).
  { unfold q34. assert (PI : lt f0 (finv (fmul two two))).
    { replace (finv (fmul two two)) with (fmul (fmul two two) (fmul (finv (fmul two two)) (finv (fmul two two)))) by (field; exact N2).
      assert (P4 : lt f0 (fmul two two)) by (apply (of_mul _ _ _ _ _ _ _ _ _ OF); assumption). apply (of_mul _ _ _ _ _ _ _ _ _ OF); [exact P4|].
      destruct (le_cases _ _ _ _ _ _ _ _ _ OF f0 _ (sq_nonneg _ _ _ _ _ _ _ _ _ OF (finv (fmul two two)))) as [Q|Q]; [exact Q|exfalso]. apply N1.
      transitivity (fmul (fmul (fmul two two) (fmul two two)) (fmul (finv (fmul two two)) (finv (fmul two two)))); [field; exact N2|rewrite <- Q; ring]. }
    apply (of_mul _ _ _ _ _ _ _ _ _ OF); [apply PA; assumption|exact PI]. }
  destruct (TS q34 (lt_le _ _ _ _ _ _ _ _ _ OF _ _ P34)) as (y & Ey).
  destruct (sc_sqrt _ _ _ _ _ _ _ _ _ _ _ _ _ _ _ _ _ _ SC _ _ (lt_le _ _ _ _ _ _ _ _ _ OF _ _ P34) Ey) as (r & -> & Er & Pr).
  assert (Nr : r <> f0) by (intros ->; apply (lt_neq _ _ _ _ _ _ _ _ _ OF _ P34); rewrite <- Er; ring). pose proof (NE _ Nr) as NEr.
  assert (Eq : emb q34 = tadd t1 (tmul (tmul (topp ii) (tinv (emb two))) (tmul (topp ii) (tinv (emb two))))).
  { unfold q34. rewrite SM, EI by (intros Q; apply N2; apply SI; rewrite S0; apply (le_zero_mul f0 f1 fadd fmul fltb t0 t1 tadd tmul tsub topp tdiv tinv teqb tconj emb tabs tsqrt SC) in Q; rewrite Q; exact S0).
    rewrite SM, SA, S1. transitivity (tadd t1 (tmul (tmul ii ii) (tmul (tinv (emb two)) (tinv (emb two))))); [rewrite II, E2; field; rewrite <- E2; split; [exact NE2|]; intros Q; apply dom in Q; tauto|ring]. }
  exists (tmul ii (tinv (emb five))), (fmul (fmul six (finv five)) (fmul six (finv five))).
  assert (X5 : emb five = tadd (emb two) (tadd (emb two) t1)) by (unfold five; rewrite !SA, S1; reflexivity).
  assert (X6 : emb six = tadd (emb five) t1) by (unfold six; rewrite SA, S1; reflexivity).
  assert (RR : tadd t1 (tmul (topp t1) (tmul ii (tmul ii (tinv (emb five))))) = emb (fmul six (finv five))).
  { rewrite SM, EI by exact N5. rewrite X6. transitivity (tsub t1 (tmul (tmul ii ii) (tinv (emb five)))); [ring|]. rewrite II. field. exact NE5. }
  assert (P65 : lt f1 (fmul six (finv five))).
  { assert (K : fmul six (finv five) = fadd (finv five) f1) by (unfold six; field; exact N5). rewrite K.
    assert (PI : lt f0 (finv five)). { replace (finv five) with (fmul five (fmul (finv five) (finv five))) by (field; exact N5). apply (of_mul _ _ _ _ _ _ _ _ _ OF); [exact P5|].
      destruct (le_cases _ _ _ _ _ _ _ _ _ OF f0 _ (sq_nonneg _ _ _ _ _ _ _ _ _ OF (finv five))) as [Q|Q]; [exact Q|exfalso]. apply N1. transitivity (fmul (fmul five five) (fmul (finv five) (finv five))); [field; exact N5|rewrite <- Q; ring]. }
    pose proof (of_add _ _ _ _ _ _ _ _ _ OF _ _ f1 PI) as Q. replace (fadd f0 f1) with f1 in Q by ring. exact Q. }
  assert (P65' : lt f0 (fmul six (finv five))) by (apply (of_trans _ _ _ _ _ _ _ _ _ OF _ f1); assumption).
  split; [|split; [|split]].
  2:{ unfold GmSpec.residual2, GmSpec.vsub, dot. replace (tadd t1 (tmul (topp t1) (tmul ii t0))) with t1 by ring. rewrite C1, S1. ring. }
  2:{ unfold GmSpec.residual2, GmSpec.vsub, dot. rewrite RR, CE, (SM (fmul six (finv five)) (fmul six (finv five))). reflexivity. }
  2:{ apply (of_trans _ _ _ _ _ _ _ _ _ OF _ (fmul six (finv five))); [exact P65|]. pose proof (lt_mul_pos _ _ _ _ _ _ _ _ _ OF _ _ _ P65' P65) as Q. replace (fmul (fmul six (finv five)) f1) with (fmul six (finv five)) in Q by ring. exact Q. }
  assert (GR : generate_rotation fltb t0 t1 tadd tmul tinv teqb tabs tsqrt (topp ii) (emb two) = Ok (tmul (tmul (topp ii) (tinv (emb two))) (tmul t1 (tinv (emb r))), tmul t1 (tinv (emb r)))).
  { unfold GmModel.generate_rotation. rewrite (EF _ NE2). rewrite (AB (emb two) two P2) by (rewrite CE, SM; reflexivity). cbn [obind].
    rewrite (AB (topp ii) f1 P1) by (rewrite CO, CI, SM, S1; transitivity (topp (tmul ii ii)); [ring|rewrite II; ring]). cbn [obind].
    assert (L12 : fltb f1 two = true) by (unfold two; pose proof (of_add _ _ _ _ _ _ _ _ _ OF _ _ f1 P1) as Q; replace (fadd f0 f1) with f1 in Q by ring; exact Q). rewrite L12.
    rewrite (DV _ _ NE2). cbn [obind]. rewrite <- Eq, Ey. cbn [obind]. rewrite (DV _ _ NEr). cbn [obind]. reflexivity. }
  set (cs := tmul (tmul (topp ii) (tinv (emb two))) (tmul t1 (tinv (emb r)))) in *. set (sn := tmul t1 (tinv (emb r))) in *.
  assert (CR : tconj (tinv (emb r)) = tinv (emb r)) by (rewrite <- EI, CE by exact Nr; reflexivity).
  assert (C2 : tconj (tinv (emb two)) = tinv (emb two)) by (rewrite <- EI, CE by exact N2; reflexivity).
  assert (Cs : tconj sn = sn) by (unfold sn; rewrite cjm, C1, CR; reflexivity). assert (Cc : tconj cs = topp cs) by (unfold cs; rewrite !cjm, CO, CI, C2; fold sn; rewrite Cs; ring).
  assert (CY : forall st0, gv st0 0 = Some t1 -> gs st0 0 = t1 -> gs st0 1 = t0 -> exists st', 
    cycle fmul finv fltb fsqrt t0 t1 tadd tmul tsub topp tinv teqb tconj emb tabs tsqrt re tadd tmul dot (tmul ii) 1 0 1 1 tol f1 t0 st0 = Ok (More 1 2 st') /\
    gv st' 0 = Some t1 /\ gH st' 0 0 = tadd (tmul (tconj cs) (topp ii)) (tmul (tconj sn) (emb two)) /\ gs st' 0 = tadd (tmul (tconj cs) t1) (tmul (tconj sn) t0)).
  { intros st0 G0 G1 G2. cbn [GmModel.cycle Nat.leb]. rewrite G0. cbn [GmModel.arnoldi obind]. rewrite G0.
    assert (D1 : dot (tmul ii t1) t1 = topp ii) by (unfold dot; rewrite cjm, CI, C1; ring). rewrite D1. cbn [obind].
    replace (tadd (tmul ii t1) (tmul (topp (topp ii)) t1)) with (tmul (emb two) ii) by (rewrite E2; ring).
    rewrite (VN _ two P2).
    2:{ rewrite cjm, CE, CI, SM. transitivity (topp (tmul (tmul (emb two) (emb two)) (tmul ii ii))); [ring|]. rewrite II. ring. }
    cbn [obind]. rewrite (EF _ NE2), (DV _ _ NE2). cbn [obind GmModel.rotate_all].
    match goal with |- context [GmModel.generate_rotation _ _ _ _ _ _ _ _ _ ?X ?Y] => change X with (topp ii); change Y with (emb two) end.
    rewrite GR. cbn [obind]. unfold GmModel.apply_rotation. cbv beta iota. rewrite G1, G2.
    assert (Ea : tmul (tconj (tadd (tmul (topp sn) t1) (tmul cs t0))) (tadd (tmul (topp sn) t1) (tmul cs t0)) = emb (finv q34)).
    { replace (tadd (tmul (topp sn) t1) (tmul cs t0)) with (topp sn) by ring. rewrite CO, Cs. rewrite EI by (apply (lt_neq _ _ _ _ _ _ _ _ _ OF); exact P34). rewrite <- Er, SM. unfold sn. field. exact NEr. }
    destruct (TA (tadd (tmul (topp sn) t1) (tmul cs t0))) as (a2 & Ea2). rewrite Ea2. cbn [obind].
    destruct (sc_abs _ _ _ _ _ _ _ _ _ _ _ _ _ _ _ _ _ _ SC _ _ Ea2) as (A2 & PA2). rewrite Ea in A2. apply SI in A2.
    assert (L : fltb (fmul a2 (finv f1)) tol = false).
    { replace (fmul a2 (finv f1)) with a2 by (field; exact N1). destruct (fltb a2 tol) eqn:L; [exfalso|reflexivity].
      assert (La : lt a2 f1) by (apply (of_trans _ _ _ _ _ _ _ _ _ OF _ tol); assumption).
      pose proof (mul_le _ _ _ _ _ _ _ _ _ OF _ _ a2 PA2 (lt_le _ _ _ _ _ _ _ _ _ OF _ _ La)) as M. replace (fmul a2 f1) with a2 in M by ring.
      assert (M2 : lt (fmul a2 a2) f1). { destruct (fltb (fmul a2 a2) f1) eqn:Q; [reflexivity|]. pose proof (le_trans _ _ _ _ _ _ _ _ _ OF _ _ _ Q M) as Q2. rewrite La in Q2. discriminate. }
      rewrite A2 in M2. pose proof (lt_mul_pos _ _ _ _ _ _ _ _ _ OF _ _ q34 P34 M2) as M3. replace (fmul q34 (finv q34)) with f1 in M3 by (field; apply (lt_neq _ _ _ _ _ _ _ _ _ OF); exact P34).
      replace (fmul q34 f1) with q34 in M3 by ring.
      pose proof (lt_mul_pos _ _ _ _ _ _ _ _ _ OF _ _ (fmul two two) (of_mul _ _ _ _ _ _ _ _ _ OF _ _ P2 P2) M3) as M4. unfold q34 in M4.
      replace (fmul (fmul two two) (fmul (fadd two f1) (finv (fmul two two)))) with (fadd two f1) in M4 by (field; exact N2).
      replace (fmul (fmul two two) f1) with (fadd f1 (fadd two f1)) in M4 by (unfold two; ring).
      pose proof (of_add _ _ _ _ _ _ _ _ _ OF _ _ (fadd two f1) P1) as M5. replace (fadd f0 (fadd two f1)) with (fadd two f1) in M5 by ring. rewrite (lt_le _ _ _ _ _ _ _ _ _ OF _ _ M4) in M5. discriminate. }
    rewrite L. eexists. split; [reflexivity|]. cbn [gv gH gs]. unfold upd. cbn [Nat.eqb]. rewrite G0. split; [reflexivity|]. split; reflexivity. }
  unfold GmModel.gmres. rewrite (VN t1 f1 P1) by (rewrite C1, SM, S1; ring). cbn [obind].
  unfold GmSpec.vsub at 1. replace (tadd t1 (tmul (topp t1) (tmul ii t0))) with t1 by ring. rewrite (VN t1 f1 P1) by (rewrite C1, SM, S1; ring). cbn [obind].
  rewrite (EF (emb f1)) by (apply NE; exact N1). replace (fmul f1 (finv f1)) with f1 by (field; exact N1). rewrite PL. cbn [negb].
  unfold GmSpec.vsub at 1. replace (tadd t1 (tmul (topp t1) (tmul ii t0))) with t1 by ring.
  cbn [GmModel.outer]. change (1 <=? 1) with true. cbv beta iota. rewrite (DV t1 (emb f1)) by (apply NE; exact N1). cbn [obind gv gH gcs gsn gs].
  replace (tmul (tmul t1 (tinv (emb f1))) t1) with t1 by (rewrite S1; field; exact (F_1_neq_0 TF)).
  match goal with |- obind (?ff ?ST) _ = _ => destruct (CY ST) as (st' & EC & V0 & H0 & G0) end; [reflexivity|exact S1|reflexivity|].
  rewrite EC. cbn [obind]. unfold GmModel.update. cbn [GmModel.backsolve]. rewrite H0, G0.
  assert (HE : tadd (tmul (tconj cs) (topp ii)) (tmul (tconj sn) (emb two)) = tmul (tmul sn (emb five)) (tinv (emb two))).
  { rewrite Cc, Cs. unfold cs. fold sn. transitivity (tadd (tmul (topp (tmul ii ii)) (tmul sn (tinv (emb two)))) (tmul sn (emb two))); [ring|]. rewrite II, X5, E2. field. rewrite <- E2. exact NE2. }
  assert (HN : tmul (tmul sn (emb five)) (tinv (emb two)) <> t0).
  { intros Q. apply dom in Q. destruct Q as [Q|Q]; [apply dom in Q; destruct Q as [Q|Q]; [|contradiction]|].
    - apply (F_1_neq_0 TF). transitivity (tmul sn (emb r)); [unfold sn; field; exact NEr|rewrite Q; ring].
    - apply (F_1_neq_0 TF). transitivity (tmul (tinv (emb two)) (emb two)); [field; exact NE2|rewrite Q; ring]. }
  rewrite HE, (DV _ _ HN). cbn [obind GmModel.addup]. rewrite V0. cbn [obind Nat.eqb].
  match goal with |- context [tadd t0 (tmul ?Y t1)] => replace (tadd t0 (tmul Y t1)) with (tmul ii (tinv (emb five))) end.
  2:{ rewrite Cc, Cs. unfold cs. fold sn. assert (Nsn : sn <> t0) by (intros Q; apply HN; rewrite Q; ring). field. repeat split; assumption. }
  change (2 <=? 1) with false. cbv beta iota. unfold GmSpec.vsub. rewrite RR, (VN _ _ P65') by (rewrite CE, <- SM; reflexivity). cbn [obind].
  assert (L : fltb (fmul (fmul six (finv five)) (finv f1)) tol = false).
  { replace (fmul (fmul six (finv five)) (finv f1)) with (fmul six (finv five)) by (field; split; assumption). apply (lt_le _ _ _ _ _ _ _ _ _ OF). apply (of_trans _ _ _ _ _ _ _ _ _ OF _ f1); assumption. }
  rewrite L. reflexivity.
Qed.
End Any.

(** The Real version: the field itself. *)
Definition feq (x y : F) : bool := negb (fltb x y) && negb (fltb y x).
Definition fabs (x : F) : outcome F := Ok (if fltb x f0 then fopp x else x).
Lemma feq_eq : forall x y, feq x y = true <-> x = y.
Proof.
  intros x y. unfold feq. split.
  - intros H. apply andb_true_iff in H as [H1 H2]. apply negb_true_iff in H1, H2. apply (of_total _ _ _ _ _ _ _ _ _ OF); assumption.
  - intros ->. rewrite (of_irrefl _ _ _ _ _ _ _ _ _ OF). reflexivity.
Qed.
Theorem C63_real_scalars : scalars f0 f1 fadd fmul fltb f0 f1 fadd fmul fsub fopp fdiv finv feq (fun x => x) (fun x => x) fabs fsqrt.
Proof.
  constructor; try reflexivity; try (intros; assumption).
  - apply feq_eq.
  - intros x. split; [intros _; exists x; reflexivity|reflexivity].
  - intros x. exists (fmul x x). split; [reflexivity|]. apply (sq_nonneg _ _ _ _ _ _ _ _ _ OF).
  - intros x a H. unfold fabs in H. injection H as <-. destruct (fltb x f0) eqn:E; [|split; [reflexivity|exact E]]. split; [ring|].
    apply (lt_le _ _ _ _ _ _ _ _ _ OF). pose proof (of_add _ _ _ _ _ _ _ _ _ OF _ _ (fopp x) E) as Q. replace (fadd x (fopp x)) with f0 in Q by ring. replace (fadd f0 (fopp x)) with (fopp x) in Q by ring. exact Q.
  - intros x y P H. exists y. split; [reflexivity|]. apply FS. exact H.
Qed.

(** The Cplx version: complex numbers, with |z| = sqrt(re^2+im^2) and the principal square root. *)
Notation K := (@cplx F).
Definition cabs2 (z : K) : F := fadd (fmul (fst z) (fst z)) (fmul (snd z) (snd z)).
Definition cinv (z : K) : K := (fmul (fst z) (finv (cabs2 z)), fmul (fopp (snd z)) (finv (cabs2 z))).
Definition cdiv (z w : K) : K := cmul fadd fmul fsub z (cinv w).
Definition ceq (z w : K) : bool := feq (fst z) (fst w) && feq (snd z) (snd w).
Definition cabs (z : K) : outcome F := fsqrt (cabs2 z).
Definition csqrt (z : K) : outcome K :=
  let half := finv (fadd f1 f1) in
  let! m := cabs z in
  let! p := fsqrt (fmul (fadd m (fst z)) half) in
  let! q := fsqrt (fmul (fsub m (fst z)) half) in
  Ok (p, if fltb (snd z) f0 then fopp q else q).
Lemma abs2_nz : forall z : K, z <> c0 f0 -> cabs2 z <> f0.
Proof.
  intros [a b] H E. apply H. unfold cabs2 in E; cbn [fst snd] in E.
  assert (Z : forall x y, fadd (fmul x x) (fmul y y) = f0 -> x = f0).
  { intros x y Q. destruct (le_cases _ _ _ _ _ _ _ _ _ OF f0 (fmul x x) (sq_nonneg _ _ _ _ _ _ _ _ _ OF x)) as [L|L].
    - exfalso. pose proof (le_add _ _ _ _ _ _ _ _ _ OF _ _ (fmul x x) (sq_nonneg _ _ _ _ _ _ _ _ _ OF y)) as X. replace (fadd (fmul y y) (fmul x x)) with f0 in X by (rewrite <- Q; ring). replace (fadd f0 (fmul x x)) with (fmul x x) in X by ring. rewrite L in X. discriminate.
    - symmetry in L. exact (le_zero_mul f0 f1 fadd fmul fltb f0 f1 fadd fmul fsub fopp fdiv finv feq (fun x => x) (fun x => x) fabs fsqrt C63_real_scalars x L). }
  unfold c0. f_equal; [exact (Z a b E)|]. apply (Z b a). rewrite <- E. ring.
Qed.
Lemma root_unique : forall a c, le f0 a -> le f0 c -> fmul a a = fmul c c -> a = c.
Proof.
  intros a c Ha Hc E. destruct (le_cases _ _ _ _ _ _ _ _ _ OF f0 c Hc) as [L|<-].
  - assert (Z : fmul (fsub a c) (fadd a c) = f0) by (transitivity (fsub (fmul a a) (fmul c c)); [ring|rewrite E; ring]).
    assert (NZ : fadd a c <> f0). { apply (lt_neq _ _ _ _ _ _ _ _ _ OF). apply (lt_le_trans _ _ _ _ _ _ _ _ _ OF _ c); [exact L|]. pose proof (le_add _ _ _ _ _ _ _ _ _ OF f0 a c Ha) as Q. replace (fadd f0 c) with c in Q by ring. exact Q. }
    transitivity (fadd (fmul (fmul (fsub a c) (fadd a c)) (finv (fadd a c))) c); [field; exact NZ|]. rewrite Z. ring.
  - apply (le_zero_mul f0 f1 fadd fmul fltb f0 f1 fadd fmul fsub fopp fdiv finv feq (fun x => x) (fun x => x) fabs fsqrt C63_real_scalars). rewrite E. ring.
Qed.
Lemma two_nz : fadd f1 f1 <> f0.
Proof.
  assert (P1 : lt f0 f1).
  { destruct (le_cases _ _ _ _ _ _ _ _ _ OF f0 (fmul f1 f1) (sq_nonneg _ _ _ _ _ _ _ _ _ OF f1)) as [Q|Q]; [replace (fmul f1 f1) with f1 in Q by ring; exact Q|]. exfalso. apply (F_1_neq_0 FT). rewrite Q. ring. }
  apply (lt_neq _ _ _ _ _ _ _ _ _ OF). apply (of_trans _ _ _ _ _ _ _ _ _ OF _ f1); [exact P1|]. pose proof (of_add _ _ _ _ _ _ _ _ _ OF _ _ f1 P1) as Q. replace (fadd f0 f1) with f1 in Q by ring. exact Q.
Qed.
Ltac cpx := repeat (match goal with x : K |- _ => destruct x end);
  unfold DavSpec.cadd, DavSpec.cmul, DavSpec.csub, DavSpec.copp, DavSpec.c0, DavSpec.c1, DavSpec.cof, DavSpec.cconj, cabs2; cbn [fst snd]; try (f_equal; ring).
Theorem C63_complex_scalars : scalars f0 f1 fadd fmul fltb (c0 f0) (c1 f0 f1) (cadd fadd) (cmul fadd fmul fsub) (csub fsub) (copp fopp) cdiv cinv ceq (cconj fopp) (cof f0) cabs csqrt.
Proof.
  constructor.
  - constructor; [exact (cring f0 f1 fadd fmul fsub fopp fdiv finv fltb OF)| |reflexivity|].
    + intros H. apply (F_1_neq_0 FT). exact (f_equal fst H).
    + intros z H. pose proof (abs2_nz z H) as N. destruct z as [a b]. unfold cinv, cabs2 in *; cbn [fst snd] in *. unfold cmul, c1; cbn [fst snd]. f_equal; field; exact N.
  - intros [a b] [c d]. unfold ceq; cbn [fst snd]. rewrite andb_true_iff, !feq_eq. split; [intros (-> & ->); reflexivity|intros H; injection H as -> ->; auto].
  - reflexivity.
  - reflexivity.
  - intros x y. cpx.
  - intros x y. cpx.
  - intros x y H. exact (f_equal fst H).
  - intros x y. cpx.
  - intros x y. cpx.
  - intros x. cpx.
  - intros [a b]. unfold cconj, cof; cbn [fst snd]. split.
    + intros H. injection H as H. exists a. f_equal. assert (Z : fmul (fadd f1 f1) b = f0) by (transitivity (fsub b (fopp b)); [ring|rewrite H; ring]).
      transitivity (fmul (finv (fadd f1 f1)) (fmul (fadd f1 f1) b)); [field; exact two_nz|]. rewrite Z. ring.
    + intros (r & H). injection H as -> ->. f_equal. ring.
  - intros z. exists (cabs2 z). split; [cpx|]. unfold cabs2. replace f0 with (fadd f0 f0) by ring. apply (le_add2 _ _ _ _ _ _ _ _ _ OF); replace (fadd f0 f0) with f0 by ring; apply (sq_nonneg _ _ _ _ _ _ _ _ _ OF).
  - intros z a H. unfold cabs in H. destruct (FS _ _ H) as (E & P). split; [|exact P]. rewrite E. cpx.
  - intros x y P H. unfold csqrt in H. destruct (cabs (cof f0 x)) as [m| |] eqn:Em; cbn [obind] in H; try discriminate. unfold cabs, cof, cabs2 in Em. unfold cof in H. cbn [fst snd] in *.
    destruct (FS _ _ Em) as (E & Pm). assert (m = x) by (apply root_unique; [assumption|assumption|rewrite E; ring]). subst m.
    destruct (fsqrt (fmul (fadd x x) _)) as [p| |] eqn:Ep; cbn [obind] in H; try discriminate. destruct (fsqrt (fmul (fsub x x) _)) as [q| |] eqn:Eq; cbn [obind] in H; try discriminate.
    rewrite (of_irrefl _ _ _ _ _ _ _ _ _ OF) in H. injection H as <-. destruct (FS _ _ Ep) as (E1 & P1). destruct (FS _ _ Eq) as (E2 & P2).
    assert (q = f0) by (apply root_unique; [assumption|apply (le_refl _ _ _ _ _ _ _ _ _ OF)|rewrite E2; ring]). subst q. exists p. split; [reflexivity|]. split; [|exact P1]. rewrite E1. field. exact two_nz.
Qed.

(** Where all square roots of non-negative numbers exist the hypotheses on them are met for both versions. *)
Lemma complex_total : (forall x, le f0 x -> exists r, fsqrt x = Ok r) -> (forall x, exists a, cabs x = Ok a) /\ (forall x, le f0 x -> exists y, csqrt (cof f0 x) = Ok y).
Proof.
  intros T. assert (TA : forall x, exists a, cabs x = Ok a).
  { intros x. apply T. unfold cabs2. replace f0 with (fadd f0 f0) by ring. apply (le_add2 _ _ _ _ _ _ _ _ _ OF); replace (fadd f0 f0) with f0 by ring; apply (sq_nonneg _ _ _ _ _ _ _ _ _ OF). }
  split; [exact TA|]. intros x P. unfold csqrt. destruct (TA (cof f0 x)) as (m & Em). rewrite Em. cbn [obind]. unfold cabs, cof, cabs2 in Em. unfold cof. cbn [fst snd] in *.
  destruct (FS _ _ Em) as (E & Pm). assert (m = x) by (apply root_unique; [assumption|assumption|rewrite E; ring]). subst m.
  replace (fmul (fadd x x) (finv (fadd f1 f1))) with x by (field; apply two_nz). replace (fmul (fsub x x) (finv (fadd f1 f1))) with f0 by (field; apply two_nz).
  destruct (T x P) as (p & ->). cbn [obind]. destruct (T f0 (le_refl _ _ _ _ _ _ _ _ _ OF f0)) as (q & ->). cbn [obind]. eauto.
Qed.
End Props.

(** * Cases *)
Notation qc a b := (Q2Qc (a # b)%Q).
Definition conv_of {V} (o : outcome (V * bool)) : bool := match o with Ok (_, c) => c | _ => false end.
Definition ok_of {V} (o : outcome (V * bool)) : bool := match o with Ok _ => true | _ => false end.
Definition x_of {V} (d : V) (o : outcome (V * bool)) : V := match o with Ok (x, _) => x | _ => d end.
Lemma got_x : forall {V} (d : V) o c, ok_of o = true -> conv_of o = c -> o = Ok (x_of d o, c).
Proof. intros V d [[x c']| |] c H1 H2; cbn in *; try discriminate. subst. reflexivity. Qed.

(** Real: ((3,0),(4,5)) x = (1,0) from x = 0, exactly solved in two steps. *)
Definition rM (i j : nat) : Qc := match i, j with O, O => qc 3 1 | O, _ => 0%Qc | _, O => qc 4 1 | _, _ => qc 5 1 end.
Definition rcol (a b : Qc) : nat -> Qc := fun i => match i with O => a | _ => b end.
Definition rgmres (fuel m max_iter : nat) (tol : Qc) (M : nat -> nat -> Qc) (n : nat) :=
  gmres 1%Qc Qcmult Qcinv Qcltb qsqrt 0%Qc 1%Qc Qcplus Qcmult Qcminus Qcopp Qcinv (feq Qcltb) (fun x => x) (fun x => x) (fabs 0%Qc Qcopp Qcltb) qsqrt (fun x => x)
    (cplus Qcplus) (cscale Qcmult) (cdot 0%Qc Qcplus Qcmult (fun x => x) n) (matvec 0%Qc Qcplus Qcmult n M) fuel m max_iter tol.
Definition rres (M : nat -> nat -> Qc) (n : nat) := residual2 1%Qc Qcopp (fun x => x) (cplus Qcplus) (cscale Qcmult) (cdot 0%Qc Qcplus Qcmult (fun x => x) n) (matvec 0%Qc Qcplus Qcmult n M).
Ltac qcv := try reflexivity; first [apply Qc_is_canon; vm_compute; reflexivity | unfold rres, residual2; apply Qc_is_canon; vm_compute; reflexivity | vm_compute; reflexivity].
Example C63_nonvacuous :
  scalars 0%Qc 1%Qc Qcplus Qcmult Qcltb 0%Qc 1%Qc Qcplus Qcmult Qcminus Qcopp Qcdiv Qcinv (feq Qcltb) (fun x => x) (fun x => x) (fabs 0%Qc Qcopp Qcltb) qsqrt /\
  (exists x', rgmres 3 2 2 (qc 1 100) rM 2 (rcol 1 0) (rcol 0 0) = Ok (x', true) /\ x' 0 = qc 1 3 /\ x' 1 = qc (-4) 15 /\ rres rM 2 (rcol 1 0) x' 0%Qc) /\
  (exists x', rgmres 3 1 1 (qc 1 100) rM 2 (rcol 1 0) (rcol 0 0) = Ok (x', false) /\ rres rM 2 (rcol 1 0) x' (qc 16 25) /\ rres rM 2 (rcol 1 0) (rcol 0 0) 1%Qc /\
    rres rM 2 (rcol 1 0) (cplus Qcplus (rcol 0 0) (krylov 0%Qc (cplus Qcplus) (cscale Qcmult) (matvec 0%Qc Qcplus Qcmult 2 rM) (rcol 1 0) [qc 1 5])) (qc 4 5)).
Proof.
  split; [apply (C63_real_scalars 0%Qc 1%Qc Qcplus Qcmult Qcminus Qcopp Qcdiv Qcinv Qcltb qsqrt Qc_ordered qsqrt_ok)|]. split.
  - set (o := rgmres 3 2 2 (qc 1 100) rM 2 (rcol 1 0) (rcol 0 0)). exists (x_of (rcol 0 0) o). split; [apply got_x; vm_compute; reflexivity|].
    split; [qcv|]. split; [qcv|]. qcv.
  - set (o := rgmres 3 1 1 (qc 1 100) rM 2 (rcol 1 0) (rcol 0 0)). exists (x_of (rcol 0 0) o). split; [apply got_x; vm_compute; reflexivity|].
    split; [qcv|]. split; [qcv|]. qcv.
Qed.
(** Complex: the Hermitian ((0,-4i),(4i,6)) x = (1,0), with solution (-3/8, i/4). *)
Definition hM (i j : nat) : @cplx Qc := match i, j with O, O => (0, 0)%Qc | O, _ => (0%Qc, qc (-4) 1) | _, O => (0%Qc, qc 4 1) | _, _ => (qc 6 1, 0%Qc) end.
Definition hcol (a b : @cplx Qc) : nat -> @cplx Qc := fun i => match i with O => a | _ => b end.
Definition cgmres (fuel m max_iter : nat) (tol : Qc) (M : nat -> nat -> @cplx Qc) (n : nat) :=
  gmres 1%Qc Qcmult Qcinv Qcltb qsqrt (c0 0%Qc) (c1 0%Qc 1%Qc) (cadd Qcplus) (cmul Qcplus Qcmult Qcminus) (csub Qcminus) (copp Qcopp) (cinv Qcplus Qcmult Qcopp Qcinv) (ceq Qcltb) (cconj Qcopp) (cof 0%Qc)
    (cabs Qcplus Qcmult qsqrt) (csqrt 0%Qc 1%Qc Qcplus Qcmult Qcminus Qcopp Qcinv Qcltb qsqrt) fst
    (cplus (cadd Qcplus)) (cscale (cmul Qcplus Qcmult Qcminus)) (cdot (c0 0%Qc) (cadd Qcplus) (cmul Qcplus Qcmult Qcminus) (cconj Qcopp) n) (matvec (c0 0%Qc) (cadd Qcplus) (cmul Qcplus Qcmult Qcminus) n M) fuel m max_iter tol.
Example C63_nonvacuous_complex :
  (forall i j, i < 2 -> j < 2 -> hM i j = cconj Qcopp (hM j i)) /\
  exists x', cgmres 3 2 2 (qc 1 100) hM 2 (hcol (1, 0)%Qc (0, 0)%Qc) (hcol (0, 0)%Qc (0, 0)%Qc) = Ok (x', true) /\ x' 0 = (qc (-3) 8, 0%Qc) /\ x' 1 = (0%Qc, qc 1 4).
Proof.
  split.
  - intros [|[|i]] [|[|j]] Hi Hj; try lia; qcv.
  - set (o := cgmres 3 2 2 (qc 1 100) hM 2 _ _). exists (x_of (hcol (0, 0)%Qc (0, 0)%Qc) o). split; [apply got_x; vm_compute; reflexivity|]. split; qcv.
Qed.
(** ErrGoal = 0: the system x = 1 is solved exactly by the first step, the convergence test (less than 0) never
    passes, and the next round divides by the norm of the zero residual. *)
Theorem C63_zero_goal_refuted : rgmres 3 1 2 0%Qc (fun _ _ => 1%Qc) 1 (rcol 1 0) (rcol 0 0) = UB /\
  exists x', rgmres 3 1 1 0%Qc (fun _ _ => 1%Qc) 1 (rcol 1 0) (rcol 0 0) = Ok (x', false) /\ rres (fun _ _ => 1%Qc) 1 (rcol 1 0) x' 0%Qc.
Proof.
  split; [qcv|]. set (o := rgmres 3 1 1 _ _ _ _ _). exists (x_of (rcol 0 0) o). split; [apply got_x; vm_compute; reflexivity|]. qcv.
Qed.

Print Assumptions C63_residual.
Print Assumptions C63_minimal.
Print Assumptions C63_returns.
Print Assumptions C63_solves.
Print Assumptions C63_restart_zero_refuted.
Print Assumptions C63_columns.
Print Assumptions C63_complex_refuted.
Print Assumptions C63_real_scalars.
Print Assumptions C63_complex_scalars.
Print Assumptions C63_zero_goal_refuted.
