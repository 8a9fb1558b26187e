(** C66: what expMatrix computes. *)
From Coq Require Import List Arith Bool ZArith Lia Ring Field Setoid Morphisms Reals Lra.
From Verif Require Import Util BigSum DavSpec DavProofs PadeSpec PadeModel PadeProofs PadeNorm GmRealProps.
Import ListNotations.
Local Open Scope outcome_scope.
Local Open Scope nat_scope.

Section C66.
(** F: the real numbers; T: the matrix elements, real or complex. *)
Context {F : Type} (f0 f1 : F) (fadd fmul fsub : F -> F -> F) (fopp : F -> F) (fdiv : F -> F -> F) (finv : F -> F)
  (fltb : F -> F -> bool) (OF : ordered_field f0 f1 fadd fmul fsub fopp fdiv finv fltb).
Context {T : Type} (t0 t1 : T) (tadd tmul tsub : T -> T -> T) (topp : T -> T) (tdiv : T -> T -> T) (tinv : T -> T).
Context (FT : field_theory t0 t1 tadd tmul tsub topp tdiv tinv eq).
Context (tabs : T -> F) (AB : abs_ok f0 fadd fmul fltb t0 t1 tadd tmul tabs f1).
Context (tlog : F -> Z) (gesv : nat -> @mat T -> @mat T -> outcome (@mat T)) (debug : bool).
Notation expMatrix := (expMatrix f0 fadd fltb t0 t1 tadd tmul tsub topp tinv tabs tlog gesv debug).
Notation mmul := (mmul t0 tadd tmul). Notation mpoly := (mpoly t0 t1 tadd tmul). Notation mpow := (mpow t0 t1 tadd tmul).
Notation mscale := (mscale tmul). Notation tN := (ofN t0 t1 tadd).
Let C0 := char0 f0 f1 fadd fmul fsub fopp fdiv finv fltb OF t0 t1 tadd tmul tabs AB.
Add Field FTpp : FT.

Lemma unfold_exp nr nc M t q X : expMatrix nr nc M t q = Ok X -> nr = nc /\ 1 <= nc /\ 1 <= q /\
  expPade f0 fadd fltb t0 t1 tadd tmul tsub topp tinv tabs tlog gesv debug nc (mscale t M) q = Ok X.
Proof.
  unfold PadeModel.expMatrix. intros H. destruct (Nat.eqb_spec q 0); [discriminate H|]. destruct (Nat.ltb_spec nc 1); [discriminate H|].
  destruct (Nat.eqb_spec nc nr); [|discriminate H]. cbn [negb] in H. repeat split; [lia..|assumption].
Qed.

(** If expMatrix(M,t,ideg) returns X then M is square and X is r(A)^(2^ns), where A = tM/2^ns, the absolute values in
    every row of A add up to less than 1/2, and r is the [ideg/ideg] Pade approximant of exp: r(A) is the solution Y
    of den(A) Y = num(A), a system that is not singular. *)
Theorem C66_pade : trunc_log2_ok f0 f1 fadd fmul finv fltb tlog -> gesv_ok t0 t1 tadd tmul gesv ->
  forall nrows n M t ideg X, expMatrix nrows n M t ideg = Ok X ->
  nrows = n /\ exists ns num den Y,
    pade t0 t1 tadd tmul tinv ideg num den /\
    let A := mscale (tinv (tN (2 ^ ns))) (mscale t M) in
    rows_below f0 fadd fltb tabs n A (finv (fadd f1 f1)) /\
    invertible t0 t1 tadd tmul n (mpoly n den A) /\
    meq n (mmul n (mpoly n den A) Y) (mpoly n num A) /\
    meq n X (mpow n Y (2 ^ ns)).
Proof.
  intros TL GO nr n M t q X H. apply unfold_exp in H. destruct H as (-> & Hn & Hq & H). split; [reflexivity|].
  eapply (expPade_ok t0 t1 tadd tmul tsub topp tdiv tinv FT) in H; [|assumption..]. destruct H as (ns & Y & ES & HI & HY & HX).
  exists ns, (num t0 t1 tadd tmul tinv q), (den t0 t1 tadd tmul topp tinv q), Y.
  split; [exact (pade_coefs t0 t1 tadd tmul tsub topp tdiv tinv FT C0 q)|]. cbv zeta. split; [|split; [exact HI|split; [exact HY|exact HX]]].
  exact (scaled_rows f0 f1 fadd fmul fsub fopp fdiv finv fltb OF t0 t1 tadd tmul tsub topp tdiv tinv FT tabs AB tlog TL debug n _ ns ES).
Qed.

(** It returns for every square matrix that is not zero, every t that is not zero and every ideg above 0. *)
Theorem C66_total : trunc_log2_ok f0 f1 fadd fmul finv fltb tlog -> forall n, gesv_total t0 tadd tmul gesv n ->
  forall M t ideg i j, i < n -> j < n -> tmul t (M i j) <> t0 -> 1 <= ideg -> exists X, expMatrix n n M t ideg = Ok X.
Proof.
  intros TL n GT M t q i j Hi Hj HM Hq. unfold PadeModel.expMatrix.
  destruct (Nat.eqb_spec q 0); [lia|]. destruct (Nat.ltb_spec n 1); [lia|]. rewrite Nat.eqb_refl. cbn [negb].
  destruct (squarings_nonzero f0 f1 fadd fmul fsub fopp fdiv finv fltb OF t0 t1 tadd tmul tabs AB tlog debug n (mscale t M) i j Hi Hj HM) as [ns ES].
  eapply (expPade_total t0 t1 tadd tmul tsub topp tdiv tinv FT); [assumption..|exact ES|].
  intros v Hv. eapply (den_nonsingular f0 f1 fadd fmul fsub fopp fdiv finv fltb OF t0 t1 tadd tmul tsub topp tdiv tinv FT tabs AB); [|exact Hv].
  exact (scaled_rows f0 f1 fadd fmul fsub fopp fdiv finv fltb OF t0 t1 tadd tmul tsub topp tdiv tinv FT tabs AB tlog TL debug n _ ns ES).
Qed.

(** A degree below 1, a matrix with no columns or one that is not square is refused. *)
Theorem C66_refuses : forall nrows ncols M t ideg, ideg = 0 \/ ncols = 0 \/ nrows <> ncols -> expMatrix nrows ncols M t ideg = Err.
Proof.
  intros nr nc M t q H. unfold PadeModel.expMatrix. destruct (Nat.eqb_spec q 0); [reflexivity|].
  destruct (Nat.ltb_spec nc 1); [reflexivity|]. destruct (Nat.eqb_spec nc nr); [lia|reflexivity].
Qed.

(** exp(-tM) is the inverse of exp(tM), exactly, for every degree. *)
Theorem C66_inverse : gesv_ok t0 t1 tadd tmul gesv ->
  forall n M t ideg X X', expMatrix n n M t ideg = Ok X -> expMatrix n n M (topp t) ideg = Ok X' ->
  meq n (mmul n X X') (mone t0 t1) /\ meq n (mmul n X' X) (mone t0 t1).
Proof.
  intros GO n M t q X X' H H'. apply unfold_exp in H, H'. destruct H as (_ & Hn & Hq & H). destruct H' as (_ & _ & _ & H').
  eapply (expPade_ok t0 t1 tadd tmul tsub topp tdiv tinv FT) in H; [|assumption..]. destruct H as (ns & Y & ES & HI & HY & HX).
  eapply (expPade_ok t0 t1 tadd tmul tsub topp tdiv tinv FT) in H'; [|assumption..]. destruct H' as (ns' & Y' & ES' & HI' & HY' & HX').
  assert (En : ns' = ns).
  { rewrite (squarings_ext f0 fadd fltb tabs tlog debug n (mscale (topp t) M) (mscale t M)) in ES'.
    - congruence.
    - intros i j _ _. unfold PadeSpec.mscale. replace (tmul (topp t) (M i j)) with (topp (tmul t (M i j))) by ring.
      apply (abs_opp f0 f1 fadd fmul fsub fopp fdiv finv fltb OF t0 t1 tadd tmul tsub topp tdiv tinv FT tabs AB). }
  subst ns'. cbv zeta in *. set (s := tinv (tN (2 ^ ns))) in *. set (A := mscale s (mscale t M)) in *.
  assert (E1 : meq n (mpoly n (num t0 t1 tadd tmul tinv q) (mscale s (mscale (topp t) M))) (mpoly n (den t0 t1 tadd tmul topp tinv q) A)).
  { intros i j Hi Hj. rewrite (den_num t0 t1 tadd tmul tsub topp tdiv tinv FT n q A i j Hi Hj). apply mpoly_ext; [|assumption..].
    intros a b _ _. unfold A, PadeSpec.mscale. ring. }
  assert (E2 : meq n (mpoly n (den t0 t1 tadd tmul topp tinv q) (mscale s (mscale (topp t) M))) (mpoly n (num t0 t1 tadd tmul tinv q) A)).
  { intros i j Hi Hj. rewrite (den_num t0 t1 tadd tmul tsub topp tdiv tinv FT n q _ i j Hi Hj). apply mpoly_ext; [|assumption..].
    intros a b _ _. unfold A, PadeSpec.mscale. ring. }
  rewrite E1, E2 in HY'. destruct HI' as [B' HB']. rewrite E2 in HB'.
  assert (HI2 : invertible t0 t1 tadd tmul n (mpoly n (num t0 t1 tadd tmul tinv q) A)) by (exists B'; exact HB').
  split; rewrite HX, HX'; apply (pow_inv t0 t1 tadd tmul tsub topp tdiv tinv FT).
  - exact (inverse_step t0 t1 tadd tmul tsub topp tdiv tinv FT n _ _ Y Y' HI HY HY').
  - exact (inverse_step t0 t1 tadd tmul tsub topp tdiv tinv FT n _ _ Y' Y HI2 HY' HY).
Qed.

(** If tM is anti-Hermitian (as for exp(-iHt) with H Hermitian and t real) the result is unitary, exactly. *)
Theorem C66_unitary : gesv_ok t0 t1 tadd tmul gesv -> forall conj, conj_ok t1 tadd tmul conj ->
  forall n M t ideg X, (forall i j, i < n -> j < n -> conj (tmul t (M j i)) = topp (tmul t (M i j))) ->
  expMatrix n n M t ideg = Ok X -> unitary t0 t1 tadd tmul conj n X.
Proof.
  intros GO conj CJ n M t q X HM H. apply unfold_exp in H. destruct H as (_ & Hn & Hq & H).
  eapply (expPade_ok t0 t1 tadd tmul tsub topp tdiv tinv FT) in H; [|assumption..]. destruct H as (ns & Y & ES & HI & HY & HX).
  cbv zeta in *. unfold unitary. rewrite HX.
  eapply (unitary_step t0 t1 tadd tmul tsub topp tdiv tinv FT C0 n conj CJ q); [|exact HI|exact HY].
  intros i j Hi Hj. unfold madj, PadeSpec.mscale in *. rewrite (cj_mul _ _ _ _ CJ), HM by assumption.
  rewrite (conj_inv t0 t1 tadd tmul tsub topp tdiv tinv FT conj CJ) by (apply (tN_neq f0 f1 fadd fmul fsub fopp fdiv finv fltb OF t0 t1 tadd tmul tabs AB), pow2_pos).
  rewrite (conj_ofN t0 t1 tadd tmul tsub topp tdiv tinv FT conj CJ). ring.
Qed.

(** exp(0) = 1 is not what it computes: for the zero matrix, or t = 0, the number of squarings is the conversion of
    log2(0) = -inf to an integer, which is undefined behaviour (with DEBUG it throws). *)
Theorem C66_zero_refuted : forall n M t ideg, 1 <= n -> 1 <= ideg -> (forall i j, i < n -> j < n -> tmul t (M i j) = t0) ->
  expMatrix n n M t ideg = if debug then Err else UB.
Proof.
  intros n M t q Hn Hq HM. unfold PadeModel.expMatrix.
  destruct (Nat.eqb_spec q 0); [lia|]. destruct (Nat.ltb_spec n 1); [lia|]. rewrite Nat.eqb_refl. cbn [negb]. unfold PadeModel.expPade.
  rewrite (squarings_zero f0 f1 fadd fmul fsub fopp fdiv finv fltb OF t0 t1 tadd tmul tabs AB tlog debug n (mscale t M) HM).
  destruct debug; reflexivity.
Qed.
End C66.

(** The hypotheses hold for the real numbers, with the logarithm of the C library truncated and Cramer's rule for
    2 x 2 systems, and expMatrix then returns for a 2 x 2 matrix that is not zero. *)
Definition rlog (x : R) : Z := let l := (ln x / ln 2)%R in if Rle_dec 0 l then Int_part l else (- Int_part (- l))%Z.
Lemma fpow2_R z : fpow2 1%R Rplus Rmult Rinv z = Rpower 2 (IZR z).
Proof.
  assert (P : forall k, Nat.iter k (Rmult (1 + 1)) 1%R = Rpower 2 (INR k)).
  { induction k as [|k IH]; [cbn; now rewrite Rpower_O by lra|]. cbn [Nat.iter nat_rect]. unfold Nat.iter in IH. rewrite IH, S_INR, Rpower_plus, Rpower_1 by lra. ring. }
  destruct z as [|p|p]; cbn [fpow2].
  - now rewrite Rpower_O by lra.
  - rewrite P, INR_IZR_INZ, positive_nat_Z. reflexivity.
  - rewrite P, INR_IZR_INZ, positive_nat_Z. change (IZR (Zneg p)) with (- IZR (Zpos p))%R. now rewrite Rpower_Ropp.
Qed.
Lemma rlog_ok : trunc_log2_ok 0%R 1%R Rplus Rmult Rinv Rltb rlog.
Proof.
  intros x Hx. apply Rltb_lt in Hx. rewrite !fpow2_R. unfold rlog. set (l := (ln x / ln 2)%R).
  assert (L2 : (0 < ln 2)%R) by (rewrite <- ln_1; apply ln_increasing; lra).
  assert (EX : x = Rpower 2 l).
  { unfold Rpower, l. replace (ln x / ln 2 * ln 2)%R with (ln x) by (field; lra). now rewrite exp_ln. }
  rewrite !Rltb_le, !Rltb_lt. rewrite EX.
  destruct (Rle_dec 0 l) as [H|H].
  - destruct (base_Int_part l) as [B1 B2]. rewrite plus_IZR, minus_IZR. repeat split; intros G.
    + apply Rle_Rpower; lra.
    + apply Rpower_lt; lra.
    + exfalso. assert (IZR (Int_part l) <= -1)%R by (apply IZR_le; lia). lra.
    + apply Rpower_lt; lra.
  - destruct (base_Int_part (- l)) as [B1 B2]. rewrite plus_IZR, minus_IZR, opp_IZR. repeat split; intros G.
    + exfalso. assert (IZR (Int_part (- l)) <= -1)%R by (apply IZR_le; lia). lra.
    + apply Rpower_lt; lra.
    + apply Rle_Rpower; lra.
    + apply Rpower_lt; lra.
Qed.
Lemma Rabs_ok : abs_ok 0%R Rplus Rmult Rltb 0%R 1%R Rplus Rmult Rabs 1%R.
Proof.
  split.
  - intros x. apply Rltb_le, Rabs_pos.
  - intros x. split; intros H; [|subst; apply Rabs_R0]. destruct (Req_dec x 0) as [E|E]; [assumption|]. now apply Rabs_no_R0 in E.
  - apply Rabs_R1.
  - apply Rabs_mult.
  - intros x y. apply Rltb_le, Rabs_triang.
  - intros k. apply Rabs_right. induction k as [|k IH]; cbn [ofN]; lra.
Qed.
Definition cramer (n : nat) (Q P : @mat R) : outcome (@mat R) :=
  match n with
  | 2 => let d := (Q 0%nat 0%nat * Q 1%nat 1%nat - Q 0%nat 1%nat * Q 1%nat 0%nat)%R in
         if Req_EM_T d 0 then Err
         else Ok (fun i j => if (i =? 0)%nat then ((Q 1%nat 1%nat * P 0%nat j - Q 0%nat 1%nat * P 1%nat j) / d)%R else ((Q 0%nat 0%nat * P 1%nat j - Q 1%nat 0%nat * P 0%nat j) / d)%R)
  | _ => Err
  end.
Lemma two_cases i : i < 2 -> i = 0 \/ i = 1. Proof. lia. Qed.
Lemma cramer_ok : gesv_ok 0%R 1%R Rplus Rmult cramer.
Proof.
  intros n Q P X H. destruct n as [|[|[|n]]]; cbn [cramer] in H; try discriminate H.
  destruct (Req_EM_T _ _) as [|N] in H; [discriminate H|]. injection H as <-. split.
  - intros i j Hi Hj. unfold mmul. cbn [bsum]. cbn [Nat.eqb].
    destruct (two_cases i Hi) as [-> | ->]; field; assumption.
  - set (d := (Q 0%nat 0%nat * Q 1%nat 1%nat - Q 0%nat 1%nat * Q 1%nat 0%nat)%R) in *.
    exists (fun i j => ((if (i =? 0)%nat then if (j =? 0)%nat then Q 1%nat 1%nat else - Q 0%nat 1%nat else if (j =? 0)%nat then - Q 1%nat 0%nat else Q 0%nat 0%nat) / d)%R).
    intros i j Hi Hj. unfold mmul, mone. cbn [bsum].
    destruct (two_cases i Hi) as [-> | ->]; destruct (two_cases j Hj) as [-> | ->]; cbn [Nat.eqb]; unfold d in *; field; assumption.
Qed.
Lemma cramer_total : gesv_total 0%R Rplus Rmult cramer 2.
Proof.
  intros Q P H. cbn [cramer]. destruct (Req_EM_T _ _) as [E|N]; [|eexists; reflexivity]. exfalso.
  assert (V : forall a b, (Q 0%nat 0%nat * a + Q 0%nat 1%nat * b = 0)%R -> (Q 1%nat 0%nat * a + Q 1%nat 1%nat * b = 0)%R -> a = 0%R /\ b = 0%R).
  { intros a b H0 H1. specialize (H (fun i => if (i =? 0)%nat then a else b)).
    assert (K : forall i, i < 2 -> (if (i =? 0)%nat then a else b) = 0%R).
    { apply H. intros i Hi. cbn [bsum]. destruct (two_cases i Hi) as [-> | ->]; cbn [Nat.eqb]; lra. }
    split; [exact (K 0 ltac:(lia))|exact (K 1 ltac:(lia))]. }
  destruct (V (- Q 0%nat 1%nat)%R (Q 0%nat 0%nat)) as [A1 A2]; [ring|lra|]. destruct (V (Q 1%nat 1%nat) (- Q 1%nat 0%nat)%R) as [A3 A4]; [lra|ring|].
  destruct (V 1%R 0%R) as [A5 _]; [rewrite A2; ring|replace (Q 1%nat 0%nat) with 0%R by lra; ring|]. lra.
Qed.
Definition RexpMatrix := expMatrix 0%R Rplus Rltb 0%R 1%R Rplus Rmult Rminus Ropp Rinv Rabs rlog cramer false.
(** A rotation by 3 (tM is antisymmetric), to degree 6, the default. *)
Definition Mrot : @mat R := fun i j => if i =? j then 0%R else if i <? j then 1%R else (-1)%R.
Example C66_nonvacuous : exists X, RexpMatrix 2 2 Mrot 3%R 6 = Ok X /\
  unitary 0%R 1%R Rplus Rmult (fun x => x) 2 X /\
  exists ns num den Y, pade 0%R 1%R Rplus Rmult Rinv 6 num den /\
    meq 2 (mmul 0%R Rplus Rmult 2 (mpoly 0%R 1%R Rplus Rmult 2 den (mscale Rmult (Rinv (ofN 0%R 1%R Rplus (2 ^ ns))) (mscale Rmult 3%R Mrot))) Y)
          (mpoly 0%R 1%R Rplus Rmult 2 num (mscale Rmult (Rinv (ofN 0%R 1%R Rplus (2 ^ ns))) (mscale Rmult 3%R Mrot))) /\
    meq 2 X (mpow 0%R 1%R Rplus Rmult 2 Y (2 ^ ns)).
Proof.
  destruct (C66_total 0%R 1%R Rplus Rmult Rminus Ropp Rdiv Rinv Rltb R_ordered 0%R 1%R Rplus Rmult Rminus Ropp Rdiv Rinv Rfield Rabs Rabs_ok
              rlog cramer false rlog_ok 2 cramer_total Mrot 3%R 6 0 1) as [X HX]; [lia|lia|cbn; lra|lia|].
  exists X. split; [exact HX|]. split.
  - eapply (C66_unitary 0%R 1%R Rplus Rmult Rminus Ropp Rdiv Rinv Rltb R_ordered 0%R 1%R Rplus Rmult Rminus Ropp Rdiv Rinv Rfield Rabs Rabs_ok
              rlog cramer false cramer_ok); [|intros i j Hi Hj|exact HX].
    + split; reflexivity.
    + destruct (two_cases i Hi) as [-> | ->]; destruct (two_cases j Hj) as [-> | ->]; cbn; lra.
  - destruct (C66_pade 0%R 1%R Rplus Rmult Rminus Ropp Rdiv Rinv Rltb R_ordered 0%R 1%R Rplus Rmult Rminus Ropp Rdiv Rinv Rfield Rabs Rabs_ok
              rlog cramer false rlog_ok cramer_ok 2 2 Mrot 3%R 6 X HX) as (_ & ns & nu & de & Y & HP & _ & _ & HY & HE).
    exists ns, nu, de, Y. repeat split; assumption || apply HP.
Qed.
Print Assumptions C66_pade. Print Assumptions C66_total. Print Assumptions C66_refuses. Print Assumptions C66_inverse.
Print Assumptions C66_unitary. Print Assumptions C66_zero_refuted. Print Assumptions C66_nonvacuous.
