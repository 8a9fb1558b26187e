(** C53: davidson returns normalised vectors with their Rayleigh quotients and never
    raises the energy of the vector it starts from. *)
From Coq Require Import List Arith Lia Bool Ring Field.
From Coq Require Import ZArith QArith QArith.Qcanon.
From Verif Require Import Util DavSpec DavModel DavProofs DavLoop DavList.
Import ListNotations.
Local Open Scope outcome_scope.
Local Open Scope nat_scope.

Section Props.
Context {F : Type} (f0 f1 : F) (fadd fmul fsub : F -> F -> F) (fopp : F -> F)
  (fdiv : F -> F -> F) (finv : F -> F) (fltb : F -> F -> bool) (fsqrt : F -> outcome F)
  (OF : ordered_field f0 f1 fadd fmul fsub fopp fdiv finv fltb)
  (SQ : sqrt_ok f0 fmul fltb fsqrt).
Let FT := of_field _ _ _ _ _ _ _ _ _ OF.
Add Field FFdp : FT.
Notation le x y := (fltb y x = false).
Notation lt x y := (fltb x y = true).
Notation K := (@cplx F).
Context {V : Type} (inV : V -> Prop) (vadd : V -> V -> V) (vscale : K -> V -> V) (dot : V -> V -> K)
  (IS : inner_space f0 fadd fmul fsub fopp fltb inV vadd vscale dot)
  (A : V -> V) (HA : hermitian fadd fmul fsub inV vadd vscale dot A)
  (size : nat)
  (heev : nat -> (nat -> nat -> K) -> outcome ((nat -> nat -> K) * (nat -> F)))
  (HEEV : heev_ok f0 f1 fadd fmul fsub fopp fltb heev)
  (rnd0 rnd : nat -> nat -> V) (R0 : forall j k, inV (rnd0 j k)) (R1 : forall j k, inV (rnd j k))
  (c1em20 c1em10 Approx0 c1em3 thousand : F) (Hc : lt f0 c1em10).
Notation davidson := (davidson f0 f1 fmul fsub fopp finv fltb fsqrt vadd vscale dot A size heev rnd0 rnd
  c1em20 c1em10 Approx0 c1em3 thousand).
Notation davidson1 := (davidson1 f0 f1 fmul fsub fopp finv fltb fsqrt vadd vscale dot A size heev rnd0 rnd
  c1em20 c1em10 Approx0 c1em3 thousand).

(** One vector: the energy returned is a number, it is the expectation value of A in the
    normalised vector returned, and it is not above the Rayleigh quotient of the vector
    given (multiplied out: e <phi|phi> <= <phi|A phi>). *)
Theorem C53_davidson : forall fuel maxiter miniter errgoal phi oe v, inV phi ->
  davidson1 fuel maxiter miniter errgoal phi = Ok (oe, v) ->
  exists e, oe = Some e /\ inV v /\ dot v v = c1 f0 f1 /\ dot v (A v) = cof f0 e /\
    (fst (dot phi phi) <> f0 -> le (fmul e (fst (dot phi phi))) (fst (dot phi (A phi)))).
Proof.
  intros fuel maxiter miniter errgoal phi oe v Hphi H. unfold DavModel.davidson1 in H.
  destruct (davidson fuel maxiter miniter errgoal [phi]) as [[eigs ps]| |] eqn:E; cbn [obind] in H; try discriminate.
  apply (davidson_ok f0 f1 fadd fmul fsub fopp fdiv finv fltb fsqrt OF SQ inV vadd vscale dot IS A HA size heev HEEV
    rnd0 rnd R0 R1 c1em20 c1em10 Approx0 c1em3 thousand Hc) in E; [|now constructor].
  destruct E as (p0 & l0 & x & En & Ex & Le & Lp & HP & HE).
  unfold oget in H. destruct (nth_error ps 0) as [p|] eqn:Ep; cbn [obind] in H; [|discriminate].
  destruct (nth_error eigs 0) as [e|] eqn:Ee; cbn [obind] in H; [|discriminate].
  injection H as <- <-. destruct e as [e|]; [|congruence]. exists e. split; [reflexivity|].
  destruct (HP 0 e p Ee Ep) as [(Iv & Nv & Ev) Hle]. specialize (Hle eq_refl).
  repeat (match goal with |- _ /\ _ => split end); try assumption.
  intros Hn. cbn [normalizeAll] in En.
  destruct (nonzero _ _ _ _ _ _ _ _ _) as [[w r]| |] eqn:Ew; cbn [obind] in En; try discriminate.
  injection En as <- _.
  assert (W : w = phi /\ norm fsqrt dot phi = Ok r /\ r <> f0).
  { pose proof Ew as Ew'. apply (nonzero_ok f0 f1 fadd fmul fsub fopp fdiv finv fltb fsqrt OF inV dot rnd0 R0) in Ew' as (Iw & Nw & Nr); [|assumption].
    destruct fuel as [|fuel]; [discriminate|]. cbn [nonzero] in Ew.
    destruct (norm fsqrt dot phi) as [n| |] eqn:Enn; cbn [obind] in Ew; try discriminate.
    destruct (feqb fltb n f0) eqn:Ef; [|injection Ew as -> ->; auto].
    exfalso. apply Hn. unfold norm in Enn. apply SQ in Enn as [En2 _].
    unfold feqb in Ef. apply andb_true_iff in Ef as [F1 F2]. apply negb_true_iff in F1, F2.
    rewrite <- En2. rewrite (of_total _ _ _ _ _ _ _ _ _ OF _ _ F1 F2). ring. }
  destruct W as (-> & Nr & Rn). clear Ew.
  assert (Ip : inV (vscale (cof f0 (finv r)) phi)) by now apply (is_scale_in _ _ _ _ _ _ _ _ _ _ IS).
  rewrite (h_scale _ _ _ _ _ _ _ _ HA) in Ex by assumption.
  rewrite (dot_scale_l f0 f1 fadd fmul fsub fopp fdiv finv fltb OF inV vadd vscale dot IS) in Ex
    by (first [assumption|now apply (h_in _ _ _ _ _ _ _ _ HA)]).
  rewrite (conj_of f0 f1 fadd fmul fsub fopp fdiv finv fltb OF) in Ex.
  rewrite (dot_herm f0 f1 fadd fmul fsub fopp fdiv finv fltb OF inV vadd vscale dot IS A HA phi) in Ex by assumption.
  rewrite <- !(of_mul' f0 f1 fadd fmul fsub fopp fdiv finv fltb OF) in Ex. apply cof_inj in Ex.
  unfold norm in Nr. apply SQ in Nr as [Nr Pr].
  rewrite <- Nr. set (y := fst (dot phi (A phi))) in *.
  replace y with (fmul (fmul r r) x) by (rewrite <- Ex; field; assumption).
  replace (fmul e (fmul r r)) with (fmul (fmul r r) e) by ring.
  apply (mul_le f0 f1 fadd fmul fsub fopp fdiv finv fltb OF); [|assumption].
  apply (sq_nonneg f0 f1 fadd fmul fsub fopp fdiv finv fltb OF).
Qed.

(** Several vectors: as many numbers and vectors come back as were given, and every number
    is the expectation value of A in the normalised vector returned with it; the first is
    a number. *)
Theorem C53_davidson_all : forall fuel maxiter miniter errgoal phi eigs ps, Forall inV phi ->
  davidson fuel maxiter miniter errgoal phi = Ok (eigs, ps) ->
  length eigs = length phi /\ length ps = length phi /\
  (exists e, nth_error eigs 0 = Some (Some e)) /\
  forall j e, nth_error eigs j = Some (Some e) ->
    exists v, nth_error ps j = Some v /\ inV v /\ dot v v = c1 f0 f1 /\ dot v (A v) = cof f0 e.
Proof.
  intros fuel maxiter miniter errgoal phi eigs ps HV H.
  apply (davidson_ok f0 f1 fadd fmul fsub fopp fdiv finv fltb fsqrt OF SQ inV vadd vscale dot IS A HA size heev HEEV
    rnd0 rnd R0 R1 c1em20 c1em10 Approx0 c1em3 thousand Hc) in H; [|assumption].
  destruct H as (p0 & l0 & x & En & Ex & Le & Lp & HP & HE).
  apply (normalizeAll_ok f0 f1 fadd fmul fsub fopp fdiv finv fltb fsqrt OF SQ inV vadd vscale dot IS rnd0 R0) in En as [Ln _]; [|assumption].
  cbn [length] in Ln. split; [assumption|]. split; [assumption|]. split.
  - destruct eigs as [|[e|] eigs]; cbn [length] in Le; [lia| |].
    + now exists e.
    + now destruct HE.
  - intros j e Hj. assert (Lj : j < length ps) by (rewrite Lp, <- Le; apply nth_error_Some; congruence).
    destruct (nth_error ps j) as [v|] eqn:Ev; [|apply nth_error_None in Ev; lia].
    exists v. destruct (HP j e v Hj Ev) as [(I & N & E) _]. auto.
Qed.

(** No number returned is below a lower bound of the spectrum. *)
Theorem C53_lower_bound : forall fuel maxiter miniter errgoal phi eigs ps mu, Forall inV phi ->
  davidson fuel maxiter miniter errgoal phi = Ok (eigs, ps) ->
  (forall u, inV u -> le (fmul mu (fst (dot u u))) (fst (dot u (A u)))) ->
  forall j e, nth_error eigs j = Some (Some e) -> le mu e.
Proof.
  intros fuel maxiter miniter errgoal phi eigs ps mu HV H Hmu j e Hj.
  apply C53_davidson_all in H; [|assumption]. destruct H as (_ & _ & _ & H).
  destruct (H j e Hj) as (v & _ & I & N & E). specialize (Hmu v I). rewrite N, E in Hmu.
  unfold c1, cof in Hmu. cbn [fst] in Hmu. now replace (fmul mu f1) with mu in Hmu by ring.
Qed.

(** With one nonzero vector and working square roots and diagonalisation, davidson always
    returns, whatever the limits, the matrix and the random tensors are. *)
Theorem C53_returns :
  (forall x, le f0 x -> exists r, fsqrt x = Ok r) ->
  (forall n M, 0 < n -> (forall i j, i < n -> j < n -> M j i = cconj fopp (M i j)) -> exists U w, heev n M = Ok (U, w)) ->
  forall fuel maxiter miniter errgoal phi, inV phi -> fst (dot phi phi) <> f0 ->
  exists e v, davidson1 (S fuel) maxiter miniter errgoal phi = Ok (Some e, v).
Proof.
  intros SQT HT fuel maxiter miniter errgoal phi Hphi Hn.
  assert (exists r, davidson1 (S fuel) maxiter miniter errgoal phi = Ok r) as [[oe v] H].
  2:{ destruct (C53_davidson _ _ _ _ _ _ _ Hphi H) as (e & -> & _). eauto. }
  unfold DavModel.davidson1, DavModel.davidson. cbn [length Nat.eqb normalizeAll nonzero].
  destruct (norm_total f0 fadd fmul fsub fopp fltb fsqrt inV vadd vscale dot IS SQT phi Hphi) as [r Hr]. rewrite Hr. cbn [obind].
  assert (Rn : r <> f0).
  { intros ->. apply Hn. unfold norm in Hr. apply SQ in Hr as [Hr _]. rewrite <- Hr. ring. }
  destruct (feqb fltb r f0) eqn:Ef.
  { exfalso. apply Rn. unfold feqb in Ef. apply andb_true_iff in Ef as [F1 F2]. apply negb_true_iff in F1, F2.
    exact (of_total _ _ _ _ _ _ _ _ _ OF _ _ F1 F2). }
  cbn [obind oget nth_error repeat].
  set (p0 := vscale (cof f0 (finv r)) phi). set (x := fst (dot p0 (A p0))).
  assert (I0 : inV p0) by now apply (is_scale_in _ _ _ _ _ _ _ _ _ _ IS).
  assert (N0 : dot p0 p0 = c1 f0 f1)
    by (eapply (normalized f0 f1 fadd fmul fsub fopp fdiv finv fltb fsqrt OF SQ inV vadd vscale dot IS); eassumption).
  assert (HI : Inv f0 f1 fltb inV vadd vscale dot A p0 1 x 0
    (DS [p0] [A p0] (fun _ _ => cof f0 x) 0 (fun _ _ => cof f0 f0) (fun _ => f0) 0 thousand [p0] [None])).
  { unfold Inv. cbn [sV sAV sM sn sU sD st slast sphi seigs length].
    repeat (match goal with |- _ /\ _ => split end); try lia; try reflexivity; try assumption.
    + split; [now constructor|]. cbn [length]. intros i j Hi Hj. assert (i = 0) as -> by lia. assert (j = 0) as -> by lia. exact N0.
    + constructor; [now apply (h_in _ _ _ _ _ _ _ _ HA)|constructor].
    + intros i j Hi Hj. assert (i = 0) as -> by lia. assert (j = 0) as -> by lia. cbn [nth]. symmetry.
      now apply (dot_herm f0 f1 fadd fmul fsub fopp fdiv finv fltb OF inV vadd vscale dot IS A HA).
    + intros j e v. cbn [seigs]. destruct j as [|[|j]]; discriminate.
    + split; cbn [sn sV]; lia.
    + intros _. exists p0. split; reflexivity. }
  destruct (mainLoop_total f0 f1 fadd fmul fsub fopp fdiv finv fltb fsqrt OF SQ inV vadd vscale dot IS A HA size heev HEEV
    rnd R1 c1em20 c1em10 Approx0 c1em3 thousand Hc SQT HT p0 x miniter errgoal (Nat.min maxiter (size - 1)) 0 _ HI) as [s Es].
  rewrite Es. cbn [obind].
  apply (mainLoop_ok f0 f1 fadd fmul fsub fopp fdiv finv fltb fsqrt OF SQ inV vadd vscale dot IS A HA size heev HEEV
    rnd R1 c1em20 c1em10 Approx0 c1em3 thousand Hc p0) in Es; [|exact HI].
  destruct Es as (T & Lp & Le & _). replace (1 - S (st s)) with 0 by lia. cbn [remaining obind].
  destruct (sphi s) as [|p [|? ?]]; cbn [length] in Lp; try lia.
  destruct (seigs s) as [|e [|? ?]]; cbn [length] in Le; try lia. unfold oget. cbn [nth_error obind]. eauto.
Qed.

(** Asking for more vectors than MaxIter+1 never succeeds, although the space may be large
    enough: the numbers missing are read past the end of the last list of eigenvalues. *)
Theorem C53_more_than_iterations_refuted : forall fuel maxiter miniter errgoal phi r,
  S maxiter < length phi -> davidson fuel maxiter miniter errgoal phi <> Ok r.
Proof.
  intros. now apply (davidson_small f0 f1 fmul fsub fopp finv fltb fsqrt vadd vscale dot A size heev rnd0 rnd
    c1em20 c1em10 Approx0 c1em3 thousand).
Qed.

End Props.

(** Concrete cases over the rationals. *)
Section Examples.
Local Open Scope Qc_scope.
Definition Qcltb (x y : Qc) : bool := match Qccompare x y with Lt => true | _ => false end.

Lemma Qcltb_lt x y : Qcltb x y = true <-> x < y.
Proof. unfold Qcltb, Qclt, Qccompare. rewrite Qlt_alt. destruct (x ?= y)%Q; split; congruence. Qed.

Lemma Qc_ordered : ordered_field 0 1 Qcplus Qcmult Qcminus Qcopp Qcdiv Qcinv Qcltb.
Proof.
  constructor.
  - exact Qcft.
  - intros x. destruct (Qcltb x x) eqn:E; [|reflexivity]. apply Qcltb_lt in E. exfalso. exact (Qclt_not_eq _ _ E eq_refl).
  - intros x y z Hx Hy. rewrite Qcltb_lt in *. exact (Qclt_trans _ _ _ Hx Hy).
  - intros x y Hx Hy. destruct (Qc_dec x y) as [[L|L]|E]; [| |assumption];
      apply Qcltb_lt in L; congruence.
  - intros x y z Hx. rewrite Qcltb_lt in *. unfold Qclt, Qcplus, Q2Qc in *. cbn [this] in *.
    rewrite !Qred_correct. now apply Qplus_lt_l.
  - intros x y Hx Hy. rewrite Qcltb_lt in *. unfold Qclt, Qcmult, Q2Qc in *. cbn [this] in *.
    rewrite Qred_correct. change (this 0) with (Qred 0) in *. rewrite Qred_correct in *. now apply Qmult_lt_0_compat.
Qed.

(** The square roots of the squares of rationals. *)
Definition qsqrt (x : Qc) : outcome Qc :=
  let r := Q2Qc (Qmake (Z.sqrt (Qnum x)) (Z.to_pos (Z.sqrt (Zpos (Qden x))))) in
  if Qc_eq_bool (r * r) x && negb (Qcltb r 0) then Ok r else Err.

Lemma qsqrt_ok : sqrt_ok 0 Qcmult Qcltb qsqrt.
Proof.
  intros x r. unfold qsqrt. destruct (_ && _) eqn:E; [|discriminate]. intros [= <-].
  apply andb_true_iff in E as [E1 E2]. apply negb_true_iff in E2. split; [|assumption]. now apply Qc_eq_bool_correct.
Qed.

Notation K := (@cplx Qc).
Notation q a b := (Q2Qc (a # b)%Q).
Notation ck a b := (Q2Qc (a # b)%Q, 0).

(** The Hermitian matrix ((11/5, -12/5 i), (12/5 i, 4/5)) with eigenvalues -1 and 4. *)
Definition exM (i j : nat) : K :=
  match i, j with
  | O, O => ck 11 5 | O, _ => (0, q (-12) 5) | _, O => (0, q 12 5) | _, _ => ck 4 5
  end.

Definition ceqb (a b : K) : bool := Qc_eq_bool (fst a) (fst b) && Qc_eq_bool (snd a) (snd b).

(** A diagonalisation of ((11/5,12/5),(12/5,4/5)) and of diagonal matrices in order. *)
Definition exU (i j : nat) : K :=
  match i, j with O, O => ck 3 5 | O, _ => ck 4 5 | _, O => ck (-4) 5 | _, _ => ck 3 5 end.
Definition exw (i : nat) : Qc := match i with O => q (-1) 1 | _ => q 4 1 end.
Definition exheev (n : nat) (M : nat -> nat -> K) : outcome ((nat -> nat -> K) * (nat -> Qc)) :=
  if (n =? 2)%nat && ceqb (M 0 0)%nat (ck 11 5) && ceqb (M 0 1)%nat (ck 12 5) && ceqb (M 1 0)%nat (ck 12 5) && ceqb (M 1 1)%nat (ck 4 5)
  then Ok (exU, exw) else Err.

Lemma ceqb_eq a b : ceqb a b = true -> a = b.
Proof.
  unfold ceqb. intros H. apply andb_true_iff in H as [H1 H2]. apply Qc_eq_bool_correct in H1, H2.
  destruct a, b; cbn [fst snd] in *. congruence.
Qed.

Lemma exheev_ok : heev_ok 0 1 Qcplus Qcmult Qcminus Qcopp Qcltb exheev.
Proof.
  intros n M U w _ H. unfold exheev in H. destruct (_ && _) eqn:E; [|discriminate]. injection H as <- <-.
  repeat (rewrite andb_true_iff in E). destruct E as [[[[En E1] E2] E3] E4].
  apply Nat.eqb_eq in En as ->. apply ceqb_eq in E1, E2, E3, E4.
  repeat split.
  - intros i j Hi Hj. assert (i = 0)%nat as -> by lia. assert (j = 1)%nat as -> by lia. reflexivity.
  - intros [|[|i]] [|[|j]] Hi Hj; try lia; apply ceqb_eq; vm_compute; reflexivity.
  - intros [|[|i]] [|[|j]] Hi Hj; try lia; apply ceqb_eq; vm_compute; reflexivity.
  - intros [|[|i]] [|[|j]] Hi Hj; try lia; cbn [csum]; rewrite ?E1, ?E2, ?E3, ?E4; apply ceqb_eq; vm_compute; reflexivity.
Qed.

Definition exdav (n : nat) (M : nat -> nat -> K) (rnd : nat -> nat -> list K) :=
  davidson1 0 1 Qcmult Qcminus Qcopp Qcinv Qcltb qsqrt (ladd Qcplus) (lscale Qcplus Qcmult Qcminus)
    (ldot 0 Qcplus Qcmult Qcminus Qcopp) (lapply 0 Qcplus Qcmult Qcminus n M) n exheev rnd rnd
    (q 1 100000) (q 1 1000) (q 1 10000) (q 1 1000) (q 1000 1).

(** From (2,0), with energy 11/5, davidson finds the eigenvalue -1 and the eigenvector
    (3/5, -4/5 i). All the hypotheses of the theorems hold. *)
Example C53_nonvacuous :
  (forall i j, (i < 2)%nat -> (j < 2)%nat -> exM j i = cconj Qcopp (exM i j)) /\
  inner_space 0 Qcplus Qcmult Qcminus Qcopp Qcltb (fun v : list K => length v = 2%nat) (ladd Qcplus)
    (lscale Qcplus Qcmult Qcminus) (ldot 0 Qcplus Qcmult Qcminus Qcopp) /\
  hermitian Qcplus Qcmult Qcminus (fun v : list K => length v = 2%nat) (ladd Qcplus)
    (lscale Qcplus Qcmult Qcminus) (ldot 0 Qcplus Qcmult Qcminus Qcopp) (lapply 0 Qcplus Qcmult Qcminus 2 exM) /\
  heev_ok 0 1 Qcplus Qcmult Qcminus Qcopp Qcltb exheev /\
  sqrt_ok 0 Qcmult Qcltb qsqrt /\
  exists e v0 v1, exdav 2 exM (fun _ _ => [(1, 0); (1, 0)]) 1 5 1 (q 1 1000) [(q 2 1, 0); (0, 0)] = Ok (Some e, [v0; v1]) /\
    e = q (-1) 1 /\ ceqb v0 (ck 3 5) = true /\ ceqb v1 (0, q (-4) 5) = true.
Proof.
  assert (HM : forall i j, (i < 2)%nat -> (j < 2)%nat -> exM j i = cconj Qcopp (exM i j)).
  { intros [|[|i]] [|[|j]] Hi Hj; try lia; apply ceqb_eq; vm_compute; reflexivity. }
  split; [exact HM|]. split; [exact (list_space 0 1 _ _ _ _ _ _ _ Qc_ordered 2)|].
  split; [exact (matrix_hermitian 0 1 _ _ _ _ _ _ _ Qc_ordered 2 exM HM)|].
  split; [exact exheev_ok|]. split; [exact qsqrt_ok|].
  vm_compute. do 3 eexists. split; [reflexivity|]. split; [apply Qc_is_canon; reflexivity|]. split; reflexivity.
Qed.

(** A tensor whose only block has one element, in a space of size 2, has nothing to draw a
    second vector from: of the two numbers asked for, the second is never computed. *)
Definition oneblock (v : list K) : Prop := length v = 2%nat /\ nth 1 v (0, 0) = (0, 0).
Definition diagM (i j : nat) : K := match i, j with O, O => ck 3 1 | S O, S O => ck 5 1 | _, _ => (0, 0) end.

Theorem C53_exhausted_sector_refuted :
  (forall j k : nat, oneblock [(1, 0); (0, 0)]) /\ Forall oneblock [[(1, 0); (0, 0)]; [(1, 0); (0, 0)]] /\
  exists e p1 p2, davidson 0 1 Qcmult Qcminus Qcopp Qcinv Qcltb qsqrt (ladd Qcplus) (lscale Qcplus Qcmult Qcminus)
    (ldot 0 Qcplus Qcmult Qcminus Qcopp) (lapply 0 Qcplus Qcmult Qcminus 2 diagM) 2 exheev
    (fun _ _ => [(1, 0); (0, 0)]) (fun _ _ => [(1, 0); (0, 0)])
    (q 1 100000) (q 1 1000) (q 1 10000) (q 1 1000) (q 1000 1)
    1 5 1 (q 1 1000) [[(1, 0); (0, 0)]; [(1, 0); (0, 0)]] = Ok ([Some e; None], [p1; p2]).
Proof.
  split; [intros; split; reflexivity|]. split; [repeat constructor|].
  vm_compute. do 3 eexists. reflexivity.
Qed.

(** Three vectors asked for with MaxIter = 0 in a space of size 4: undefined behaviour. *)
Example C53_more_than_iterations_case :
  davidson 0 1 Qcmult Qcminus Qcopp Qcinv Qcltb qsqrt (ladd Qcplus) (lscale Qcplus Qcmult Qcminus)
    (ldot 0 Qcplus Qcmult Qcminus Qcopp) (lapply 0 Qcplus Qcmult Qcminus 4 diagM) 4 exheev
    (fun _ _ => [(1, 0); (0, 0); (0, 0); (0, 0)]) (fun _ _ => [(1, 0); (0, 0); (0, 0); (0, 0)])
    (q 1 100000) (q 1 1000) (q 1 10000) (q 1 1000) (q 1000 1)
    1 0 1 (q 1 1000) [[(1, 0); (0, 0); (0, 0); (0, 0)]; [(1, 0); (0, 0); (0, 0); (0, 0)]; [(1, 0); (0, 0); (0, 0); (0, 0)]] = UB.
Proof. vm_compute. reflexivity. Qed.

End Examples.

Print Assumptions C53_davidson.
Print Assumptions C53_davidson_all.
Print Assumptions C53_lower_bound.
Print Assumptions C53_returns.
Print Assumptions C53_more_than_iterations_refuted.
Print Assumptions C53_exhausted_sector_refuted.
