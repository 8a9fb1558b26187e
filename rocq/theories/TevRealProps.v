(** C64 for the real numbers of Coq: with decompositions that always return, gateTEvol returns.
    This theorem rests on the axioms of Coq's Reals library. *)
From Coq Require Import ZArith List Arith Bool Lia Reals Lra.
From Verif Require Import Util BigSum MpsModel MpsTensor MpsSpec MpsProofs MpsPosition MpsOrtho MpsProps
  DavSpec DavModel DavProofs DmrgAlg DmrgModel TevSpec TevModel TevProofs TevGate TevTriv TevProps GmRealProps.
Import ListNotations.
Local Open Scope nat_scope.

Notation K := (@cplx R).
Notation k0 := (0, 0)%R. Notation k1 := (1, 0)%R.
Notation ka := (cadd Rplus). Notation km := (cmul Rplus Rmult Rminus). Notation kc := (cconj Ropp).
(** The conversion of a double to int: towards zero. *)
Definition Rtrunc (x : R) : Z := if Rlt_dec x 0 then (1 - up (- x))%Z else (up x - 1)%Z.
Lemma ofN_R n : ofN 0%R 1%R Rplus n = INR n.
Proof. induction n as [|n IH]; [reflexivity|]. cbn [TevModel.ofN]. rewrite IH, S_INR. ring. Qed.
Lemma up_0 : up 0 = 1%Z.
Proof. symmetry. apply tech_up; cbn; lra. Qed.
Lemma Rtrunc_ok : trunc_ok 0%R 1%R Rplus Ropp Rltb Rtrunc.
Proof.
  split.
  - intros x Hx. rewrite Rltb_le in Hx. unfold Rtrunc. destruct (Rlt_dec x 0) as [L|_]; [lra|]. destruct (archimed x) as [A B].
    assert (0 < up x)%Z by (apply lt_IZR; lra). exists (Z.to_nat (up x - 1)). split; [lia|]. rewrite !ofN_R, Rltb_le, Rltb_lt, S_INR, INR_IZR_INZ, Z2Nat.id by lia.
    rewrite minus_IZR. split; lra.
  - intros x. unfold Rtrunc. destruct (Rlt_dec (- x) 0), (Rlt_dec x 0); try lra; rewrite ?Ropp_involutive; try lia.
    assert (x = 0)%R as -> by lra. rewrite Ropp_0, up_0. reflexivity.
Qed.

(** Without "Normalize", for gates of any kind. *)
Theorem C64_real : forall svdl svdr splitL splitR gates k ttotal tstep d psi dims f,
  svdl_ok k0 k1 ka km kc svdl -> svdr_ok k0 k1 ka km kc svdr -> splitl_ok k0 k1 ka km kc splitL -> splitr_ok k0 k1 ka km kc splitR ->
  split_exact k0 ka km splitL -> split_exact k0 ka km splitR ->
  (forall t, exists z, svdl t = Ok z) -> (forall t, exists z, svdr t = Ok z) ->
  (forall w, exists z, splitL w = Ok z) -> (forall w, exists z, splitR w = Ok z) ->
  shows k0 k1 ka km kc dims psi f -> Forall (on_bond (mN psi)) gates -> gates <> [] -> (2 <= k -> restartable gates) ->
  (tstep <> 0)%R -> ttotal = (INR k * tstep)%R -> (INR k < 1000000000)%R ->
  exists st, gateTEvol 0%R 1%R Rplus Rmult Rminus Ropp Rdiv Rinv Rltb Rroot svdl svdr splitL splitR (/ 100000000000000000000)%R (/ 1000000000)%R Rtrunc false
    gates ttotal tstep d psi = Ok st /\
  vtime st = ttotal /\ length (vseen st) = k /\
  shows k0 k1 ka km kc dims (vpsi st) (evolved k0 ka km dims (map place gates) k f).
Proof.
  intros svdl svdr splitL splitR gates k ttotal tstep d psi dims f SL SR PL PR XL XR T1 T2 T3 T4 SH HG NE RS HT ET HK.
  assert (HB : (Z.of_nat k <= 2147483647)%Z).
  { apply le_IZR. rewrite <- INR_IZR_INZ. lra. }
  assert (P1 : Rltb 0 (/ 100000000000000000000) = true) by (apply Rltb_lt; lra). assert (P2 : Rltb 0 (/ 1000000000) = true) by (apply Rltb_lt; lra).
  assert (LK : Rltb (/ 1000000000 * ofN 0%R 1%R Rplus k) 1 = true) by (rewrite ofN_R; apply Rltb_lt; lra).
  assert (ET' : ttotal = (ofN 0%R 1%R Rplus k * tstep)%R) by now rewrite ofN_R.
  destruct (C64_returns 0%R 1%R Rplus Rmult Rminus Ropp Rdiv Rinv Rltb Rroot R_ordered Rroot_ok svdl svdr splitL splitR _ _ Rtrunc false SL SR PL PR
    (exact_shape _ _ _ _ XL) (exact_shape _ _ _ _ XR) P1 P2 Rtrunc_ok gates k ttotal tstep d psi dims f (conj XL XR) SH HG NE HT ET' LK HB T1 T2 T3 T4 Rroot_total RS) as (st & E); [discriminate|].
  exists st. split; [exact E|].
  destruct (C64_evolves 0%R 1%R Rplus Rmult Rminus Ropp Rdiv Rinv Rltb Rroot R_ordered Rroot_ok svdl svdr splitL splitR _ _ Rtrunc false SL SR PL PR
    (exact_shape _ _ _ _ XL) (exact_shape _ _ _ _ XR) P1 P2 Rtrunc_ok gates k ttotal tstep d psi dims f st (conj XL XR) SH HG HT ET' LK HB E) as (V & (N0 & x & _ & _ & (_ & S & X) & _) & L & _).
  split; [exact V|]. split; [exact L|]. subst x. eapply (shows_ext 0%R 1%R Rplus Rmult Rminus Ropp); [|exact S].
  intros c _. cbn beta. rewrite Rinv_1. change (evolved k0 ka km dims (map place gates) k f c) with (evolved (c0 0%R) ka km dims (map place gates) k f c).
  destruct (evolved _ _ _ _ _ _ _ c) as [u v]. unfold cmul, cof. cbn [fst snd]. f_equal; ring.
Qed.

Print Assumptions C64_real.
