(** C61: nmultMPO returns the product of two operators. *)
From Coq Require Import ZArith List Bool Arith Lia Ring.
From Verif Require Import Util BigSum MpsModel MpsTensor MpsSpec MpsProofs MpsPosition MpsOrtho MpsProps LocalSem OrtSpec OrtModel OrtProofs OrtProps ApplyProofs NmultSpec NmultModel NmultProofs.
Import ListNotations.
Local Open Scope outcome_scope.

Section Props.
(** Numbers with a conjugation for which |x|^2 is definite. *)
Context {R : Type} (r0 r1 : R) (radd rmul rsub : R -> R -> R) (ropp : R -> R) (conj : R -> R).
Context (RT : ring_theory r0 r1 radd rmul rsub ropp eq).
Context (conj0 : conj r0 = r0) (conj1 : conj r1 = r1)
  (conj_add : forall x y, conj (radd x y) = radd (conj x) (conj y))
  (conj_mul : forall x y, conj (rmul x y) = rmul (conj x) (conj y))
  (conj_conj : forall x, conj (conj x) = x)
  (DEF : definite r0 radd rmul conj).
(** Indices, compared by neqb. *)
Context {N : Type} (neqb : N -> N -> bool) (NEQ : forall i j, neqb i j = true <-> i = j).
Notation tensor := (@tensor R).
Notation amp := (amplitude r0 r1 radd rmul).
Notation good := (MpsSpec.good r0 r1 radd rmul conj).
(** The eigensolver, the singular value decompositions and the factorisation of svdBond; MaxDim. *)
Context (diag : option nat -> nat -> nat -> @pmatrix R -> outcome (nat * (nat -> nat -> nat -> R))) (DOK : diag_ok r0 r1 radd rmul conj diag)
  (svdl svdr : tensor -> outcome (tensor * @matrix R)) (SL : svdl_ok r0 r1 radd rmul conj svdl) (SR : svdr_ok r0 r1 radd rmul conj svdr)
  (splitL splitR : @wave R -> outcome (tensor * tensor)) (SH : split_shape splitR) (maxdim : option nat).
Notation nmultMPO := (nmultMPO r0 radd rmul conj neqb diag svdl svdr splitL splitR maxdim).
Notation pos := (position (orthL r0 radd rmul svdl) (orthR r0 radd rmul svdr)).
Notation zip := (@zip R N).

Lemma unique_ok : forall os (xs ys : list (msite N)), all_matched os xs ys -> unique_sites neqb xs ys = Ok os.
Proof.
  intros os xs ys H. induction H as [|oa ob os x xs y ys (M1 & M2 & M3 & M4 & M5 & M6) H IH]; [reflexivity|].
  assert (NE : forall i j, i <> j -> neqb i j = false) by (intros i j D; destruct (neqb i j) eqn:E; [apply NEQ in E; contradiction|reflexivity]).
  assert (UA : unique_site neqb x y = Some oa).
  { unfold unique_site. destruct oa; cbn [own_name shared_name] in *; [now rewrite (NE (i1 x)), (NE (i1 x)) by assumption|].
    rewrite M1. rewrite (NE (i2 x)), (NE (i2 x)) by assumption. destruct ob; cbn [shared_name] in *.
    - rewrite (proj2 (NEQ (i2 y) (i2 y)) eq_refl), orb_true_r. reflexivity.
    - rewrite (proj2 (NEQ (i1 y) (i1 y)) eq_refl). reflexivity. }
  assert (UB : unique_site neqb y x = Some ob).
  { unfold unique_site. destruct ob; cbn [own_name shared_name] in *; [now rewrite (NE (i1 y)), (NE (i1 y)) by assumption|].
    rewrite <- M1. rewrite (NE (i2 y)), (NE (i2 y)) by assumption. destruct oa; cbn [shared_name] in *.
    - rewrite (proj2 (NEQ (i2 x) (i2 x)) eq_refl), orb_true_r. reflexivity.
    - rewrite (proj2 (NEQ (i1 x) (i1 x)) eq_refl). reflexivity. }
  cbn [unique_sites]. rewrite UA, UB, (proj2 (NEQ _ _) M1), IH. reflexivity.
Qed.
Lemma matched_len : forall os (xs ys : list (msite N)), all_matched os xs ys -> length os = length xs /\ length ys = length xs.
Proof. intros os xs ys H. induction H; cbn; lia. Qed.
Lemma zip_maps : forall (ta tb : list tensor) os xs ys, length ta = length xs -> length tb = length xs -> length os = length xs -> length ys = length xs ->
  map (@pa R N) (zip ta tb os xs ys) = ta /\ map (@pb R N) (zip ta tb os xs ys) = tb /\ length (zip ta tb os xs ys) = length xs.
Proof.
  induction ta as [|a ta IH]; intros [|b tb] [|o os] [|x xs] [|y ys] L1 L2 L3 L4; try discriminate; [cbn; auto|].
  cbn in *. destruct (IH tb os xs ys) as (E1 & E2 & E3); try lia. rewrite E1, E2, E3. auto.
Qed.
Lemma zip_sites : forall (ta tb : list tensor) os xs ys, all_matched os xs ys -> length ta = length xs -> length tb = length xs ->
  sites (map (pt2 r0 radd rmul) (zip ta tb os xs ys)) = dims (product_sites os xs ys).
Proof.
  intros ta tb os xs ys M. revert ta tb. induction M as [|oa ob os x xs y ys M0 M IH]; intros [|a ta] [|b tb] La Lb; try discriminate; [reflexivity|].
  cbn [NmultModel.zip map product_sites dims]. change (sites (?t :: ?ts)) with (tp t :: sites ts). cbn [dims map e1 e2]. f_equal. apply IH; cbn in *; lia.
Qed.
(** The chain held by an MPS is determined. *)
Lemma holds_eq (s : mps tensor) ts ts' : holds s ts -> holds s ts' -> ts = ts'.
Proof.
  intros [N1 A1] [N2 A2]. assert (L : length ts = length ts') by lia.
  revert ts' L A1 N2 A2 N1. assert (E : forall (l l' : list tensor), (forall k, nth_error l k = nth_error l' k) -> l = l').
  { induction l as [|x l IH]; intros [|y l'] H; [reflexivity|specialize (H 0%nat); discriminate|specialize (H 0%nat); discriminate|].
    pose proof (H 0%nat) as H0. cbn in H0. injection H0 as ->. f_equal. apply IH. intros k. apply (H (S k)). }
  intros ts' L A1 N2 A2 N1. apply E. intros k. destruct (le_lt_dec (length ts) k) as [Hk|Hk].
  - transitivity (@None tensor); [|symmetry]; apply nth_error_None; lia.
  - rewrite <- A1, <- A2 by lia. reflexivity.
Qed.
Lemma links_ok s (ts : list tensor) : good s -> holds s ts -> all_links ts = true.
Proof.
  intros (_ & _ & _ & _ & F & _) [HN HA].
  assert (J : forall k t, nth_error ts k = Some t -> S k < length ts -> tj t = true).
  { intros k t Hk Hlt. destruct (F (1 + Z.of_nat k)%Z ltac:(lia)) as (t' & E & J). rewrite HA in E by lia. rewrite Hk in E. injection E as <-. apply J. lia. }
  clear - J. induction ts as [|t [|t' ts] IH]; [reflexivity|reflexivity|]. cbn [all_links]. rewrite (J 0%nat t eq_refl) by (cbn; lia). apply IH. intros k x Hk Hl. apply (J (S k) x Hk). cbn in *. lia.
Qed.
(** What the call comes down to: both operators moved to centre 1, the loop, and the final sweep. *)
Lemma nmult_unfold d A B xs ys os ta tb : good A -> good B -> holds A ta -> proper ta -> holds B tb -> proper tb ->
  sites ta = dims xs -> sites tb = dims ys -> all_matched os xs ys -> mN A = mN B -> forall A1 B1, pos d A 1 = Ok (d, A1) -> pos d B 1 = Ok (d, B1) ->
  exists p ps ta1 tb1, zip ta1 tb1 os xs ys = p :: ps /\ good A1 /\ mr A1 = 2%Z /\ mN A1 = mN A /\ holds A1 ta1 /\ holds B1 tb1 /\ proper ta1 /\ proper tb1 /\ length ta1 = length xs /\ length tb1 = length xs /\
    (forall c, Forall2 lt c (dims xs) -> amp ta1 c = amp ta c) /\ (forall c, Forall2 lt c (dims ys) -> amp tb1 c = amp tb c) /\
    nmultMPO d A B xs ys = let! (d3, res0) := modify d A1 1 (fun t => t) in
          let! (d4, res1) := nloop r0 radd rmul conj diag splitL splitR maxdim d3 res0 1 (clust1 r0 radd rmul p) ps in
          let! res2 := orthogonalize r0 radd rmul conj diag None res1 in Ok (res2, product_sites os xs ys).
Proof.
  intros GA GB HA PA HB PB SA SB M EN A1 B1 PA1 PB1.
  pose proof GA as (D1 & N1 & _). pose proof GB as (D2 & N2 & _).
  destruct (position_good r0 r1 radd rmul rsub ropp conj RT svdl svdr SL SR d d A A1 1 GA ltac:(lia) PA1) as (_ & GA1 & EA & _ & RA & SSA).
  destruct (position_good r0 r1 radd rmul rsub ropp conj RT svdl svdr SL SR d d B B1 1 GB ltac:(lia) PB1) as (_ & GB1 & EB & _ & _ & SSB).
  destruct (SSA ta HA PA) as (ta1 & HA1 & PA1' & SA1 & AA). destruct (SSB tb HB PB) as (tb1 & HB1 & PB1' & SB1 & AB).
  destruct (matched_len _ _ _ M) as (L1 & L2).
  assert (La : length ta1 = length xs). { apply (f_equal (@length _)) in SA. apply (f_equal (@length _)) in SA1. unfold MpsSpec.sites, dims in *. rewrite !map_length in *. lia. }
  assert (Lb : length tb1 = length xs). { apply (f_equal (@length _)) in SB. apply (f_equal (@length _)) in SB1. unfold MpsSpec.sites, dims in *. rewrite !map_length in *. lia. }
  destruct (zip_maps ta1 tb1 os xs ys La Lb L1 L2) as (_ & _ & LZ).
  destruct (zip ta1 tb1 os xs ys) as [|p ps] eqn:EZ.
  { exfalso. destruct HA1 as [X _]. cbn in LZ. rewrite EA in X. rewrite La in X. lia. }
  exists p, ps, ta1, tb1. split; [exact EZ|]. split; [assumption|]. split; [rewrite RA; reflexivity|]. split; [assumption|]. split; [assumption|]. split; [assumption|]. split; [assumption|]. split; [assumption|]. split; [assumption|]. split; [assumption|].
  split; [intros c Hc; apply AA; now rewrite SA|]. split; [intros c Hc; apply AB; now rewrite SB|].
  unfold NmultModel.nmultMPO. rewrite EN, Z.eqb_refl, D1, D2. cbn [negb orb]. rewrite PA1. cbn [obind]. rewrite PB1. cbn [obind].
  pose proof HA1 as [X1 X2]. pose proof HB1 as [Y1 Y2]. rewrite X1, Nat2Z.id, (collect_ok _ ta1 1 X2). cbn [obind]. rewrite Y1, Nat2Z.id, (collect_ok _ tb1 1 Y2). cbn [obind].
  rewrite (links_ok A1 ta1), (links_ok B1 tb1) by assumption. cbn [andb negb]. rewrite (unique_ok _ _ _ M). cbn [obind]. rewrite EZ. reflexivity.
Qed.

Lemma confA_range : forall os (xs ys : list (msite N)), all_matched os xs ys -> forall u m, Forall2 lt u (map (@e1 N) (product_sites os xs ys)) -> Forall2 lt m (shared_dims os xs) -> Forall2 lt (confA os xs u m) (dims xs).
Proof.
  intros os xs ys M. induction M as [|oa ob os x xs y ys M0 M IH]; intros u m Hu Hm; cbn in Hu, Hm; inversion Hu; inversion Hm; subst; [constructor|].
  cbn. constructor; [|apply IH; assumption]. destruct oa; cbn in *; nia.
Qed.
Lemma confB_range : forall os (xs ys : list (msite N)), all_matched os xs ys -> forall v m, Forall2 lt v (map (@e2 N) (product_sites os xs ys)) -> Forall2 lt m (shared_dims os xs) -> Forall2 lt (confB os ys v m) (dims ys).
Proof.
  intros os xs ys M. induction M as [|oa ob os x xs y ys (_ & E & _) M IH]; intros u m Hu Hm; cbn in Hu, Hm; inversion Hu; inversion Hm; subst; [constructor|].
  cbn. constructor; [|apply IH; assumption]. rewrite E in *. destruct ob; cbn in *; nia.
Qed.
Lemma confP_range : forall (ps : list (msite N)) u v, Forall2 lt u (map (@e1 N) ps) -> Forall2 lt v (map (@e2 N) ps) -> Forall2 lt (confP ps u v) (dims ps).
Proof.
  induction ps as [|p ps IH]; intros u v Hu Hv; cbn in Hu, Hv; inversion Hu; inversion Hv; subst; [constructor|]. cbn. constructor; [nia|]. apply IH; assumption.
Qed.

(** nmultMPO(A,B) for two operators A and B in memory, whose tensors share one site Index at every site: if
    it returns, the result has the other two site Indices, every orthogonality claim is true of it, its
    centre is site 1, and, unless MaxDim was passed or svdBond truncates, it is the product of A and B. *)
Theorem C61_nmult : forall d A B xs ys os ta tb res ps,
  good A -> good B -> holds A ta -> proper ta -> sites ta = dims xs -> holds B tb -> proper tb -> sites tb = dims ys -> mN A = mN B ->
  all_matched os xs ys -> nmultMPO d A B xs ys = Ok (res, ps) ->
  ps = product_sites os xs ys /\ good res /\ orthoCenter res = Ok 1%Z /\
  exists ts, holds res ts /\ proper ts /\ sites ts = dims ps /\
    (maxdim = None -> split_exact r0 radd rmul splitR -> forall u v, Forall2 lt u (map (@e1 N) ps) -> Forall2 lt v (map (@e2 N) ps) ->
     amp ts (confP ps u v) = product r0 r1 radd rmul os xs ys ta tb u v).
Proof.
  intros d A B xs ys os ta tb res ps GA GB HA PA SA HB PB SB EN M H.
  assert (POS : exists A1 B1, pos d A 1 = Ok (d, A1) /\ pos d B 1 = Ok (d, B1)).
  { pose proof GA as (D1 & N1 & _). pose proof GB as (D2 & N2 & _). unfold NmultModel.nmultMPO in H. rewrite EN, Z.eqb_refl, D1, D2 in H. cbn [negb orb] in H.
    destruct (pos d A 1) as [[d1 A1]| |] eqn:E1; cbn [obind] in H; try discriminate.
    destruct (position_good r0 r1 radd rmul rsub ropp conj RT svdl svdr SL SR d d1 A A1 1 GA ltac:(lia) E1) as (-> & _).
    destruct (pos d B 1) as [[d2 B1]| |] eqn:E2; cbn [obind] in H; try discriminate.
    destruct (position_good r0 r1 radd rmul rsub ropp conj RT svdl svdr SL SR d d2 B B1 1 GB ltac:(lia) E2) as (-> & _). eauto. }
  destruct POS as (A1 & B1 & PA1 & PB1).
  destruct (nmult_unfold d A B xs ys os ta tb GA GB HA PA HB PB SA SB M EN A1 B1 PA1 PB1) as (p & rs & ta1 & tb1 & EZ & GA1 & RA1 & EA1 & HA1 & HB1 & PRA & PRB & La & Lb & AMA & AMB & EQ).
  rewrite EQ in H. clear EQ. destruct (matched_len _ _ _ M) as (L1 & L2). destruct (zip_maps ta1 tb1 os xs ys La Lb L1 L2) as (ZA & ZB & LZ).
  pose proof GA1 as (D1 & N1 & _).
  destruct (modify d A1 1 _) as [[d3 res0]| |] eqn:E1; cbn [obind] in H; try discriminate.
  assert (W : wrap A1 1 = 1%Z) by reflexivity. apply modify_mem in E1; [|assumption|rewrite W; lia]. rewrite W in E1. destruct E1 as (-> & D3 & N3 & _).
  destruct (nloop _ _ _ _ _ _ _ _ d res0 1 _ rs) as [[d4 res1]| |] eqn:E2; cbn [obind] in H; try discriminate.
  destruct (orthogonalize r0 radd rmul conj diag None res1) as [res2| |] eqn:E3; cbn [obind] in H; try discriminate. injection H as <- <-.
  rewrite EZ in ZA, ZB, LZ.
  assert (NE : rs <> []). { intros ->. cbn in E2. discriminate. }
  assert (TA : linked 1 (map (@pa R N) (p :: rs)) 1) by (rewrite ZA; exact PRA). assert (TB : linked 1 (map (@pb R N) (p :: rs)) 1) by (rewrite ZB; exact PRB).
  cbn [map linked] in TA, TB. destruct TA as [TA1 TA2], TB as [TB1 TB2].
  destruct (nloop_ok r0 r1 radd rmul rsub ropp conj RT conj0 conj_add conj_mul diag splitL splitR maxdim rs d res0 1 (clust1 r0 radd rmul p) [] d4 res1 NE D3 ltac:(lia)) as (D4 & ts1 & HO & PR & ST & LT & AM); try assumption.
  { rewrite N3. destruct HA1 as [X _]. rewrite X, La. cbn [length] in LZ. lia. }
  { reflexivity. } { intros k Hk. cbn in Hk. lia. } { reflexivity. } { split; assumption. }
  cbn [app] in *. set (C := clust1 r0 radd rmul p) in *.
  assert (TE : Forall2 teq (encC C :: map (pt2 r0 radd rmul) rs) (map (pt2 r0 radd rmul) (p :: rs))).
  { cbn [map]. constructor; [now apply clust1_teq|apply Forall2_teq_refl]. }
  assert (SI : sites (encC C :: map (pt2 r0 radd rmul) rs) = dims (product_sites os xs ys)).
  { rewrite <- (zip_sites ta1 tb1 os xs ys M La Lb), EZ. reflexivity. }
  destruct (C55_orthogonalize r0 r1 radd rmul rsub ropp conj RT conj0 conj1 conj_add conj_mul conj_conj DEF diag DOK None res1 res2 ts1 HO PR E3) as (G & OC & ts2 & HO2 & PR2 & ST2 & AM2).
  split; [reflexivity|]. split; [assumption|]. split; [assumption|]. exists ts2. split; [assumption|]. split; [assumption|]. split; [congruence|].
  intros MX SE u v Hu Hv. set (c := confP (product_sites os xs ys) u v).
  assert (Hc : Forall2 lt c (dims (product_sites os xs ys))) by (now apply confP_range).
  rewrite AM2; [|discriminate|rewrite ST, SI; exact Hc]. unfold amplitude. rewrite AM; [|assumption..|rewrite SI; exact Hc].
  rewrite (chain_teq r0 r1 radd rmul _ _ TE 1 c 0 1); [|split; [reflexivity|]; change (tr (encC C)) with (tr (pa p) * tr (pb p))%nat; apply linked_pt2; split; assumption|lia|rewrite SI; exact Hc].
  rewrite <- EZ. assert (LP : length (product_sites os xs ys) = length xs) by (clear - M; induction M; cbn; lia).
  assert (Lu : length u = length xs). { apply Forall2_length_eq in Hu. rewrite map_length in Hu. lia. } assert (Lv : length v = length xs). { apply Forall2_length_eq in Hv. rewrite map_length in Hv. lia. }
  pose proof (chain_pt2 r0 r1 radd rmul rsub ropp RT os xs ys M ta1 tb1 u v 1 1 0 0 La Lb PRA PRB ltac:(lia) ltac:(lia) Lu Lv Hu) as CH. cbn in CH. fold c in CH. rewrite CH.
  unfold product. apply csum_ext. intros m Hm. f_equal; [apply AMA|apply AMB]; [eapply confA_range|eapply confB_range]; eassumption.
Qed.
Lemma nloop_total : forall (ps : list (@opair R N)) d res i C, ps <> [] -> mdo res = false -> (1 <= i)%Z -> mN res = (i + Z.of_nat (length ps))%Z -> (mr res <= mN res + 1)%Z ->
  (forall mx p r rho, gram r0 radd rmul conj p r rho -> exists x, diag mx p r rho = Ok x) -> (forall w, exists xy, splitR w = Ok xy) ->
  exists res', nloop r0 radd rmul conj diag splitL splitR maxdim d res i C ps = Ok (d, res').
Proof.
  induction ps as [|p ps IH]; intros d res i C NE Hm Hi HN Hr TD TS; [congruence|].
  destruct ps as [|p2 ps].
  - cbn [NmultModel.nloop]. unfold svdBond. destruct (setBond_mem d res i Hm) as (s1 & K1 & N1 & A1 & Le & Ri & _). rewrite K1. cbn [obind]. rewrite Ri.
    cbn [length] in HN. destruct (Z.ltb_spec (i + 2) (mr res)); [lia|]. cbn [andb negb]. destruct (TS (cwave r0 radd rmul C p)) as ([x y] & ->). cbn [obind]. eauto.
  - set (rs := p2 :: ps) in *. change (nloop r0 radd rmul conj diag splitL splitR maxdim d res i C (p :: rs)) with (let! (m, U) := diag maxdim (cpa C * cpb C)%nat (cm C) (crho r0 radd rmul conj C) in
      let! (d1, res1) := modify d res i (fun _ => Some (cres conj C m U)) in let! (d2, res2) := modify d1 res1 (i + 1)%Z (fun t => t) in
      nloop r0 radd rmul conj diag splitL splitR maxdim d2 res2 (i + 1)%Z (clust_next r0 radd rmul m (cfork r0 radd rmul C U) p) rs).
    assert (MOD : forall (s : mps tensor) j f, mdo s = false -> (1 <= j <= mN s)%Z -> (mr s <= mN s + 1)%Z -> exists s', modify d s j f = Ok (d, s') /\ mdo s' = false /\ mN s' = mN s /\ (mr s' <= mN s + 1)%Z).
    { intros s j f E J M. assert (W : wrap s j = j) by (unfold wrap; destruct (Z.ltb_spec j 0); [lia|reflexivity]).
      assert (EX : exists d' s', modify d s j f = Ok (d', s')).
      { unfold modify, ref. rewrite W. destruct (setSite_mem d s j E) as (s1 & K & N1 & _). rewrite K. cbn [obind]. unfold inrange, ref_lims, withlims. cbn [mN]. rewrite N1.
        destruct (Z.leb_spec 0 j); [|lia]. destruct (Z.leb_spec j (mN s + 1)); [|lia]. cbn [andb obind]. eauto. }
      destruct EX as (d' & s' & EX). pose proof EX as EX'. apply modify_mem in EX'; [|assumption|rewrite W; lia]. rewrite W in EX'. destruct EX' as (-> & D & N' & _ & R' & _).
      exists s'. split; [assumption|]. split; [assumption|]. split; [assumption|]. rewrite R'. destruct (Z.leb_spec (mr s) j); lia. }
    destruct (TD maxdim (cpa C * cpb C)%nat (cm C) (crho r0 radd rmul conj C)) as ([m U] & ->); [apply (crho_gram r0 r1 radd rmul rsub ropp conj RT)|]. cbn [obind].
    destruct (MOD res i (fun _ => Some (cres conj C m U)) Hm) as (s1 & -> & D1 & N1 & R1); [cbn [length] in HN; lia|assumption|]. cbn [obind].
    destruct (MOD s1 (i + 1)%Z (fun t => t) D1) as (s2 & -> & D2 & N2 & R2); [cbn [length] in HN; lia|lia|]. cbn [obind].
    apply IH; try assumption; [discriminate|lia|cbn [length] in *; lia|lia].
Qed.

(** It returns on two or more sites, if the decompositions return. *)
Theorem C61_returns : forall d A B xs ys os ta tb,
  good A -> good B -> holds A ta -> proper ta -> sites ta = dims xs -> holds B tb -> proper tb -> sites tb = dims ys -> mN A = mN B -> all_matched os xs ys -> 2 <= length xs ->
  (forall t, exists z, svdl t = Ok z) -> (forall t, exists z, svdr t = Ok z) -> (forall w, exists xy, splitR w = Ok xy) ->
  (forall mx p r rho, gram r0 radd rmul conj p r rho -> exists x, diag mx p r rho = Ok x) ->
  exists res, nmultMPO d A B xs ys = Ok (res, product_sites os xs ys).
Proof.
  intros d A B xs ys os ta tb GA GB HA PA SA HB PB SB EN M N2 TL TR TS TD.
  pose proof GA as (D1 & N1 & L1 & M1 & _). pose proof GB as (D2 & N2' & L2 & M2 & _).
  destruct (C38_total r0 radd rmul svdl svdr d A 1 TL TR D1 L1 M1 ltac:(lia)) as (A1 & PA1).
  destruct (C38_total r0 radd rmul svdl svdr d B 1 TL TR D2 L2 M2 ltac:(lia)) as (B1 & PB1).
  destruct (nmult_unfold d A B xs ys os ta tb GA GB HA PA HB PB SA SB M EN A1 B1 PA1 PB1) as (p & rs & ta1 & tb1 & EZ & GA1 & RA1 & EA1 & HA1 & HB1 & PRA & PRB & La & Lb & AMA & AMB & ->).
  destruct (matched_len _ _ _ M) as (X1 & X2). destruct (zip_maps ta1 tb1 os xs ys La Lb X1 X2) as (ZA & ZB & LZ). rewrite EZ in ZA, ZB, LZ.
  pose proof GA1 as (D3 & N3 & _ & M3 & _).
  assert (E1 : exists res0, modify d A1 1 (fun t => t) = Ok (d, res0) /\ mdo res0 = false /\ mN res0 = mN A1 /\ (mr res0 <= mN A1 + 1)%Z).
  { assert (W : wrap A1 1 = 1%Z) by reflexivity. assert (EX : exists d' s', modify d A1 1 (fun t => t) = Ok (d', s')).
    { unfold modify, ref. rewrite W. destruct (setSite_mem d A1 1 D3) as (s1 & K & Y1 & _). rewrite K. cbn [obind]. unfold inrange, ref_lims, withlims. cbn [mN]. rewrite Y1.
      destruct (Z.leb_spec 0 1); [|lia]. destruct (Z.leb_spec 1 (mN A1 + 1)); [|lia]. cbn [andb obind]. eauto. }
    destruct EX as (d' & s' & EX). pose proof EX as EX'. apply modify_mem in EX'; [|assumption|rewrite W; lia]. rewrite W in EX'. destruct EX' as (-> & D & N' & _ & R' & _).
    exists s'. split; [assumption|]. split; [assumption|]. split; [assumption|]. rewrite R', RA1. destruct (Z.leb_spec 2 1); lia. }
  destruct E1 as (res0 & -> & E2 & E3 & E4). cbn [obind].
  assert (LR : mN res0 = (1 + Z.of_nat (length rs))%Z). { rewrite E3. destruct HA1 as [X _]. rewrite X, La. cbn [length] in LZ. lia. }
  assert (NE : rs <> []) by (intros ->; cbn in LZ; lia).
  destruct (nloop_total rs d res0 1 (clust1 r0 radd rmul p) NE E2 ltac:(lia) LR ltac:(lia) TD TS) as (res1 & EL). rewrite EL. cbn [obind].
  assert (TA : linked 1 (map (@pa R N) (p :: rs)) 1) by (rewrite ZA; exact PRA). assert (TB : linked 1 (map (@pb R N) (p :: rs)) 1) by (rewrite ZB; exact PRB).
  cbn [map linked] in TA, TB. destruct TA as [TA1 TA2], TB as [TB1 TB2].
  destruct (nloop_ok r0 r1 radd rmul rsub ropp conj RT conj0 conj_add conj_mul diag splitL splitR maxdim rs d res0 1 (clust1 r0 radd rmul p) [] d res1 NE E2 ltac:(lia)) as (D4 & ts1 & HO & PR & ST & LT & AM); try assumption.
  { reflexivity. } { intros k Hk. cbn in Hk. lia. } { reflexivity. } { split; assumption. }
  destruct (C55_returns r0 r1 radd rmul rsub ropp conj RT conj0 conj1 conj_add conj_mul diag None res1 ts1 HO PR D4) as (res2 & E5); [|exact TD|].
  { rewrite LT. cbn [app length map]. rewrite map_length. cbn [length] in LZ. lia. }
  rewrite E5. cbn [obind]. eauto.
Qed.

(** Operators on chains of different lengths are refused; so are two tensors of which one has no site Index
    the other has not, as in A*A without a prime. *)
Theorem C61_refused : forall d A B xs ys,
  (mN A <> mN B -> nmultMPO d A B xs ys = Err) /\
  (forall k x y, nth_error xs k = Some x -> nth_error ys k = Some y -> (i1 x = i1 y \/ i1 x = i2 y) -> (i2 x = i1 y \/ i2 x = i2 y) -> forall res, nmultMPO d A B xs ys <> Ok res).
Proof.
  intros d A B xs ys. split.
  - intros D. unfold NmultModel.nmultMPO. destruct (Z.eqb_spec (mN A) (mN B)); [contradiction|reflexivity].
  - intros k x y Hx Hy H1 H2 res H.
    assert (U : unique_sites neqb xs ys = Err).
    { clear H. revert ys k Hx Hy. induction xs as [|x1 xs IH]; intros [|y1 ys] [|k] Hx Hy; try discriminate.
      - cbn in Hx, Hy. injection Hx as ->. injection Hy as ->. cbn [unique_sites].
        assert (UN : unique_site neqb x y = None); [|now rewrite UN].
        unfold unique_site. assert (Q1 : neqb (i1 x) (i1 y) || neqb (i1 x) (i2 y) = true) by (apply orb_true_iff; rewrite !NEQ; assumption).
        assert (Q2 : neqb (i2 x) (i1 y) || neqb (i2 x) (i2 y) = true) by (apply orb_true_iff; rewrite !NEQ; assumption). rewrite Q1, Q2. reflexivity.
      - cbn [unique_sites]. destruct (unique_site neqb x1 y1); [|reflexivity]. destruct (unique_site neqb y1 x1); [|reflexivity]. destruct (neqb _ _); [|reflexivity].
        rewrite (IH ys k Hx Hy). reflexivity. }
    unfold NmultModel.nmultMPO in H. destruct (negb _); [discriminate|]. destruct (_ || _); [discriminate|].
    destruct (position _ _ d A 1) as [[d1 A1]| |]; cbn [obind] in H; try discriminate. destruct (position _ _ d1 B 1) as [[d2 B1]| |]; cbn [obind] in H; try discriminate.
    destruct (collect _ _ _) as [ta| |]; cbn [obind] in H; try discriminate. destruct (collect _ _ _) as [tb| |]; cbn [obind] in H; try discriminate.
    destruct (negb _); [discriminate|]. rewrite U in H. discriminate.
Qed.

(** On one site it never returns. *)
Theorem C61_one_site_refuted : forall d A B x y res, nmultMPO d A B [x] [y] <> Ok res.
Proof.
  intros d A B x y res H. unfold NmultModel.nmultMPO in H. destruct (negb _); [discriminate|]. destruct (_ || _); [discriminate|].
  destruct (position _ _ d A 1) as [[d1 A1]| |]; cbn [obind] in H; try discriminate. destruct (position _ _ d1 B 1) as [[d2 B1]| |]; cbn [obind] in H; try discriminate.
  destruct (collect _ _ _) as [ta| |]; cbn [obind] in H; try discriminate. destruct (collect _ _ _) as [tb| |]; cbn [obind] in H; try discriminate.
  destruct (negb _); [discriminate|]. destruct (unique_sites neqb [x] [y]) as [os| |] eqn:U; cbn [obind] in H; try discriminate.
  destruct (zip ta tb os [x] [y]) as [|p ps] eqn:Z; [discriminate|].
  assert (ps = []). { destruct ta as [|? ta], tb as [|? tb], os as [|? os]; try discriminate. cbn in Z. destruct ta, tb, os; cbn in Z; congruence. } subst ps.
  destruct (modify _ _ _ _) as [[d3 r]| |]; cbn [obind] in H; discriminate.
Qed.
End Props.

(** On three sites with names for the site Indices: A has s and s', stored in that order, and B has s and s'',
    stored with s'' first at site 2.  Each has a link of dimension 2 and is centred at site 1.  They are
    operators with few elements that are not zero; the one looked at is 3 * 2, by the first value of A's link. *)
Section Example.
Local Open Scope Z_scope.
Definition b2 (c : bool) : Z := if c then 1 else 0.
Definition exA : list (@tensor Z) :=
  [mkT 1 4 2 true (fun _ s b => let u := (s mod 2)%nat in let m := (s / 2)%nat in if (b =? 0)%nat then 3 * b2 ((u =? 0) && (m =? 1))%nat else 2 * b2 ((u =? 1) && (m =? 0))%nat);
   mkT 2 2 1 true (fun a s _ => b2 (a =? s)%nat);
   mkT 1 2 1 false (fun _ s _ => b2 (s =? 1)%nat)].
Definition exB : list (@tensor Z) :=
  [mkT 1 4 1 true (fun _ s _ => b2 (s =? 0)%nat + 2 * b2 (s =? 3)%nat);
   mkT 1 2 2 true (fun _ s b => if (b =? 0)%nat then b2 (s =? 0)%nat else 0);
   mkT 2 2 1 false (fun a s _ => b2 (negb (a =? s)%nat))].
Definition ofl (ts : list (@tensor Z)) : mps (@tensor Z) := mkMps 3 (fun j => if 1 <=? j then nth_error ts (Z.to_nat (j - 1)) else None) 0 2 1 false 0%nat.
Definition exxs : list (msite nat) := [mkS 11 2 1 2; mkS 12 1 2 2; mkS 13 1 3 2]%nat.
Definition exys : list (msite nat) := [mkS 21 2 1 2; mkS 2 2 22 1; mkS 23 1 3 2]%nat.
Definition exos : list (bool * bool) := [(true, true); (true, false); (true, true)].
(** An exact factorisation with an orthogonal second factor: the identity. *)
Definition exsplit (w : @wave Z) : outcome (@tensor Z * @tensor Z) :=
  Ok (mkT (wl w) (wp1 w) (wp2 w * wr w) true (fun a s q => we w a s (q mod wp2 w) (q / wp2 w))%nat,
      mkT (wp2 w * wr w) (wp2 w) (wr w) (wj w) (fun q s b => if (q =? s + wp2 w * b)%nat then 1 else 0)).
Definition exmult := nmultMPO 0 Z.add Z.mul (fun x => x) Nat.eqb exdiag toy_svd toy_svd exsplit exsplit None (fun _ _ => None) (ofl exA) (ofl exB) exxs exys.
Lemma exmult_value :
  match exmult with
  | Ok (res, ps) => Some (ps, mN res, match mA res 1, mA res 2, mA res 3 with
      | Some x1, Some x2, Some x3 => amplitude 0 1 Z.add Z.mul [x1; x2; x3] (confP (product_sites exos exxs exys) [0; 0; 0] [1; 0; 0])%nat
      | _, _, _ => 0 end)
  | _ => None
  end = Some (product_sites exos exxs exys, 3, 6).
Proof. vm_compute. reflexivity. Qed.
Example C61_nonvacuous :
  definite 0 Z.add Z.mul (fun x => x) /\ diag_ok 0 1 Z.add Z.mul (fun x => x) exdiag /\ svdl_ok 0 1 Z.add Z.mul (fun x => x) toy_svd /\ svdr_ok 0 1 Z.add Z.mul (fun x => x) toy_svd /\
  split_shape exsplit /\ split_exact 0 Z.add Z.mul exsplit /\
  holds (ofl exA) exA /\ proper exA /\ sites exA = dims exxs /\ holds (ofl exB) exB /\ proper exB /\ sites exB = dims exys /\ all_matched exos exxs exys /\
  MpsSpec.good 0 1 Z.add Z.mul (fun x => x) (ofl exA) /\ MpsSpec.good 0 1 Z.add Z.mul (fun x => x) (ofl exB) /\
  exists res, exmult = Ok (res, product_sites exos exxs exys) /\
    product 0 1 Z.add Z.mul exos exxs exys exA exB [0; 0; 0]%nat [1; 0; 0]%nat = 6 /\
    forall ts, holds res ts -> amplitude 0 1 Z.add Z.mul ts (confP (product_sites exos exxs exys) [0; 0; 0] [1; 0; 0])%nat = 6.
Proof.
  split; [exact Zdefinite|]. split; [exact exdiag_ok|]. split; [exact toy_svdl_ok|]. split; [exact toy_svdr_ok|].
  split. { intros w x y H. unfold exsplit in H. injection H as <- <-. cbn. auto. }
  split.
  { intros w x y H. unfold exsplit in H. injection H as <- <-. cbn [tl tp tr te]. repeat split. intros a s s' b Ha Hs Hs' Hb.
    rewrite (bsum_ext 0 Z.add _ _ (fun q => Z.mul (delta 0 1 (s' + wp2 w * b)%nat q) (we w a s (q mod wp2 w) (q / wp2 w))%nat)).
    2:{ intros q _. unfold delta. rewrite (Nat.eqb_sym q). destruct (_ =? q)%nat; lia. }
    rewrite (bsum_delta 0 1 Z.add Z.mul Z.sub Z.opp) by (exact InitialRing.Zth || nia).
    rewrite Nat.add_comm, Nat.mul_comm, Nat.div_add_l, Nat.div_small, Nat.add_comm, Nat.mod_add, Nat.mod_small by lia. f_equal. lia. }
  assert (HO : forall l : list (@tensor Z), length l = 3%nat -> holds (ofl l) l).
  { intros l L. split; [cbn; rewrite L; reflexivity|]. intros k Hk. unfold ofl. cbn [mA]. destruct (Z.leb_spec 1 (1 + Z.of_nat k)); [|lia]. f_equal. lia. }
  split; [apply HO; reflexivity|]. split; [vm_compute; auto|]. split; [reflexivity|].
  split; [apply HO; reflexivity|]. split; [vm_compute; auto|]. split; [reflexivity|].
  split; [repeat (constructor; [unfold matched; cbn; repeat split; lia|]); constructor|].
  assert (GD : forall l : list (@tensor Z), length l = 3%nat -> (forall t1 t2 t3, l = [t1; t2; t3] -> tj t1 = true /\ tj t2 = true /\ right_orth 0 1 Z.add Z.mul (fun x => x) t2 /\ right_orth 0 1 Z.add Z.mul (fun x => x) t3) ->
      MpsSpec.good 0 1 Z.add Z.mul (fun x => x) (ofl l)).
  { intros [|t1 [|t2 [|t3 [|]]]] L Q; try discriminate L. destruct (Q t1 t2 t3 eq_refl) as (J1 & J2 & O2 & O3).
    split; [reflexivity|]. split; [cbn; lia|]. split; [cbn; lia|]. split; [cbn; lia|]. split.
    - intros j Hj. cbn in Hj. assert (C : j = 1 \/ j = 2 \/ j = 3) by lia. destruct C as [-> | [-> | ->]]; eexists; (split; [reflexivity|]); cbn; intros; auto; lia.
    - split; [intros j t Hj; cbn in Hj; lia|]. intros j t Hj. cbn [ofl mr mN] in Hj. assert (C : j = 2 \/ j = 3) by lia. destruct C as [-> | ->]; cbn; intros E; injection E as <-; assumption. }
  assert (RO : forall t : @tensor Z, (tl t = 1 \/ tl t = 2)%nat ->
     (forall c c', (c < tl t)%nat -> (c' < tl t)%nat -> BigSum.bsum 0 Z.add (tr t) (fun b => BigSum.bsum 0 Z.add (tp t) (fun s => te t c s b * te t c' s b)) = delta 0 1 c c') -> right_orth 0 1 Z.add Z.mul (fun x => x) t).
  { intros t _ H c c' Hc Hc'. apply H; assumption. }
  split; [|split].
  - apply GD; [reflexivity|]. intros t1 t2 t3 E. injection E as <- <- <-. split; [reflexivity|]. split; [reflexivity|]. split; intros c c' Hc Hc'; cbn in Hc, Hc'.
    + destruct c as [|[|c]], c' as [|[|c']]; try lia; vm_compute; reflexivity.
    + destruct c as [|c], c' as [|c']; try lia; vm_compute; reflexivity.
  - apply GD; [reflexivity|]. intros t1 t2 t3 E. injection E as <- <- <-. split; [reflexivity|]. split; [reflexivity|]. split; intros c c' Hc Hc'; cbn in Hc, Hc'.
    + destruct c as [|c], c' as [|c']; try lia; vm_compute; reflexivity.
    + destruct c as [|[|c]], c' as [|[|c']]; try lia; vm_compute; reflexivity.
  - pose proof exmult_value as V. destruct exmult as [[res ps]| |]; try discriminate V. injection V as V1 V2 V3. subst ps. exists res. split; [reflexivity|]. split; [vm_compute; reflexivity|].
    intros ts' [HN HT]. assert (HL : length ts' = 3%nat) by (apply Nat2Z.inj; rewrite <- HN; exact V2).
    destruct ts' as [|x1 [|x2 [|x3 [|]]]]; try discriminate HL.
    pose proof (HT 0 ltac:(cbn; lia))%nat as H1. pose proof (HT 1 ltac:(cbn; lia))%nat as H2. pose proof (HT 2 ltac:(cbn; lia))%nat as H3.
    cbn [nth_error] in H1, H2, H3. change (1 + Z.of_nat 0) with 1 in H1. change (1 + Z.of_nat 1) with 2 in H2. change (1 + Z.of_nat 2) with 3 in H3. rewrite H1, H2, H3 in V3. exact V3.
Qed.
End Example.

Print Assumptions C61_nmult.
Print Assumptions C61_returns.
Print Assumptions C61_refused.
Print Assumptions C61_one_site_refuted.
