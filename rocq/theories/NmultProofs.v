(** Lemmas for C61: the sweep of nmultMPO, seen on the chain of products of the tensors of A and B with the
    two links of a bond taken as one. *)
From Coq Require Import ZArith List Bool Arith Lia Ring.
From Verif Require Import Util BigSum MpsModel MpsTensor MpsSpec MpsProofs MpsPosition LocalSem OrtSpec OrtModel OrtProofs ApplyProofs NmultSpec NmultModel.
Import ListNotations.
Local Open Scope outcome_scope.

Section NmultProofs.
Context {R : Type} (r0 r1 : R) (radd rmul rsub : R -> R -> R) (ropp : R -> R) (conj : R -> R).
Context (RT : ring_theory r0 r1 radd rmul rsub ropp eq).
Hypothesis conj0 : conj r0 = r0.
Hypothesis conj1 : conj r1 = r1.
Hypothesis conj_add : forall x y, conj (radd x y) = radd (conj x) (conj y).
Hypothesis conj_mul : forall x y, conj (rmul x y) = rmul (conj x) (conj y).
Hypothesis conj_conj : forall x, conj (conj x) = x.
Add Ring RRnm : RT.
Notation tensor := (@tensor R).
Notation bsum := (bsum r0 radd).
Notation csum := (csum r0 radd).
Notation lsum := (lsum r0 radd).
Notation chain := (chain r0 r1 radd rmul).
Notation delta := (delta r0 r1).
Notation "x + y" := (radd x y). Notation "x * y" := (rmul x y).
Let ls_ext := @lsum_ext R r0 radd.
Let ls_l := @lsum_mul_l R r0 r1 radd rmul rsub ropp RT.
Let ls_r := @lsum_mul_r R r0 r1 radd rmul rsub ropp RT.
Let ls_conj : forall A (l : list A) f, conj (lsum l f) = lsum l (fun x => conj (f x)).
Proof. intros A l f. induction l as [|x l IH]; cbn [LocalSem.lsum]; [assumption|]. rewrite conj_add, IH. reflexivity. Qed.
Let bs_ls := @bsum_lsum R r0 r1 radd rmul rsub ropp RT.
Let cs_ls := @csum_lsum R r0 r1 radd rmul rsub ropp RT.
Let b1 := fun A B => @br1 R r0 r1 radd rmul rsub ropp RT A B.
Let b2 := fun A B C => @br2 R r0 r1 radd rmul rsub ropp RT A B C.
Let b3 := fun A B C D => @br3 R r0 r1 radd rmul rsub ropp RT A B C D.
Let b4 := fun A B C D E => @br4 R r0 r1 radd rmul rsub ropp RT A B C D E.
Let b5 := fun A B C D E F => @br5 R r0 r1 radd rmul rsub ropp RT A B C D E F.
Let b6 := fun A B C D E F G => @br6 R r0 r1 radd rmul rsub ropp RT A B C D E F G.

Lemma mul_cg : forall a a' b b' c, a = a' -> b = b' -> a' * b' = c -> a * b = c.
Proof. intros; subst; reflexivity. Qed.
Lemma conj_cg : forall a a' c, a = a' -> conj a' = c -> conj a = c.
Proof. intros; subst; reflexivity. Qed.
Ltac nmul :=
  lazymatch goal with
  | |- lsum _ _ * _ = _ => etransitivity; [apply ls_r|]; eapply ls_ext; intros; nmul
  | |- _ * lsum _ _ = _ => etransitivity; [apply ls_l|]; eapply ls_ext; intros; nmul
  | |- _ => reflexivity
  end.
Ltac nconj :=
  lazymatch goal with
  | |- conj (lsum _ _) = _ => etransitivity; [apply ls_conj|]; eapply ls_ext; intros; nconj
  | |- conj (_ * _) = _ => etransitivity; [apply conj_mul|]; eapply mul_cg; [nconj|nconj|reflexivity]
  | |- _ => reflexivity
  end.
Ltac norm :=
  lazymatch goal with
  | |- bsum _ _ = _ => etransitivity; [apply bs_ls|]; eapply ls_ext; intros; norm
  | |- csum _ _ = _ => etransitivity; [apply cs_ls|]; eapply ls_ext; intros; norm
  | |- lsum _ _ = _ => eapply ls_ext; intros; norm
  | |- _ * _ = _ => eapply mul_cg; [norm|norm|nmul]
  | |- conj _ = _ => eapply conj_cg; [norm|nconj]
  | |- _ => reflexivity
  end.
Ltac both := etransitivity; [norm|]; symmetry; etransitivity; [norm|]; symmetry.
Ltac pick k :=
  (lazymatch k with
   | 0 => idtac
   | 1 => etransitivity; [|symmetry; apply b1] | 2 => etransitivity; [|symmetry; apply b2]
   | 3 => etransitivity; [|symmetry; apply b3] | 4 => etransitivity; [|symmetry; apply b4]
   | 5 => etransitivity; [|symmetry; apply b5] | 6 => etransitivity; [|symmetry; apply b6] end); apply ls_ext; intros.


Context {N : Type}.
Notation opair := (@opair R N).
Let bprod := @bsum_prod R r0 r1 radd rmul rsub ropp RT.
Let bext := @bsum_ext R r0 radd.

(** The product of the tensors of A and B at a site. *)
Definition pt2 (p : opair) : tensor :=
  mkT (tl (pa p) * tl (pb p)) (pu p * pv p) (tr (pa p) * tr (pb p)) true (fun i s j =>
    bsum (pm p) (fun m => ea p (i mod tl (pa p)) (s mod pu p) m (j mod tr (pa p)) * eb p (i / tl (pa p)) m (s / pu p) (j / tr (pa p)))).
Definition encC (C : clus R) : tensor :=
  mkT (cm C) (cpa C * cpb C) (ca C * cb C) true (fun k s j => ce C k (s mod cpa C) (s / cpa C) (j mod ca C) (j / ca C)).

Lemma clust1_teq p : tl (pa p) = 1 -> tl (pb p) = 1 -> teq (encC (clust1 r0 radd rmul p)) (pt2 p).
Proof.
  intros Ha Hb. split; [cbn; lia|]. split; [reflexivity|]. split; [reflexivity|]. cbn [encC clust1 pt2 tl tp tr te cm cpa cpb ca cb ce].
  intros k s j Hk _ _. replace k with 0%nat by lia. rewrite Ha. reflexivity.
Qed.

Lemma crho_gram C : gram r0 radd rmul conj (cpa C * cpb C) (cm C) (crho r0 radd rmul conj C).
Proof.
  exists (ca C * cb C)%nat, (fun j s k => te (encC C) k s j). intros s k s' k' _ _ _ _. unfold crho. rewrite bprod, (bsum_swap r0 r1 radd rmul rsub ropp RT).
  apply bext. intros b Hb. apply bext. intros a Ha. cbn [encC te]. rewrite pmod, pdiv by assumption. reflexivity.
Qed.
Section Step.
Context (DEF : definite r0 radd rmul conj).
(** The decomposition of clust is exact. *)
Lemma fork_exact C m U : isometry r0 r1 radd rmul conj (cpa C * cpb C) (cm C) m U -> diagonalises r0 radd rmul conj (cpa C * cpb C) (cm C) m U (crho r0 radd rmul conj C) ->
  forall k s a b, k < cm C -> s < cpa C * cpb C -> a < ca C -> b < cb C ->
  ce C k (s mod cpa C) (s / cpa C) a b = bsum m (fun q => conj (U s k q) * cfork r0 radd rmul C U q a b).
Proof.
  intros ISO (D & HD) k s a b Hk Hs Ha Hb.
  set (P := (cpa C * cpb C)%nat) in *.
  pose proof (project r0 r1 radd rmul rsub ropp conj RT conj0 conj_add conj_mul DEF (pairs (ca C) (cb C)) (pairs P (cm C)) m
    (fun c i => ce C (snd i) (fst i mod cpa C) (fst i / cpa C) (fst c) (snd c)) (fun i q => U (fst i) (snd i) q) D) as PR.
  specialize (PR ltac:(intros q q' Hq Hq'; rewrite (lsum_pairs r0 r1 radd rmul rsub ropp RT); cbn [fst snd]; now apply ISO)).
  specialize (PR ltac:(intros i i' Hi Hi'; apply in_pairs in Hi, Hi'; rewrite (lsum_pairs r0 r1 radd rmul rsub ropp RT); cbn [fst snd]; rewrite <- bs_ls, <- HD by lia; reflexivity)).
  specialize (PR (a, b) (s, k) ltac:(apply in_pairs; cbn; lia) ltac:(apply in_pairs; cbn; lia)). cbn [fst snd] in PR. rewrite PR, bs_ls. apply ls_ext. intros q _. f_equal.
  rewrite (lsum_pairs r0 r1 radd rmul rsub ropp RT). reflexivity.
Qed.
Lemma step_pair C p m U : ca C = tl (pa p) -> cb C = tl (pb p) -> isometry r0 r1 radd rmul conj (cpa C * cpb C) (cm C) m U -> diagonalises r0 radd rmul conj (cpa C * cpb C) (cm C) m U (crho r0 radd rmul conj C) ->
  same_pair r0 radd rmul (encC C) (pt2 p) (cres conj C m U) (encC (clust_next r0 radd rmul m (cfork r0 radd rmul C U) p)).
Proof.
  intros Ea Eb ISO DG. split; [reflexivity|]. split; [reflexivity|]. split; [reflexivity|]. split; [reflexivity|]. split; [reflexivity|].
  cbn [encC pt2 cres clust_next tl tp tr te cm cpa cpb ca cb ce]. intros k s s' j Hk Hs Hs' Hj. rewrite bprod.
  transitivity (bsum (cb C) (fun b0 => bsum (ca C) (fun a0 => bsum m (fun q => conj (U s k q) * cfork r0 radd rmul C U q a0 b0) *
    bsum (pm p) (fun x => ea p a0 (s' mod pu p) x (j mod tr (pa p)) * eb p b0 x (s' / pu p) (j / tr (pa p)))))).
  - rewrite <- Ea, <- Eb. both. pick 2. pick 0. pick 1. pick 0. ring.
  - apply bext. intros b0 Hb. apply bext. intros a0 Ha. rewrite <- (fork_exact C m U ISO DG) by assumption. rewrite <- Ea, !pmod, !pdiv by assumption. reflexivity.
Qed.
Lemma last_pair C p w x y : ca C = tl (pa p) -> cb C = tl (pb p) -> tr (pa p) = 1 -> tr (pb p) = 1 -> w = cwave r0 radd rmul C p ->
  tl x = wl w -> tp x = wp1 w -> tp y = wp2 w -> tr y = wr w -> tr x = tl y ->
  (forall a s s' b, a < wl w -> s < wp1 w -> s' < wp2 w -> b < wr w -> bsum (tr x) (fun c => te x a s c * te y c s' b) = we w a s s' b) ->
  same_pair r0 radd rmul (encC C) (pt2 p) x y.
Proof.
  intros Ea Eb Ra Rb -> X1 X2 X3 X4 X5 H. split; [exact X1|]. split; [exact X2|]. split; [exact X3|]. split; [rewrite X4; cbn; lia|]. split; [exact X5|].
  cbn [encC pt2 tl tp tr te]. intros k s s' j Hk Hs Hs' Hj. rewrite Ra, Rb in *. replace j with 0%nat by lia. rewrite H by (cbn; lia). cbn [cwave we]. rewrite bprod.
  transitivity (bsum (cb C) (fun b => bsum (ca C) (fun a => ce C k (s mod cpa C) (s / cpa C) a b * bsum (pm p) (fun m => ea p a (s' mod pu p) m 0 * eb p b m (s' / pu p) 0)))).
  - both. pick 0. pick 1. pick 0. ring.
  - apply bext. intros b Hb. apply bext. intros a Ha. rewrite <- Ea, !pmod, !pdiv by assumption. reflexivity.
Qed.
End Step.

(** The links of A and B along the remaining tensors. *)
Definition plinked (a b : nat) (ps : list opair) : Prop := linked a (map (@pa R N) ps) 1 /\ linked b (map (@pb R N) ps) 1.
Lemma linked_pt2 ps : forall a b, plinked a b ps -> linked (a * b) (map pt2 ps) 1.
Proof.
  unfold plinked. induction ps as [|p ps IH]; intros a b [L M]; cbn in *; [lia|]. destruct L as [<- L], M as [<- M]. split; [reflexivity|]. apply IH. auto.
Qed.

Context (diag : option nat -> nat -> nat -> @pmatrix R -> outcome (nat * (nat -> nat -> nat -> R))).
Context (splitL splitR : @wave R -> outcome (tensor * tensor)) (maxdim : option nat).
Notation nloop := (nloop r0 radd rmul conj diag splitL splitR maxdim).

Lemma nloop_ok : forall ps d res i C pre d' res', ps <> [] -> mdo res = false -> (1 <= i)%Z -> mN res = (i + Z.of_nat (length ps))%Z ->
  Z.of_nat (length pre) = (i - 1)%Z -> (forall k, k < length pre -> mA res (1 + Z.of_nat k)%Z = nth_error pre k) ->
  linked 1 pre (cm C) -> plinked (ca C) (cb C) ps -> split_shape splitR ->
  nloop d res i C ps = Ok (d', res') ->
  mdo res' = false /\ exists ts', holds res' ts' /\ proper ts' /\ sites ts' = sites (pre ++ encC C :: map pt2 ps) /\ length ts' = length (pre ++ encC C :: map pt2 ps) /\
    (diag_ok r0 r1 radd rmul conj diag -> definite r0 radd rmul conj -> maxdim = None -> split_exact r0 radd rmul splitR ->
     forall c, Forall2 lt c (sites (pre ++ encC C :: map pt2 ps)) -> chain ts' c 0 0 = chain (pre ++ encC C :: map pt2 ps) c 0 0).
Proof.
  induction ps as [|p ps IH]; intros d res i C pre d' res' NE Hm Hi HN Lp HA LP PL SH H; [congruence|].
  pose proof PL as [[PA1 PA2] [PB1 PB2]].
  assert (PROP : proper (pre ++ encC C :: map pt2 (p :: ps))).
  { unfold proper. apply linked_app. exists (cm C). split; [assumption|]. split; [reflexivity|]. change (tr (encC C)) with (ca C * cb C)%nat. now apply linked_pt2. }
  destruct ps as [|p2 ps].
  - cbn [NmultModel.nloop] in H. cbn [length] in HN. cbn in PA2, PB2. apply svdBond_mem in H as (-> & D' & N' & _ & x & y & Hs & Hx & Hy & Ho); [|assumption].
    cbn [negb] in Hs. destruct (SH _ _ _ Hs) as (X1 & X2 & X3 & X4 & X5). split; [assumption|]. exists (pre ++ [x; y]). split.
    { split; [rewrite N', HN, app_length; cbn; lia|]. intros k Hk. rewrite app_length in Hk. cbn in Hk. destruct (Nat.lt_trichotomy k (length pre)) as [K|[K|K]].
      - rewrite Ho by lia. rewrite HA by assumption. symmetry. now apply nth_error_app1.
      - replace (1 + Z.of_nat k)%Z with i by lia. rewrite Hx, nth_error_app2 by lia. rewrite K, Nat.sub_diag. reflexivity.
      - replace (1 + Z.of_nat k)%Z with (i + 1)%Z by lia. rewrite Hy, nth_error_app2 by lia. replace (k - length pre)%nat with 1%nat by lia. reflexivity. }
    split. { unfold proper. apply linked_app. exists (cm C). split; [assumption|]. split; [exact X1|]. split; [symmetry; exact X5|]. cbn. rewrite X4. reflexivity. }
    split. { unfold MpsSpec.sites. rewrite !map_app. cbn [map]. rewrite X2, X3. reflexivity. }
    split. { rewrite !app_length. reflexivity. }
    intros _ _ _ SE c Hc. destruct (SE _ _ _ Hs) as (_ & _ & _ & _ & _ & EX).
    assert (SP : same_pair r0 radd rmul (encC C) (pt2 p) x y) by (eapply last_pair; [symmetry; exact PA1|symmetry; exact PB1|exact PA2|exact PB2|reflexivity|assumption..]).
    destruct (amplitude_pair r0 r1 radd rmul rsub ropp RT pre (encC C) (pt2 p) x y [] SP PROP) as (_ & _ & AM). apply (AM c Hc).
  - set (rs := p2 :: ps) in *. change (nloop d res i C (p :: rs)) with (let! (m, U) := diag maxdim (cpa C * cpb C)%nat (cm C) (crho r0 radd rmul conj C) in
      let! (d1, res1) := modify d res i (fun _ => Some (cres conj C m U)) in let! (d2, res2) := modify d1 res1 (i + 1)%Z (fun t => t) in
      nloop d2 res2 (i + 1)%Z (clust_next r0 radd rmul m (cfork r0 radd rmul C U) p) rs) in H.
    destruct (diag maxdim _ _ _) as [[m U]| |] eqn:E; cbn [obind] in H; try discriminate.
    destruct (modify d res i _) as [[d1 res1]| |] eqn:E1; cbn [obind] in H; try discriminate.
    assert (W1 : wrap res i = i) by (unfold wrap; destruct (Z.ltb_spec i 0); [lia|reflexivity]).
    apply modify_mem in E1; [|assumption|rewrite W1; lia]. rewrite W1 in E1. destruct E1 as (-> & D1 & N1 & _ & _ & A1 & O1).
    destruct (modify d res1 (i + 1)%Z _) as [[d2 res2]| |] eqn:E2; cbn [obind] in H; try discriminate.
    assert (W2 : wrap res1 (i + 1)%Z = (i + 1)%Z) by (unfold wrap; destruct (Z.ltb_spec (i + 1) 0); [lia|reflexivity]).
    apply modify_mem in E2; [|assumption|rewrite W2; lia]. rewrite W2 in E2. destruct E2 as (-> & D2 & N2 & _ & _ & A2 & O2).
    set (C' := clust_next r0 radd rmul m (cfork r0 radd rmul C U) p) in *.
    assert (PL' : plinked (ca C') (cb C') rs) by (split; assumption).
    destruct (IH d res2 (i + 1)%Z C' (pre ++ [cres conj C m U]) d' res') as (Dr & ts' & Ho & P' & S' & L' & AM'); try assumption.
    { discriminate. } { lia. } { rewrite N2, N1, HN. cbn [length]. lia. } { rewrite app_length. cbn. lia. }
    { intros k Hk. rewrite app_length in Hk. cbn in Hk. rewrite O2 by lia. destruct (Nat.eq_dec k (length pre)) as [K|K].
      - replace (1 + Z.of_nat k)%Z with i by lia. rewrite A1, nth_error_app2 by lia. rewrite K, Nat.sub_diag. reflexivity.
      - rewrite O1 by lia. rewrite HA by lia. symmetry. apply nth_error_app1. lia. }
    { apply linked_app. exists (cm C). split; [assumption|]. split; reflexivity. }
    rewrite <- app_assoc in S', L', AM'. cbn [app] in S', L', AM'.
    assert (SS : sites (pre ++ cres conj C m U :: encC C' :: map pt2 rs) = sites (pre ++ encC C :: map pt2 (p :: rs))) by (unfold MpsSpec.sites; rewrite !map_app; reflexivity).
    split; [assumption|]. exists ts'. split; [assumption|]. split; [assumption|]. split; [congruence|]. split; [rewrite L', !app_length; reflexivity|].
    intros DOK DEF MX SE c Hc. rewrite AM' by (try assumption; congruence).
    destruct (DOK _ _ _ _ _ _ (crho_gram C) E) as [ISO DG].
    assert (SP : same_pair r0 radd rmul (encC C) (pt2 p) (cres conj C m U) (encC C')).
    { apply step_pair; try assumption; [symmetry; assumption|symmetry; assumption|]. apply DG. congruence. }
    destruct (amplitude_pair r0 r1 radd rmul rsub ropp RT pre (encC C) (pt2 p) _ _ (map pt2 rs) SP PROP) as (_ & _ & AM). apply (AM c Hc).
Qed.

(** * The chain of products is the product of the operators *)
Lemma chain_pt2 : forall os xs ys, all_matched os xs ys -> forall ta tb u v d e a b, length ta = length xs -> length tb = length xs ->
  linked d ta 1 -> linked e tb 1 -> a < d -> b < e -> length u = length xs -> length v = length xs ->
  Forall2 lt u (map (@e1 N) (product_sites os xs ys)) ->
  chain (map pt2 (zip ta tb os xs ys)) (confP (product_sites os xs ys) u v) (a + d * b) 0 =
  csum (shared_dims os xs) (fun m => chain ta (confA os xs u m) a 0 * chain tb (confB os ys v m) b 0).
Proof.
  intros os xs ys M. induction M as [|oa ob os x xs y ys M0 M IH]; intros ta tb u v d e a b La Lb LA LB Ha Hb Lu Lv Hu.
  - destruct ta; [|discriminate]. destruct tb; [|discriminate]. cbn in LA, LB. subst. replace a with 0%nat by lia. replace b with 0%nat by lia. cbn. unfold BigSum.delta. cbn. ring.
  - destruct ta as [|x0 ta]; [discriminate|]. destruct tb as [|y0 tb]; [discriminate|]. destruct u as [|u0 u]; [discriminate|]. destruct v as [|v0 v]; [discriminate|].
    destruct LA as [<- LA], LB as [<- LB]. cbn [product_sites map] in Hu. inversion Hu as [|? ? ? ? Hu0 Hu']; subst. cbn [e1] in Hu0.
    cbn [zip product_sites map confP shared_dims BigSum.csum confA confB MpsSpec.chain e1].
    set (p := mkP x0 y0 (oa, ob) x y). change (tr (pt2 p)) with (tr x0 * tr y0)%nat. rewrite bprod.
    transitivity (bsum (tr y0) (fun f => bsum (tr x0) (fun g => bsum (shared oa x) (fun m => te x0 a (both oa x u0 m) g * te y0 b (both ob y v0 m) f) *
      csum (shared_dims os xs) (fun m => chain ta (confA os xs u m) g 0 * chain tb (confB os ys v m) f 0)))).
    + apply bext. intros f Hf. apply bext. intros g Hg. rewrite (IH ta tb u v (tr x0) (tr y0)) by (try assumption; cbn in *; auto; lia). f_equal.
      cbn [pt2 te]. change (pu p) with (own oa x). change (pm p) with (shared oa x). change (pa p) with x0. change (pb p) with y0. rewrite !pmod, !pdiv by assumption. reflexivity.
    + both. pick 3. pick 2. pick 0. pick 0. ring.
Qed.
End NmultProofs.
