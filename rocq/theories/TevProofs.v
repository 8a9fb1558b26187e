(** Lemmas about gateTEvol. *)
From Coq Require Import ZArith List Bool Arith Lia Ring Field.
From Verif Require Import Util BigSum MpsModel MpsTensor MpsSpec MpsProofs MpsPosition MpsOrtho MpsProps
  LocalSem LocalMeaning DavSpec DavModel DavProofs DmrgAlg DmrgModel TevSpec TevModel.
Import ListNotations.
Local Open Scope outcome_scope.
Local Arguments Z.add : simpl never.
Local Arguments Z.sub : simpl never.
Local Arguments Nat.sub : simpl never.

(** ** States as functions of the configuration *)
Section States.
Context {R : Type} (r0 r1 : R) (radd rmul rsub : R -> R -> R) (ropp : R -> R) (conj : R -> R).
Context (RT : ring_theory r0 r1 radd rmul rsub ropp eq).
Add Ring RRtv : RT.
Notation bsum := (bsum r0 radd).
Notation act := (act r0 radd rmul).
Notation circuit := (circuit r0 radd rmul).
Notation evolved := (evolved r0 radd rmul).
Notation op2 := (@op2 R).
Notation "a * b" := (rmul a b). Notation "a + b" := (radd a b).

Lemma F2_nth (c dims : list nat) k : Forall2 Peano.lt c dims -> k < length dims -> nth k c 0 < nth k dims 0.
Proof.
  intros H. revert k. induction H as [|x d c dims Hx H IH]; intros k Hk; cbn in *; [lia|]. destruct k; [assumption|]. apply IH. lia.
Qed.
Lemma F2_cut (c dims : list nat) k : Forall2 Peano.lt c dims -> S k < length dims ->
  exists cL p q cR, c = cL ++ [p; q] ++ cR /\ length cL = k /\ p < nth k dims 0 /\ q < nth (S k) dims 0.
Proof.
  intros H. revert k. induction H as [|x d c dims Hx H IH]; intros k Hk; cbn in Hk; [lia|]. destruct k.
  - destruct H as [|y d' c' dims' Hy H]; cbn in Hk; [lia|]. exists [], x, y, c'. cbn. auto.
  - destruct (IH k ltac:(lia)) as (cL & p & q & cR & -> & L & H1 & H2). exists (x :: cL), p, q, cR. cbn. auto.
Qed.
Lemma put2_app cL p q cR p' q' : put2 (cL ++ [p; q] ++ cR) (length cL) p' q' = cL ++ [p'; q'] ++ cR.
Proof.
  unfold put2. rewrite firstn_app, Nat.sub_diag, firstn_all. cbn [firstn]. rewrite app_nil_r. f_equal. cbn [app]. do 2 f_equal.
  replace (S (S (length cL))) with (length (cL ++ [p; q])) by (rewrite app_length; cbn; lia).
  change (cL ++ p :: q :: cR) with (cL ++ [p; q] ++ cR). rewrite app_assoc. rewrite skipn_app, Nat.sub_diag, skipn_all. reflexivity.
Qed.
Lemma put2_valid (c dims : list nat) k p q : Forall2 Peano.lt c dims -> S k < length dims -> p < nth k dims 0 -> q < nth (S k) dims 0 ->
  Forall2 Peano.lt (put2 c k p q) dims.
Proof.
  intros H. revert k. induction H as [|x d c dims Hx H IH]; intros k Hk Hp Hq; cbn in Hk; [lia|]. destruct k.
  - destruct H as [|y d' c' dims' Hy H]; cbn in Hk; [lia|]. unfold put2. cbn. repeat constructor; assumption.
  - unfold put2 in *. cbn [firstn app skipn]. constructor; [assumption|]. apply IH; [lia|assumption..].
Qed.
Notation ok dims := (Forall (fun g : nat * op2 => S (fst g) < length dims)).
Lemma act_ext dims k g f f' : S k < length dims -> (forall c, Forall2 Peano.lt c dims -> f c = f' c) ->
  forall c, Forall2 Peano.lt c dims -> act dims k g f c = act dims k g f' c.
Proof.
  intros Hk Hf c Hc. unfold TevSpec.act. apply bsum_ext. intros p Hp. apply bsum_ext. intros q Hq. rewrite Hf; [reflexivity|]. now apply put2_valid.
Qed.
Lemma act_scale dims k g f z c : act dims k g (fun c => z * f c) c = z * act dims k g f c.
Proof.
  unfold TevSpec.act. rewrite <- (bsum_mul_l r0 r1 radd rmul rsub ropp RT). apply bsum_ext. intros p _.
  rewrite <- (bsum_mul_l r0 r1 radd rmul rsub ropp RT). apply bsum_ext. intros q _. ring.
Qed.
Lemma circuit_ext dims gs f f' : ok dims gs -> (forall c, Forall2 Peano.lt c dims -> f c = f' c) ->
  forall c, Forall2 Peano.lt c dims -> circuit dims gs f c = circuit dims gs f' c.
Proof.
  intros H. revert f f'. induction H as [|[k g] gs Hk H IH]; intros f f' E c Hc; cbn; [auto|]. apply IH; [|assumption]. cbn in Hk.
  intros. now apply act_ext.
Qed.
Lemma circuit_scale dims gs f z : ok dims gs -> forall c, Forall2 Peano.lt c dims -> circuit dims gs (fun c => z * f c) c = z * circuit dims gs f c.
Proof.
  intros H. revert f. induction H as [|[k g] gs Hk H IH]; intros f c Hc; [reflexivity|].
  change (circuit dims gs (act dims k g (fun c => z * f c)) c = z * circuit dims gs (act dims k g f) c).
  transitivity (circuit dims gs (fun c => z * act dims k g f c) c); [|now apply IH].
  apply circuit_ext; [assumption| |assumption]. intros. apply act_scale.
Qed.
Lemma evolved_ext dims gs n f f' : ok dims gs -> (forall c, Forall2 Peano.lt c dims -> f c = f' c) ->
  forall c, Forall2 Peano.lt c dims -> evolved dims gs n f c = evolved dims gs n f' c.
Proof.
  intros H E. induction n as [|n IH]; intros c Hc; cbn; [auto|]. now apply circuit_ext.
Qed.

(** A gate acting on the middle of a chain acts on the state. *)
Lemma insert_gate (tsL tsR : list (@tensor R)) dl dr d1 d2 (phi : nat -> list nat -> nat -> R) (g : op2) cL p' q' cR :
  bsum d1 (fun p => bsum d2 (fun q => insert r0 r1 radd rmul tsL tsR dl dr phi cL [p; q] cR * g p q p' q')) =
  insert r0 r1 radd rmul tsL tsR dl dr (fun a c b => bsum d1 (fun p => bsum d2 (fun q => phi a [p; q] b * g p q (nth 0 c 0%nat) (nth 1 c 0%nat)))) cL [p'; q'] cR.
Proof.
  unfold insert. cbn [nth].
  transitivity (bsum d1 (fun p => bsum d2 (fun q => bsum dl (fun a => bsum dr (fun b =>
     (chain r0 r1 radd rmul tsL cL 0 a * phi a [p; q] b * chain r0 r1 radd rmul tsR cR b 0) * g p q p' q'))))).
  { apply bsum_ext. intros p _. apply bsum_ext. intros q _. rewrite <- (bsum_mul_r r0 r1 radd rmul rsub ropp RT). apply bsum_ext. intros a _.
    rewrite <- (bsum_mul_r r0 r1 radd rmul rsub ropp RT). apply bsum_ext. intros b _. ring. }
  transitivity (bsum dl (fun a => bsum dr (fun b => bsum d1 (fun p => bsum d2 (fun q =>
     (chain r0 r1 radd rmul tsL cL 0 a * phi a [p; q] b * chain r0 r1 radd rmul tsR cR b 0) * g p q p' q'))))).
  { transitivity (bsum d1 (fun p => bsum dl (fun a => bsum d2 (fun q => bsum dr (fun b =>
     (chain r0 r1 radd rmul tsL cL 0 a * phi a [p; q] b * chain r0 r1 radd rmul tsR cR b 0) * g p q p' q'))))).
    { apply bsum_ext. intros p _. apply (bsum_swap r0 r1 radd rmul rsub ropp RT). }
    rewrite (bsum_swap r0 r1 radd rmul rsub ropp RT). apply bsum_ext. intros a _.
    transitivity (bsum d1 (fun p => bsum dr (fun b => bsum d2 (fun q =>
     (chain r0 r1 radd rmul tsL cL 0 a * phi a [p; q] b * chain r0 r1 radd rmul tsR cR b 0) * g p q p' q')))).
    { apply bsum_ext. intros p _. apply (bsum_swap r0 r1 radd rmul rsub ropp RT). }
    apply (bsum_swap r0 r1 radd rmul rsub ropp RT). }
  apply bsum_ext. intros a _. apply bsum_ext. intros b _.
  rewrite <- (bsum_mul_l r0 r1 radd rmul rsub ropp RT). rewrite <- (bsum_mul_r r0 r1 radd rmul rsub ropp RT). apply bsum_ext. intros p _.
  rewrite <- (bsum_mul_l r0 r1 radd rmul rsub ropp RT). rewrite <- (bsum_mul_r r0 r1 radd rmul rsub ropp RT). apply bsum_ext. intros q _. ring.
Qed.

Lemma chain_scale (pre : list (@tensor R)) t t' z post c a b :
  tr t' = tr t -> (forall a s e, te t' a s e = z * te t a s e) -> length c = length (pre ++ t :: post) ->
  chain r0 r1 radd rmul (pre ++ t' :: post) c a b = z * chain r0 r1 radd rmul (pre ++ t :: post) c a b.
Proof.
  intros Hr He. revert c a. induction pre as [|u pre IH]; intros [|s c] a Hc; cbn in Hc; try discriminate; cbn [app chain].
  - rewrite Hr, <- (bsum_mul_l r0 r1 radd rmul rsub ropp RT). apply bsum_ext. intros e _. rewrite He. ring.
  - rewrite <- (bsum_mul_l r0 r1 radd rmul rsub ropp RT). apply bsum_ext. intros e _. rewrite IH by lia. ring.
Qed.
End States.

Section Tev.
Context {F : Type} (f0 f1 : F) (fadd fmul fsub : F -> F -> F) (fopp : F -> F)
  (fdiv : F -> F -> F) (finv : F -> F) (fltb : F -> F -> bool) (fsqrt : F -> outcome F)
  (OF : ordered_field f0 f1 fadd fmul fsub fopp fdiv finv fltb)
  (SQ : sqrt_ok f0 fmul fltb fsqrt).
Notation K := (@cplx F).
Notation c0 := (c0 f0). Notation c1 := (c1 f0 f1).
Notation cadd := (cadd fadd). Notation cmul := (cmul fadd fmul fsub). Notation cconj := (cconj fopp).
Notation csub := (csub fsub). Notation copp := (copp fopp). Notation cof := (cof f0).
Let FT := of_field _ _ _ _ _ _ _ _ _ OF.
Add Field FFtv : FT.
Let CR := cring f0 f1 fadd fmul fsub fopp fdiv finv fltb OF.
Add Ring CRtv : CR.
Let C0 := conj_0 f0 f1 fadd fmul fsub fopp fdiv finv fltb OF.
Let C1 := conj_1 f0 f1 fadd fmul fsub fopp fdiv finv fltb OF.
Let CA := DavProofs.conj_add f0 f1 fadd fmul fsub fopp fdiv finv fltb OF.
Let CM := DavProofs.conj_mul f0 f1 fadd fmul fsub fopp fdiv finv fltb OF.
Notation le x y := (fltb y x = false).
Notation lt x y := (fltb x y = true).
Notation bsum := (bsum c0 cadd).
Notation csum := (BigSum.csum c0 cadd).
Notation tensor := (@tensor K).
Notation wave := (@wave K).
Notation mps := (mps tensor).
Notation bgate := (@bgate F).
Notation update := (@update F).
Notation good := (good c0 c1 cadd cmul cconj).
Notation norm2 := (norm2 c0 c1 cadd cmul cconj).
Notation tnorm2 := (tnorm2 c0 cadd cmul cconj).
Notation amplitude := (amplitude c0 c1 cadd cmul).
Notation chain := (chain c0 c1 cadd cmul).
Notation whole := (whole c0 c1 cadd cmul).
Notation act := (act c0 cadd cmul).
Notation circuit := (circuit c0 cadd cmul).
Notation evolved := (evolved c0 cadd cmul).
Notation fnorm2 := (fnorm2 c0 cadd cmul cconj).
Notation gated := (gated f0 fadd fmul fsub).
Notation pair2 := (pair2 c0 cadd cmul).

Context (svdl svdr : tensor -> outcome (tensor * (nat -> nat -> K)))
  (splitL splitR : wave -> outcome (tensor * tensor)) (c1em20 c1em9 : F) (trunc : F -> Z) (dn : bool).
Hypothesis SL : svdl_ok c0 c1 cadd cmul cconj svdl.
Hypothesis SR : svdr_ok c0 c1 cadd cmul cconj svdr.
Hypothesis PL : splitl_ok c0 c1 cadd cmul cconj splitL.
Hypothesis PR : splitr_ok c0 c1 cadd cmul cconj splitR.
Hypothesis HL : split_shape splitL.
Hypothesis HR : split_shape splitR.
Hypothesis c1em20_pos : lt f0 c1em20.
Definition exact : Prop := split_exact c0 cadd cmul splitL /\ split_exact c0 cadd cmul splitR.
Notation oL := (orthL c0 cadd cmul svdl). Notation oR := (orthR c0 cadd cmul svdr).
Notation position := (MpsModel.position oL oR).
Notation svdBond := (svdBond splitL splitR).
Notation gates_loop := (gates_loop f0 fadd fmul fsub svdl svdr splitL splitR).
Notation norm_of := (norm_of f0 fadd fmul fsub fopp fsqrt).
Notation normalize_r := (normalize_r f0 fadd fmul fsub fopp finv fltb fsqrt c1em20).

Notation shows := (shows c0 c1 cadd cmul cconj).

Lemma pair_chain (x y : tensor) a p q e : e < tr y -> chain [x; y] [p; q] a e = we (pair2 x y) a p q e.
Proof.
  intros He. cbn [MpsSpec.chain MpsTensor.pair2 we]. apply bsum_ext. intros u _. f_equal.
  transitivity (bsum (tr y) (fun v => cmul (delta c0 c1 e v) (te y u q v))).
  - apply bsum_ext. intros v _. unfold delta. rewrite (Nat.eqb_sym v e). ring.
  - now apply (bsum_delta c0 c1 cadd cmul csub copp CR).
Qed.
Definition mid2 (w : wave) (a : nat) (c : list nat) (e : nat) : K := we w a (nth 0 c 0) (nth 1 c 0) e.
Lemma amp_mid pre x y post c : proper (pre ++ x :: y :: post) -> Forall2 Peano.lt c (sites (pre ++ x :: y :: post)) ->
  amplitude (pre ++ x :: y :: post) c = whole pre post 2 (tl x) (tr y) (mid2 (pair2 x y)) c.
Proof.
  intros P Hc. unfold proper in P.
  change (pre ++ x :: y :: post) with (pre ++ [x; y] ++ post) in *.
  unfold sites in Hc. rewrite !map_app in Hc. apply linked_app in P as (k1 & P1 & P2). apply linked_app in P2 as (k2 & P2 & P3).
  assert (E1 : k1 = tl x) by (cbn in P2; symmetry; apply P2). assert (E2 : k2 = tr y) by (cbn in P2; symmetry; apply P2). subst k1 k2.
  rewrite <- (whole_chain c0 c1 cadd cmul csub copp CR pre [x; y] post (tl x) (tr y) c P1 P2 Hc).
  refine (whole_ext c0 c1 cadd cmul _ _ 2 _ _ _ _ c [tp x; tp y] eq_refl Hc _).
  intros a cc e Ha Hcc He. inversion Hcc as [|p dp cc1 ? Hp Hcc1]; subst. inversion Hcc1 as [|q dq cc2 ? Hq Hcc2]; subst. inversion Hcc2; subst.
  now apply pair_chain.
Qed.
Lemma nth_mid {A} (l : list A) a b r z : nth (length l) (l ++ a :: b :: r) z = a /\ nth (S (length l)) (l ++ a :: b :: r) z = b.
Proof.
  induction l as [|x l IH]; cbn; [auto|]. exact IH.
Qed.
Lemma whole_gated pre x y post g c : proper (pre ++ x :: y :: post) -> Forall2 Peano.lt c (sites (pre ++ x :: y :: post)) ->
  whole pre post 2 (tl x) (tr y) (mid2 (gated (pair2 x y) g)) c =
  act (sites (pre ++ x :: y :: post)) (length pre) g (amplitude (pre ++ x :: y :: post)) c.
Proof.
  intros P Hc. pose proof Hc as Hc0.
  assert (Ln : S (length pre) < length (sites (pre ++ x :: y :: post))) by (unfold sites; rewrite map_length, app_length; cbn; lia).
  assert (N : nth (length pre) (sites (pre ++ x :: y :: post)) 0 = tp x /\ nth (S (length pre)) (sites (pre ++ x :: y :: post)) 0 = tp y).
  { unfold sites. rewrite map_app. cbn [map]. rewrite <- (map_length (@tp K) pre). apply nth_mid. }
  destruct N as [N1 N2].
  destruct (F2_cut _ _ _ Hc Ln) as (cL & p & q & cR & -> & L & Hp & Hq). rewrite N1 in Hp. rewrite N2 in Hq.
  unfold TevSpec.act. rewrite N1, N2.
  transitivity (bsum (tp x) (fun p' => bsum (tp y) (fun q' =>
     cmul (insert c0 c1 cadd cmul pre post (tl x) (tr y) (mid2 (pair2 x y)) cL [p'; q'] cR) (g p' q' p q)))).
  - rewrite (whole_app c0 c1 cadd cmul) by (auto; fail).
    rewrite (insert_gate c0 c1 cadd cmul csub copp CR). unfold mid2, TevModel.gated. reflexivity.
  - apply bsum_ext. intros p' Hp'. apply bsum_ext. intros q' Hq'.
    assert (E : nth (length pre) (cL ++ [p; q] ++ cR) 0 = p /\ nth (S (length pre)) (cL ++ [p; q] ++ cR) 0 = q) by (rewrite <- L; apply nth_mid).
    destruct E as [-> ->]. f_equal.
    rewrite amp_mid; [|assumption|apply put2_valid; [assumption|exact Ln|rewrite N1; exact Hp'|rewrite N2; exact Hq']].
    rewrite <- L, put2_app. now rewrite (whole_app c0 c1 cadd cmul).
Qed.

Lemma nth_error_swap2 {A} (pre post : list A) x y x' y' k :
  nth_error (pre ++ x' :: y' :: post) k = if Nat.eqb k (length pre) then Some x' else if Nat.eqb k (S (length pre)) then Some y' else nth_error (pre ++ x :: y :: post) k.
Proof.
  revert k. induction pre as [|u pre IH]; intros k.
  - destruct k as [|[|k]]; reflexivity.
  - destruct k as [|k]; [reflexivity|]. cbn. rewrite IH. reflexivity.
Qed.
Lemma linked_swap2 (pre post : list tensor) x y x' y' a b :
  tl x' = tl x -> tr y' = tr y -> tr x' = tl y' -> linked a (pre ++ x :: y :: post) b -> linked a (pre ++ x' :: y' :: post) b.
Proof.
  intros E1 E2 E3. revert a. induction pre as [|u pre IH]; intros a; cbn.
  - intros (H1 & H2 & H3). rewrite E1, E2. auto.
  - intros (H1 & H2). auto.
Qed.
Lemma sites_swap2 (pre post : list tensor) x y x' y' : tp x' = tp x -> tp y' = tp y -> sites (pre ++ x' :: y' :: post) = sites (pre ++ x :: y :: post).
Proof. intros E1 E2. unfold sites. rewrite !map_app. cbn [map]. now rewrite E1, E2. Qed.

(** The MPS cut at the bond of a gate, before and after svdBond. *)
Definition bonded (g : bgate) (psi psi' : mps) : Prop := exists pre post x y x' y',
  holds psi (pre ++ x :: y :: post) /\ holds psi' (pre ++ x' :: y' :: post) /\ length pre = Z.to_nat (gi1 g - 1) /\
  (tl x' = tl x /\ tr y' = tr y /\ tr x' = tl y' /\ tp x' = tp x /\ tp y' = tp y) /\
  (exact -> forall a p q e, a < tl x -> p < tp x -> q < tp y -> e < tr y ->
     we (pair2 x' y') a p q e = we (gated (pair2 x y) (gel g)) a p q e).
Lemma nth_error_ext {A} (l l' : list A) : (forall k, nth_error l k = nth_error l' k) -> l = l'.
Proof.
  revert l'. induction l as [|a l IH]; intros [|a' l'] H; [reflexivity|specialize (H 0); discriminate..|].
  f_equal; [specialize (H 0); cbn in H; congruence|apply IH; intros k; exact (H (S k))].
Qed.
Lemma holds_fun (psi : mps) ts ts' : holds psi ts -> holds psi ts' -> ts = ts'.
Proof.
  intros (N1 & A1) (N2 & A2). assert (L : length ts = length ts') by lia.
  apply nth_error_ext. intros k. destruct (Nat.lt_ge_cases k (length ts)) as [H|H].
  - rewrite <- A1, <- A2 by lia. reflexivity.
  - transitivity (@None tensor); [now apply nth_error_None|symmetry; apply nth_error_None; lia].
Qed.
Lemma holds_filled (psi : mps) : good psi -> exists ts, holds psi ts.
Proof.
  intros (Gm & G2 & G3 & G4 & Gf & Gc). exists (seg (tens f0 psi) 1 (Z.to_nat (mN psi))). unfold seg. split.
  - rewrite map_length, seq_length. lia.
  - intros k Hk. rewrite map_length, seq_length in Hk. rewrite nth_error_map, (nth_error_nth' (seq 0 (Z.to_nat (mN psi))) 0) by now rewrite seq_length.
    rewrite seq_nth by assumption. cbn [option_map]. destruct (Gf (1 + Z.of_nat k)%Z) as (t & Et & _); [lia|].
    unfold tens. cbn [Nat.add]. now rewrite Et.
Qed.

Lemma bond_ok (g : bgate) d psi d1 psi1 x y fl d2 psi2 : good psi -> on_bond (mN psi) g ->
  get2 d psi (gi1 g) (gi2 g) = Ok (d1, psi1, (Some x, Some y)) ->
  svdBond d1 psi1 (gi1 g) (gated (pair2 x y) (gel g)) fl = Ok (d2, psi2) ->
  d2 = d /\ good psi2 /\ mN psi2 = mN psi /\ bonded g psi psi2 /\
  (if fl then gi1 g - 1 <= ml psi /\ ml psi2 = gi1 g /\ mr psi2 = Z.max (mr psi) (gi1 g + 2)
   else mr psi <= gi1 g + 2 /\ ml psi2 = Z.min (ml psi) (gi1 g - 1) /\ mr psi2 = gi1 g + 1)%Z.
Proof.
  intros G (B1 & B2 & B3) HG HS. rewrite B2 in *. set (b := gi1 g) in *.
  pose proof G as (Gm & G2 & G3 & G4 & Gf & Gc).
  destruct (Gf b) as (x0 & Ex & Jx); [lia|]. destruct (Gf (b + 1)%Z) as (y0 & Ey & Jy); [lia|].
  unfold get2 in HG. destruct (get_mem d psi b Gm) as (s1 & K1 & N1 & A1 & L1 & R1 & D1 & _ & _); [lia|]. rewrite K1 in HG. cbn [obind] in HG.
  destruct (get_mem d s1 (b + 1) D1) as (s2 & K2 & N2 & A2 & L2 & R2 & D2 & _ & _); [lia|]. rewrite K2 in HG. cbn [obind] in HG.
  replace (wrap psi b) with b in HG by (unfold wrap; destruct (Z.ltb_spec b 0); lia).
  rewrite A2, A1, Ex, Ey in HG. injection HG as <- <- <- <-.
  assert (G' : good s2).
  { unfold MpsSpec.good, filled, MpsSpec.claims. rewrite N2, A2, L2, R2, N1, A1, L1, R1. split; [assumption|]. auto. }
  set (w' := gated (pair2 x0 y0) (gel g)) in *.
  assert (J2 : (b + 1 < mN s2)%Z -> wj w' = true) by (rewrite N2, N1; exact Jy).
  destruct (svdBond_good c0 c1 cadd cmul cconj splitL splitR PL PR d d2 s2 psi2 b w' fl G' ltac:(lia) J2 HS) as (-> & G'' & EN').
  apply svdBond_mem in HS; [|assumption]. destruct HS as (_ & _ & _ & LM & x' & y' & Esp & Ax & Ay & Ak).
  rewrite L2, L1, R2, R1 in LM. split; [reflexivity|]. split; [assumption|]. split; [congruence|]. split; [|exact LM].
  destruct (holds_filled psi G) as (ts & HT). pose proof HT as (HN & HA).
  assert (NX : nth_error ts (Z.to_nat (b - 1)) = Some x0) by (rewrite <- HA by lia; rewrite <- Ex; f_equal; lia).
  assert (NY : nth_error ts (S (Z.to_nat (b - 1))) = Some y0) by (rewrite <- HA by lia; rewrite <- Ey; f_equal; lia).
  destruct (split_two ts _ _ _ NX NY) as (pre & post & -> & LP).
  assert (SH : tl x' = tl x0 /\ tp x' = tp x0 /\ tp y' = tp y0 /\ tr y' = tr y0 /\ tr x' = tl y') by (destruct fl; [apply (HL _ _ _ Esp)|apply (HR _ _ _ Esp)]).
  destruct SH as (S1 & S2 & S3 & S4 & S5).
  exists pre, post, x0, y0, x', y'. split; [assumption|]. split; [|split; [assumption|split; [auto|]]].
  - split; [rewrite EN', N2, N1, HN, !app_length; reflexivity|].
    intros k Hk. rewrite (nth_error_swap2 pre post x0 y0 x' y').
    destruct (Nat.eqb_spec k (length pre)) as [->|K3]; [rewrite <- Ax; f_equal; lia|].
    destruct (Nat.eqb_spec k (S (length pre))) as [->|K4]; [rewrite <- Ay; f_equal; lia|].
    rewrite Ak by lia. rewrite A2, A1. apply HA. rewrite !app_length in *. cbn in *. lia.
  - intros [XL XR] a p q e Ha Hp Hq He. destruct fl; [destruct (XL _ _ _ Esp) as (_ & _ & _ & _ & _ & Q)|destruct (XR _ _ _ Esp) as (_ & _ & _ & _ & _ & Q)];
    exact (Q a p q e Ha Hp Hq He).
Qed.

Lemma bonded_chain g psi psi' dims f : bonded g psi psi' -> shows dims psi f -> good psi' -> exists f', shows dims psi' f'.
Proof.
  intros (pre & post & x & y & x' & y' & H & H' & L & (S1 & S2 & S3 & S4 & S5) & X) (G & ts & HT & P & SI & A) G'.
  rewrite (holds_fun _ _ _ HT H) in *. exists (amplitude (pre ++ x' :: y' :: post)). split; [assumption|]. exists (pre ++ x' :: y' :: post).
  split; [assumption|]. split; [now apply (linked_swap2 pre post x y)|]. split; [|reflexivity]. rewrite <- SI. now apply sites_swap2.
Qed.
Lemma bonded_state g psi psi' dims f : exact -> bonded g psi psi' -> shows dims psi f -> good psi' ->
  shows dims psi' (act dims (fst (place g)) (snd (place g)) f).
Proof.
  intros XX (pre & post & x & y & x' & y' & H & H' & L & (S1 & S2 & S3 & S4 & S5) & X) (G & ts & HT & P & SI & A) G'. specialize (X XX).
  rewrite (holds_fun _ _ _ HT H) in *. split; [assumption|]. exists (pre ++ x' :: y' :: post).
  assert (P' : proper (pre ++ x' :: y' :: post)) by now apply (linked_swap2 pre post x y).
  assert (SI' : sites (pre ++ x' :: y' :: post) = dims) by (rewrite <- SI; now apply sites_swap2).
  split; [assumption|]. split; [assumption|]. split; [assumption|]. intros c Hc.
  rewrite amp_mid by (try rewrite SI'; assumption). rewrite S1, S2.
  transitivity (whole pre post 2 (tl x) (tr y) (mid2 (gated (pair2 x y) (gel g))) c).
  - assert (Hc' : Forall2 Peano.lt c (sites pre ++ [tp x; tp y] ++ sites post)) by (rewrite <- SI in Hc; unfold sites in Hc; now rewrite map_app in Hc).
    refine (whole_ext c0 c1 cadd cmul _ _ 2 _ _ _ _ c [tp x; tp y] eq_refl Hc' _).
    intros a cc e Ha Hcc He. inversion Hcc as [|p dp cc1 ? Hp Hcc1]; subst. inversion Hcc1 as [|q dq cc2 ? Hq Hcc2]; subst. inversion Hcc2; subst.
    unfold mid2. cbn [nth]. now apply X.
  - rewrite whole_gated by (try rewrite SI; assumption). rewrite SI, L. cbn [place fst snd].
    apply (act_ext c0 cadd cmul); try assumption. rewrite <- SI, <- L. unfold sites. rewrite map_length, app_length. cbn. lia.
Qed.

(** With the orthogonality centre on one of the two sites, what svdBond discards is what the state loses. *)
Definition residual2 (w w' : wave) : K :=
  bsum (wl w) (fun a => bsum (wp1 w) (fun p => bsum (wp2 w) (fun q => bsum (wr w) (fun e =>
    let z := csub (we w' a p q e) (we w a p q e) in cmul (cconj z) z)))).
Definition centred (b : Z) (psi : mps) : Prop := (b - 1 <= ml psi /\ mr psi <= b + 2)%Z.
Lemma bonded_loss g psi psi' dims : bonded g psi psi' -> good psi -> on_bond (mN psi) g -> centred (gi1 g) psi ->
  forall ts ts' x y x' y', holds psi ts -> proper ts -> sites ts = dims -> holds psi' ts' ->
  mA psi (gi1 g) = Some x -> mA psi (gi2 g) = Some y -> mA psi' (gi1 g) = Some x' -> mA psi' (gi2 g) = Some y' ->
  fnorm2 dims (fun c => csub (amplitude ts' c) (act dims (fst (place g)) (snd (place g)) (amplitude ts) c)) =
  residual2 (gated (pair2 x y) (gel g)) (pair2 x' y').
Proof.
  intros (pre & post & x0 & y0 & x0' & y0' & H & H' & L & (S1 & S2 & S3 & S4 & S5) & _) G (B1 & B2 & B3) (Q1 & Q2) ts ts' x y x' y' HT P SI HT' Ex Ey Ex' Ey'.
  rewrite (holds_fun _ _ _ HT H) in *. rewrite (holds_fun _ _ _ HT' H') in *. clear HT HT'. rewrite B2 in *.
  pose proof H as (HN & HA). pose proof H' as (HN' & HA').
  assert (E1 : x = x0 /\ y = y0 /\ x' = x0' /\ y' = y0').
  { assert (M : forall (z u v : tensor), nth_error (pre ++ u :: v :: post) (length pre) = Some u /\ nth_error (pre ++ u :: v :: post) (S (length pre)) = Some v)
      by (intros _ u v; clear; induction pre; cbn; auto).
    destruct (M x0 x0 y0) as [M1 M2]. destruct (M x0 x0' y0') as [M3 M4].
    rewrite <- HA in M1 by (rewrite app_length; cbn; lia). rewrite <- HA in M2 by (rewrite app_length; cbn; lia).
    rewrite <- HA' in M3 by (rewrite app_length; cbn; lia). rewrite <- HA' in M4 by (rewrite app_length; cbn; lia).
    replace (1 + Z.of_nat (length pre))%Z with (gi1 g) in M1, M3 by lia. replace (1 + Z.of_nat (S (length pre)))%Z with (gi1 g + 1)%Z in M2, M4 by lia.
    repeat split; congruence. }
  destruct E1 as (-> & -> & -> & ->).
  assert (P' : proper (pre ++ x0' :: y0' :: post)) by now apply (linked_swap2 pre post x0 y0).
  assert (SI' : sites (pre ++ x0' :: y0' :: post) = dims) by (rewrite <- SI; now apply sites_swap2).
  assert (SD : dims = sites pre ++ [tp x0; tp y0] ++ sites post) by (rewrite <- SI; unfold sites; now rewrite map_app).
  pose proof G as (Gm & G2 & G3 & G4 & Gf & (GL & GR)).
  set (dif := fun a c e => cadd (mid2 (pair2 x0' y0') a c e) (cmul (copp c1) (mid2 (gated (pair2 x0 y0) (gel g)) a c e))).
  assert (D : forall c, Forall2 Peano.lt c dims -> csub (amplitude (pre ++ x0' :: y0' :: post) c) (act dims (fst (place g)) (snd (place g)) (amplitude (pre ++ x0 :: y0 :: post)) c)
     = whole pre post 2 (tl x0) (tr y0) dif c).
  { intros c Hc. rewrite amp_mid by (try rewrite SI'; assumption). rewrite S1, S2. cbn [place fst snd]. rewrite <- L, <- SI.
    rewrite <- whole_gated by (try rewrite SI; assumption). unfold dif, DmrgAlg.whole.
    rewrite (insert_add c0 c1 cadd cmul csub copp CR), (insert_scale c0 c1 cadd cmul csub copp CR). ring. }
  unfold proper in P. change (pre ++ x0 :: y0 :: post) with (pre ++ [x0; y0] ++ post) in P.
  apply linked_app in P as (k1 & P1 & P2). apply linked_app in P2 as (k2 & P2 & P3).
  assert (E1 : k1 = tl x0) by (cbn in P2; symmetry; apply P2). assert (E2 : k2 = tr y0) by (cbn in P2; symmetry; apply P2). subst k1 k2.
  transitivity (wnorm c0 cadd cmul cconj dims (whole pre post 2 (tl x0) (tr y0) dif) (whole pre post 2 (tl x0) (tr y0) dif)).
  { apply (BigSum.csum_ext c0 cadd). intros c Hc. now rewrite D. }
  rewrite SD. change 2 with (length [tp x0; tp y0]).
  rewrite (dot_whole c0 c1 cadd cmul csub copp cconj CR C0 C1 CA CM) ; [|assumption|assumption| |].
  - unfold tdot, residual2. cbn [TevModel.gated wl wp1 wp2 wr MpsTensor.pair2]. apply bsum_ext. intros a _.
    cbn [BigSum.csum]. apply bsum_ext. intros p _. apply bsum_ext. intros q _. apply bsum_ext. intros e _.
    unfold dif, mid2. cbn [nth]. set (u := we (pair2 x0' y0') a p q e). set (v := we (gated (pair2 x0 y0) (gel g)) a p q e).
    change (cmul (cconj (cadd u (cmul (copp c1) v))) (cadd u (cmul (copp c1) v)) = cmul (cconj (csub u v)) (csub u v)).
    assert (E : cadd u (cmul (copp c1) v) = csub u v) by ring. now rewrite E.
  - apply Forall_forall. intros t Ht. apply In_nth_error in Ht as (k & Hk).
    assert (Lk : k < length pre) by (apply nth_error_Some; congruence).
    apply (GL (1 + Z.of_nat k)%Z); [lia|]. rewrite HA by (rewrite app_length; lia). rewrite nth_error_app1 by assumption. assumption.
  - apply Forall_forall. intros t Ht. apply In_nth_error in Ht as (k & Hk).
    assert (Lk : k < length post) by (apply nth_error_Some; congruence).
    apply (GR (1 + Z.of_nat (length pre + 2 + k))%Z); [rewrite HN, app_length; cbn [length]; lia|].
    rewrite HA by (rewrite app_length; cbn [length]; lia). rewrite nth_error_app2 by lia. replace (length pre + 2 + k - length pre) with (S (S k)) by lia. exact Hk.
Qed.

(** ** The loop over the gates *)
Lemma shows_same dims psi psi' f : shows dims psi f -> same_state c0 c1 cadd cmul psi psi' -> good psi' -> shows dims psi' f.
Proof.
  intros (G & ts & H & P & SI & A) S G'. destruct (S ts H P) as (ts' & H' & P' & SI' & A'). split; [assumption|]. exists ts'.
  split; [assumption|]. split; [assumption|]. split; [congruence|]. intros c Hc. rewrite A' by (rewrite SI; assumption). auto.
Qed.
Definition recorded (tt k : nat) (dims : list nat) (psi : mps) (gs : list bgate) (us : list update) : Prop :=
  map ugate us = gs /\
  forall i u, nth_error us i = Some u ->
    ustep u = tt /\ upos u = k + i /\ mN (ubefore u) = mN psi /\ (exists f, shows dims (ubefore u) f) /\
    bonded (ugate u) (ubefore u) (uafter u) /\
    (if Nat.eqb i 0 then ubefore u = psi else centred (gi1 (ugate u)) (ubefore u)).
Lemma loop_ok dims : forall gs tt k d psi log d' psi' log' f, shows dims psi f -> Forall (on_bond (mN psi)) gs ->
  gates_loop tt k gs d psi log = Ok (d', psi', log') ->
  d' = d /\ mN psi' = mN psi /\ (exists f', shows dims psi' f') /\ (exact -> shows dims psi' (circuit dims (map place gs) f)) /\
  (exists us, log' = log ++ us /\ recorded tt k dims psi gs us) /\
  (forall g0, gs <> [] -> mr psi' = gi1 (last gs g0) + 1 /\ ((2 <= length gs)%nat \/ gi1 (last gs g0) - 1 <= ml psi -> ml psi' = gi1 (last gs g0) - 1))%Z.
Proof.
  induction gs as [|g gs IH]; intros tt k d psi log d' psi' log' f SH HF HL'.
  { cbn [TevModel.gates_loop] in HL'. injection HL' as <- <- <-. split; [reflexivity|]. split; [reflexivity|]. split; [eauto|]. split; [auto|].
    split; [exists []; rewrite app_nil_r; split; [reflexivity|]; split; [reflexivity|]; intros [|i] u Hu; discriminate|congruence]. }
  inversion HF as [|? ? HB HF']; subst. pose proof HB as (B1 & B2 & B3). pose proof SH as (G & _).
  cbn [TevModel.gates_loop] in HL'. rewrite B2, Z.eqb_refl in HL'. cbn [negb] in HL'. rewrite <- B2 in HL'.
  destruct (get2 d psi (gi1 g) (gi2 g)) as [[[d1 psi1] [[x|] [y|]]]| |] eqn:EG; cbn [obind] in HL'; try discriminate.
  set (AA := gated (pair2 x y) (gel g)) in *.
  (* the rest of the turn *)
  assert (REST : exists fl psi2 psi3, svdBond d1 psi1 (gi1 g) AA fl = Ok (d, psi2) /\ good psi2 /\ mN psi2 = mN psi /\ bonded g psi psi2 /\
    (match gs with [] => psi3 = psi2 /\ fl = false | g' :: _ => good psi3 /\ mN psi3 = mN psi /\ same_state c0 c1 cadd cmul psi2 psi3 /\
        ((ml psi3 = gi1 g' - 1 /\ mr psi3 = gi1 g' + 1) \/ (ml psi3 = gi2 g' - 1 /\ mr psi3 = gi2 g' + 1))%Z end) /\
    (mr psi2 = if fl then Z.max (mr psi) (gi1 g + 2) else gi1 g + 1)%Z /\ (ml psi2 = if fl then gi1 g else Z.min (ml psi) (gi1 g - 1))%Z /\
    gates_loop tt (S k) gs d psi3 (log ++ [mkU tt k g psi psi2]) = Ok (d', psi', log')).
  { destruct gs as [|g' gs'].
    - destruct (svdBond d1 psi1 (gi1 g) AA false) as [[d2 psi2]| |] eqn:ES; cbn [obind] in HL'; try discriminate.
      destruct (bond_ok g d psi d1 psi1 x y false d2 psi2 G HB EG ES) as (-> & G2 & N2 & BO & L1 & L2 & L3).
      exists false, psi2, psi2. repeat (split; [first [assumption|reflexivity|solve [auto]]|]). exact HL'.
    - inversion HF' as [|? ? HB' HF'']; subst. destruct HB' as (B1' & B2' & B3').
      destruct (Z.leb_spec (gi2 g) (gi1 g')).
      + destruct (svdBond d1 psi1 (gi1 g) AA true) as [[d2 psi2]| |] eqn:ES; cbn [obind] in HL'; try discriminate.
        destruct (bond_ok g d psi d1 psi1 x y true d2 psi2 G HB EG ES) as (-> & G2 & N2 & BO & L1 & L2 & L3).
        destruct (position d psi2 (gi1 g')) as [[d3 psi3]| |] eqn:EP; cbn [obind] in HL'; try discriminate.
        destruct (position_good c0 c1 cadd cmul csub copp cconj CR svdl svdr SL SR d d3 psi2 psi3 (gi1 g') G2 ltac:(lia) EP) as (-> & G3 & N3 & L4 & L5 & S3).
        exists true, psi2, psi3. repeat (split; [first [assumption|reflexivity|solve [auto]]|]).
        split; [split; [assumption|split; [congruence|split; [assumption|left; split; assumption]]]|]. repeat (split; [assumption|]). exact HL'.
      + destruct (svdBond d1 psi1 (gi1 g) AA false) as [[d2 psi2]| |] eqn:ES; cbn [obind] in HL'; try discriminate.
        destruct (bond_ok g d psi d1 psi1 x y false d2 psi2 G HB EG ES) as (-> & G2 & N2 & BO & L1 & L2 & L3).
        destruct (position d psi2 (gi2 g')) as [[d3 psi3]| |] eqn:EP; cbn [obind] in HL'; try discriminate.
        destruct (position_good c0 c1 cadd cmul csub copp cconj CR svdl svdr SL SR d d3 psi2 psi3 (gi2 g') G2 ltac:(lia) EP) as (-> & G3 & N3 & L4 & L5 & S3).
        exists false, psi2, psi3. repeat (split; [first [assumption|reflexivity|solve [auto]]|]).
        split; [split; [assumption|split; [congruence|split; [assumption|right; split; assumption]]]|]. repeat (split; [assumption|]). exact HL'. }
  clear HL'. destruct REST as (fl & psi2 & psi3 & ES & G2 & N2 & BO & MT & L2 & L1 & HL').
  assert (T3 : mN psi3 = mN psi /\ (forall f', shows dims psi2 f' -> shows dims psi3 f')).
  { destruct gs as [|g' gs']; [destruct MT as [-> _]; auto|]. destruct MT as (G3 & N3 & S3 & _). split; [assumption|].
    intros f' H'. exact (shows_same _ _ _ _ H' S3 G3). }
  destruct T3 as [N3 T3].
  destruct (bonded_chain _ _ _ _ _ BO SH G2) as (f2 & SH2). pose proof (T3 _ SH2) as SH3.
  rewrite <- N3 in HF'.
  destruct (IH tt (S k) d psi3 _ d' psi' log' f2 SH3 HF' HL') as (-> & N' & (f' & SH') & _ & (us & EU & (RG & RU)) & RL).
  split; [reflexivity|]. split; [congruence|]. split; [eauto|]. split; [|split].
  - intros XX. pose proof (T3 _ (bonded_state _ _ _ _ _ XX BO SH G2)) as SH4.
    destruct (IH tt (S k) d psi3 _ d psi' log' _ SH4 HF' HL') as (_ & _ & _ & Q & _). exact (Q XX).
  - exists (mkU tt k g psi psi2 :: us). split; [rewrite EU, <- app_assoc; reflexivity|]. split; [cbn; now rewrite RG|].
    intros [|i] u Hu; cbn in Hu.
    + injection Hu as <-. cbn. split; [reflexivity|]. split; [lia|]. split; [reflexivity|]. split; [eauto|]. split; [assumption|reflexivity].
    + destruct (RU i u Hu) as (R1 & R2 & R3 & R4 & R5 & R6). split; [assumption|]. split; [lia|]. split; [congruence|]. split; [assumption|]. split; [assumption|].
      cbn [Nat.eqb]. destruct i as [|i]; [|exact R6]. cbn [Nat.eqb] in R6. rewrite R6.
      destruct gs as [|g' gs']; [destruct us; discriminate|]. destruct us as [|u0 us]; [discriminate|]. injection Hu as ->. cbn in RG. injection RG as RG _. rewrite RG.
      destruct MT as (_ & _ & _ & MT). inversion HF' as [|? ? HB' HF'']; subst. destruct HB' as (B1' & B2' & B3'). unfold centred. lia.
  - intros g0 _. destruct gs as [|g' gs'].
    + cbn [TevModel.gates_loop] in HL'. injection HL' as <- _. destruct MT as [-> ->]. cbn [last length]. split; [exact L2|]. intros [H|H]; [cbn in H; lia|]. lia.
    + destruct (RL g0 ltac:(discriminate)) as (R1 & R2). change (last (g :: g' :: gs') g0) with (last (g' :: gs') g0). split; [assumption|].
      intros _. apply R2. destruct gs' as [|g'' gs'']; [right|left; cbn; lia]. cbn [last].
      destruct MT as (_ & _ & _ & MT). inversion HF' as [|? ? HB' HF'']; subst. destruct HB' as (B1' & B2' & B3'). lia.
Qed.

(** ** Norms *)
Lemma fnorm2_norm2 ts : norm2 ts = fnorm2 (sites ts) (amplitude ts).
Proof. reflexivity. Qed.
Lemma fnorm2_ext dims f f' : (forall c, Forall2 Peano.lt c dims -> f c = f' c) -> fnorm2 dims f = fnorm2 dims f'.
Proof. intros H. apply (BigSum.csum_ext c0 cadd). intros c Hc. now rewrite H. Qed.
Lemma fnorm2_scale dims z f : fnorm2 dims (fun c => cmul (cof z) (f c)) = cmul (cof (fmul z z)) (fnorm2 dims f).
Proof.
  unfold TevSpec.fnorm2. rewrite <- (csum_mul_l c0 c1 cadd cmul csub copp CR). apply (BigSum.csum_ext c0 cadd). intros c _.
  rewrite CM, (conj_of f0 f1 fadd fmul fsub fopp fdiv finv fltb OF), (of_mul' f0 f1 fadd fmul fsub fopp fdiv finv fltb OF). ring.
Qed.
Lemma sum_real m (f : nat -> K) : (forall i, i < m -> snd (f i) = f0 /\ le f0 (fst (f i))) -> snd (bsum m f) = f0 /\ le f0 (fst (bsum m f)).
Proof.
  induction m as [|m IH]; intros Hf; cbn [BigSum.bsum]; [split; [reflexivity|apply (le_refl f0 f1 fadd fmul fsub fopp fdiv finv fltb OF)]|].
  destruct IH as [I1 I2]; [auto|]. destruct (Hf m ltac:(lia)) as [I3 I4].
  change (fadd (snd (bsum m f)) (snd (f m)) = f0 /\ le f0 (fadd (fst (bsum m f)) (fst (f m)))). rewrite I1, I3. split; [ring|].
  pose proof (le_add2 f0 f1 fadd fmul fsub fopp fdiv finv fltb OF f0 _ f0 _ I2 I4) as Q. now replace (fadd f0 f0) with f0 in Q by ring.
Qed.
Lemma csum_real ps (f : list nat -> K) : (forall c, snd (f c) = f0 /\ le f0 (fst (f c))) -> snd (csum ps f) = f0 /\ le f0 (fst (csum ps f)).
Proof. revert f. induction ps as [|q ps IH]; intros f Hf; cbn [BigSum.csum]; [apply Hf|]. apply sum_real. intros i _. apply IH. auto. Qed.
Lemma fnorm2_real dims f : exists r, fnorm2 dims f = cof r /\ le f0 r.
Proof.
  assert (Q : snd (fnorm2 dims f) = f0 /\ le f0 (fst (fnorm2 dims f))).
  { apply csum_real. intros c. rewrite (abs2_conj f0 f1 fadd fmul fsub fopp fdiv finv fltb OF). split; [reflexivity|]. apply (abs2_nonneg f0 f1 fadd fmul fsub fopp fdiv finv fltb OF). }
  destruct Q as [Q1 Q2]. exists (fst (fnorm2 dims f)). split; [|assumption]. destruct (fnorm2 dims f) as [a b]. cbn in *. now subst b.
Qed.

Lemma norm_ok dims d psi d' psi' nrm f : shows dims psi f -> norm_of d psi = Ok (d', psi', nrm) ->
  d' = d /\ shows dims psi' f /\ mN psi' = mN psi /\ mA psi' = mA psi /\ ml psi' = ml psi /\ mr psi' = mr psi /\ (mr psi = ml psi + 2)%Z /\
  le f0 nrm /\ cof (fmul nrm nrm) = fnorm2 dims f.
Proof.
  intros (G & ts & H & P & SI & A) HN. pose proof G as (Gm & G2 & G3 & G4 & Gf & Gc).
  unfold TevModel.norm_of in HN. destruct (orthoCenter psi) as [i| |] eqn:OC; cbn [obind] in HN; try discriminate.
  assert (Oi : (i = ml psi + 1 /\ mr psi = ml psi + 2)%Z).
  { unfold orthoCenter, isOrtho in OC. destruct (Z.eqb_spec (ml psi + 1) (mr psi - 1)); [|discriminate]. injection OC as <-. lia. }
  destruct (get_mem d psi i Gm) as (s1 & K1 & N1 & A1 & L1 & R1 & D1 & _ & _); [lia|]. rewrite K1 in HN. cbn [obind] in HN.
  destruct (mA psi i) as [t|] eqn:Et; [|discriminate].
  pose proof (C38_norm c0 c1 cadd cmul csub copp cconj CR psi ts i t CA CM C0 C1 G H P OC Et) as QN.
  destruct (fsqrt (fst (tnorm2 t))) as [r| |] eqn:ER; cbn [obind] in HN; try discriminate. injection HN as <- <- <-.
  apply SQ in ER as [Er Hr0]. split; [reflexivity|]. split; [|repeat (split; [first [assumption|lia]|])].
  - split.
    + unfold MpsSpec.good, filled, MpsSpec.claims. rewrite N1, A1, L1, R1. split; [assumption|]. auto.
    + exists ts. split; [|auto]. destruct H as [H1 H2]. split; [congruence|]. now rewrite A1.
  - rewrite Er, <- QN, fnorm2_norm2, SI. rewrite (fnorm2_ext _ _ _ A). destruct (fnorm2_real dims f) as (z & -> & _). reflexivity.
Qed.

Lemma good_same (psi : mps) psi' : good psi -> mdo psi' = false -> mN psi' = mN psi -> ml psi' = ml psi -> mr psi' = mr psi ->
  (forall j, (1 <= j <= ml psi \/ mr psi <= j <= mN psi)%Z -> mA psi' j = mA psi j) -> filled psi' -> good psi'.
Proof.
  intros (Gm & G2 & G3 & G4 & Gf & (GL & GR)) D N L R A Fl. unfold MpsSpec.good, MpsSpec.claims. rewrite N, L, R.
  repeat (split; [first [assumption|lia]|]). split.
  - intros j t Hj Ht. rewrite A in Ht by lia. eauto.
  - intros j t Hj Ht. rewrite A in Ht by lia. eauto.
Qed.
Lemma split_one {X} (l : list X) k x : nth_error l k = Some x -> exists pre post, l = pre ++ x :: post /\ length pre = k.
Proof. intros H. apply nth_error_split in H as (a & b & -> & L). eauto. Qed.
Lemma nth_error_swap1 {A} (pre post : list A) x x' k :
  nth_error (pre ++ x' :: post) k = if Nat.eqb k (length pre) then Some x' else nth_error (pre ++ x :: post) k.
Proof.
  revert k. induction pre as [|u pre IH]; intros k; [destruct k; reflexivity|]. destruct k as [|k]; [reflexivity|]. cbn. apply IH.
Qed.

Lemma normalize_ok dims d psi d' psi' nrm f : shows dims psi f -> normalize_r d psi = Ok (d', psi', nrm) ->
  d' = d /\ mN psi' = mN psi /\ ml psi' = ml psi /\ mr psi' = mr psi /\ le c1em20 nrm /\ lt f0 nrm /\ cof (fmul nrm nrm) = fnorm2 dims f /\
  shows dims psi' (fun c => cmul (cof (finv nrm)) (f c)).
Proof.
  intros SH HN. unfold TevModel.normalize_r in HN.
  destruct (norm_of d psi) as [[[d1 psi1] r]| |] eqn:EN; cbn [obind] in HN; try discriminate.
  destruct (norm_ok dims d psi d1 psi1 r f SH EN) as (-> & SH1 & N1 & A1 & L1 & R1 & LR & Hr0 & Er).
  destruct (fltb (fabs f0 fopp fltb r) c1em20) eqn:Ea; [discriminate|].
  unfold fabs in Ea. rewrite Hr0 in Ea.
  assert (Hr : lt f0 r) by (apply (lt_le_trans f0 f1 fadd fmul fsub fopp fdiv finv fltb OF _ c1em20); assumption).
  destruct (scale d psi1 _) as [[d2 psi2]| |] eqn:ES; cbn [obind] in HN; try discriminate. injection HN as <- <- <-.
  pose proof SH1 as (G1 & ts & H & P & SI & A). pose proof G1 as (Gm & G2 & G3 & G4 & Gf & Gc).
  unfold scale in ES. set (i := (ml psi1 + 1)%Z) in *.
  assert (Wi : wrap psi1 i = i) by (unfold wrap; destruct (Z.ltb_spec i 0); lia).
  apply modify_mem in ES; [|assumption|lia]. cbn zeta in ES. rewrite Wi in ES. destruct ES as (-> & D2 & N2 & L2 & R2 & A2 & A3).
  destruct (Gf i) as (t & Et & Jt); [lia|]. rewrite Et in A2. cbn [option_map] in A2.
  destruct (Z.leb_spec i (ml psi1)) as [H5|H5]; [lia|]. destruct (Z.leb_spec (mr psi1) i) as [H6|H6]; [lia|].
  split; [reflexivity|]. split; [congruence|]. split; [congruence|]. split; [congruence|]. split; [exact Ea|]. split; [exact Hr|]. split; [exact Er|].
  split.
  - apply (good_same psi1); try assumption.
    + intros j Hj. apply A3. lia.
    + intros j Hj. rewrite N2 in *. destruct (Z.eq_dec j i) as [->|]; [eexists; split; [exact A2|exact Jt]|]. rewrite A3 by assumption. auto.
  - pose proof H as (HN & HA).
    assert (NX : nth_error ts (Z.to_nat (i - 1)) = Some t) by (rewrite <- HA by lia; rewrite <- Et; f_equal; lia).
    destruct (split_one _ _ _ NX) as (pre & post & -> & LP).
    exists (pre ++ tscale fadd fmul fsub (cof (finv r)) t :: post). split; [split|split; [|split]].
    + rewrite N2, HN, !app_length. reflexivity.
    + intros k Hk. rewrite (nth_error_swap1 pre post t). destruct (Nat.eqb_spec k (length pre)) as [->|K3]; [rewrite <- A2; f_equal; lia|].
      rewrite A3 by lia. apply HA. rewrite app_length in *. exact Hk.
    + unfold proper in *. clear - P. revert P. generalize 1 at 1 3. induction pre as [|u pre IH]; intros a; cbn; [auto|]. intros [? ?]. auto.
    + rewrite <- SI. unfold sites. rewrite !map_app. reflexivity.
    + intros c Hc. rewrite <- A by assumption. apply (chain_scale c0 c1 cadd cmul csub copp CR); [reflexivity|reflexivity|].
      rewrite <- SI in Hc. apply F2len in Hc. rewrite Hc. unfold sites. now rewrite map_length.
Qed.

(** ** The loop over the time steps *)
Notation ofN := (ofN f0 f1 fadd).
Notation tev := (@tev F).
Notation steps_loop := (steps_loop f0 fadd fmul fsub fopp finv fltb fsqrt svdl svdr splitL splitR c1em20 dn).
Notation gateTEvol := (gateTEvol f0 f1 fadd fmul fsub fopp fdiv finv fltb fsqrt svdl svdr splitL splitR c1em20 c1em9 trunc dn).
Notation nsteps := (nsteps f0 f1 fadd fmul fsub fopp fdiv fltb c1em9 trunc).

Lemma shows_ext dims psi f f' : (forall c, Forall2 Peano.lt c dims -> f c = f' c) -> shows dims psi f -> shows dims psi f'.
Proof. intros E (G & ts & H & P & SI & A). split; [assumption|]. exists ts. repeat (split; [assumption|]). intros c Hc. rewrite A by assumption. auto. Qed.
Lemma shows_norm dims psi f f' : shows dims psi f -> shows dims psi f' -> fnorm2 dims f = fnorm2 dims f'.
Proof.
  intros (G & ts & H & P & SI & A) (G' & ts' & H' & P' & SI' & A'). rewrite (holds_fun _ _ _ H' H) in *. apply fnorm2_ext. intros c Hc. rewrite <- A, <- A' by assumption. reflexivity.
Qed.
Lemma finv_pos x : lt f0 x -> lt f0 (finv x).
Proof.
  intros H. pose proof (lt_neq f0 f1 fadd fmul fsub fopp fdiv finv fltb OF x H) as N.
  destruct (fltb f0 (finv x)) eqn:E; [reflexivity|]. exfalso.
  pose proof (mul_le f0 f1 fadd fmul fsub fopp fdiv finv fltb OF (finv x) f0 x (lt_le f0 f1 fadd fmul fsub fopp fdiv finv fltb OF _ _ H) E) as Q.
  replace (fmul x (finv x)) with f1 in Q by (field; assumption). replace (fmul x f0) with f0 in Q by ring.
  pose proof (sq_nonneg f0 f1 fadd fmul fsub fopp fdiv finv fltb OF f1) as Q1. replace (fmul f1 f1) with f1 in Q1 by ring.
  destruct (le_cases f0 f1 fadd fmul fsub fopp fdiv finv fltb OF f0 f1 Q1) as [Q2|Q2]; [congruence|]. now apply (F_1_neq_0 FT).
Qed.
Lemma mul_pos x y : lt f0 x -> lt f0 y -> lt f0 (fmul x y).
Proof.
  intros Hx Hy. pose proof (lt_mul_pos f0 f1 fadd fmul fsub fopp fdiv finv fltb OF f0 y x Hx Hy) as Q. now replace (fmul x f0) with f0 in Q by ring.
Qed.
Lemma one_pos : lt f0 f1.
Proof.
  pose proof (sq_nonneg f0 f1 fadd fmul fsub fopp fdiv finv fltb OF f1) as Q1. replace (fmul f1 f1) with f1 in Q1 by ring.
  destruct (le_cases f0 f1 fadd fmul fsub fopp fdiv finv fltb OF f0 f1 Q1) as [Q2|Q2]; [assumption|]. exfalso. now apply (F_1_neq_0 FT).
Qed.

Section Steps.
Variables (dims : list nat) (gates : list bgate) (n : Z) (f : list nat -> K) (tstep N0 : F).
Hypothesis HG : Forall (on_bond n) gates.
Hypothesis HD : Z.of_nat (length dims) = n.
Notation after j := (evolved dims (map place gates) j f).
Lemma gates_ok : Forall (fun g : nat * op2 => S (fst g) < length dims) (map place gates).
Proof. apply Forall_map. eapply Forall_impl; [|exact HG]. intros g (B1 & B2 & B3). cbn. lia. Qed.
(** psi is the state after j steps divided by x. *)
Definition at_step (j : nat) (psi : mps) (x : F) : Prop :=
  mN psi = n /\ lt f0 x /\ (dn = false \/ j = 0 -> x = f1) /\ shows dims psi (fun c => cmul (cof (finv x)) (after j c)) /\
  (dn = true -> 1 <= j -> cof (fmul x x) = fnorm2 dims (after j)).
Definition sinv (j : nat) (s : tev) : Prop :=
  vtime s = fmul (ofN j) tstep /\ exists x, at_step j (vpsi s) x /\ vnorm s = fmul N0 x.
Lemma cof_inv x : x <> f0 -> cmul (cof x) (cof (finv x)) = c1.
Proof. intros H. rewrite <- (of_mul' f0 f1 fadd fmul fsub fopp fdiv finv fltb OF). replace (fmul x (finv x)) with f1 by (field; assumption). reflexivity. Qed.
Lemma steps_exact (XX : exact) : forall left j s s', sinv j s -> steps_loop left (S j) gates tstep s = Ok s' ->
  sinv (j + left) s' /\ vd s' = vd s /\
  exists l, vseen s' = vseen s ++ l /\ length l = left /\
    forall i tt t psi, nth_error l i = Some (tt, t, psi) -> tt = S (j + i) /\ t = fmul (ofN tt) tstep /\ exists x, at_step tt psi x.
Proof.
  induction left as [|left IH]; intros j s s' (Ht & x & (EN & Hx & Hd & SH & Hn) & Hv) H; cbn [TevModel.steps_loop] in H.
  { injection H as <-. rewrite Nat.add_0_r. split; [split; [assumption|exists x; split; [exact (conj EN (conj Hx (conj Hd (conj SH Hn))))|assumption]]|]. split; [reflexivity|]. exists []. rewrite app_nil_r. split; [reflexivity|].
    split; [reflexivity|]. intros [|i] ? ? ? Hi; discriminate. }
  pose proof gates_ok as GO.
  destruct (gates_loop _ _ _ _ _ _) as [[[d1 psi1] log1]| |] eqn:EG; cbn [obind] in H; try discriminate.
  assert (HG' : Forall (on_bond (mN (vpsi s))) gates) by (rewrite EN; exact HG).
  destruct (loop_ok dims gates (S j) 0 (vd s) (vpsi s) (vlog s) d1 psi1 log1 _ SH HG' EG) as (-> & N1 & _ & SH1 & _ & _).
  specialize (SH1 XX).
  pose proof (lt_neq f0 f1 fadd fmul fsub fopp fdiv finv fltb OF x Hx) as Nx.
  assert (SH2 : shows dims psi1 (fun c => cmul (cof (finv x)) (after (S j) c))).
  { eapply shows_ext; [|exact SH1]. intros c Hc. cbn beta. now rewrite (circuit_scale c0 c1 cadd cmul csub copp CR). }
  assert (TS : fadd (vtime s) tstep = fmul (ofN (S j)) tstep) by (rewrite Ht; cbn [TevModel.ofN]; ring).
  assert (STEP : exists psi2 tot x2, at_step (S j) psi2 x2 /\ tot = fmul N0 x2 /\
     steps_loop left (S (S j)) gates tstep (mkTev (vd s) psi2 tot (fadd (vtime s) tstep) (vseen s ++ [(S j, fadd (vtime s) tstep, psi2)]) log1) = Ok s').
  { destruct dn eqn:Edn.
    - destruct (normalize_r (vd s) psi1) as [[[d2 psi2] nrm]| |] eqn:EZ; cbn [obind] in H; try discriminate.
      destruct (normalize_ok dims _ _ _ _ _ _ SH2 EZ) as (-> & N2 & L2 & R2 & _ & Hr & Er & SH3).
      pose proof (lt_neq f0 f1 fadd fmul fsub fopp fdiv finv fltb OF nrm Hr) as Nr.
      exists psi2, (fmul (vnorm s) nrm), (fmul x nrm). split; [|split; [rewrite Hv; ring|exact H]].
      split; [congruence|]. split; [now apply mul_pos|]. split; [intros [?|?]; congruence|]. split.
      + eapply shows_ext; [|exact SH3]. intros c _. cbn beta.
        assert (E : cof (finv (fmul x nrm)) = cmul (cof (finv nrm)) (cof (finv x))).
        { rewrite <- (of_mul' f0 f1 fadd fmul fsub fopp fdiv finv fltb OF). f_equal. field. split; assumption. }
        rewrite E. ring.
      + intros _ _. rewrite fnorm2_scale in Er.
        replace (fmul (fmul x nrm) (fmul x nrm)) with (fmul (fmul x x) (fmul nrm nrm)) by ring.
        rewrite (of_mul' f0 f1 fadd fmul fsub fopp fdiv finv fltb OF), Er.
        transitivity (cmul (cmul (cof (fmul x x)) (cof (fmul (finv x) (finv x)))) (fnorm2 dims (after (S j)))); [ring|].
        rewrite <- (of_mul' f0 f1 fadd fmul fsub fopp fdiv finv fltb OF). replace (fmul (fmul x x) (fmul (finv x) (finv x))) with f1 by (field; assumption).
        rewrite (of_1 f0 f1). ring.
    - cbn [obind] in H. exists psi1, (vnorm s), x. split; [|split; [assumption|exact H]].
      split; [congruence|]. split; [assumption|]. split; [intros _; apply Hd; now left|]. split; [assumption|congruence]. }
  destruct STEP as (psi2 & tot & x2 & AT & Etot & H2).
  destruct (IH (S j) _ s' (conj TS (ex_intro _ x2 (conj AT Etot)) : sinv (S j) (mkTev (vd s) psi2 tot (fadd (vtime s) tstep) (vseen s ++ [(S j, fadd (vtime s) tstep, psi2)]) log1)) H2) as (I' & D' & l & El & Ll & Hl). cbn [vd vseen] in *.
  split; [now rewrite Nat.add_succ_r|]. split; [assumption|]. exists ((S j, fadd (vtime s) tstep, psi2) :: l). split; [rewrite El, <- app_assoc; reflexivity|].
  split; [cbn; congruence|]. intros [|i] tt t psi Hi; cbn in Hi.
  - injection Hi as <- <- <-. split; [f_equal; lia|]. split; [assumption|eauto].
  - destruct (Hl i tt t psi Hi) as (-> & ? & ?). split; [lia|auto].
Qed.

(** The limits of the MPS at the start of each step, and the log. *)
Variable g0 : bgate.
Variable rest : list bgate.
Hypothesis Eg : gates = g0 :: rest.
Notation fb := (gi1 g0). Notation lb := (gi1 (last gates g0)).
Definition first_lims (psi : mps) : Prop := (ml psi = fb - 1 /\ mr psi = fb + 1)%Z.
Definition later_lims (psi : mps) : Prop := (ml psi = lb - 1 /\ mr psi = lb + 1)%Z.
Definition starts_at (tt : nat) (psi : mps) : Prop := if Nat.eqb tt 1 then first_lims psi else later_lims psi.
Lemma lims_after tt k d psi log d' psi' log' ff : shows dims psi ff -> mN psi = n -> first_lims psi \/ later_lims psi ->
  gates_loop tt k gates d psi log = Ok (d', psi', log') -> later_lims psi'.
Proof.
  intros SH EN ST HL'. assert (HG' : Forall (on_bond (mN psi)) gates) by (rewrite EN; exact HG).
  destruct (loop_ok dims gates tt k d psi log d' psi' log' ff SH HG' HL') as (_ & _ & _ & _ & _ & Q).
  destruct (Q g0 ltac:(rewrite Eg; discriminate)) as (Q1 & Q2). split; [|assumption]. apply Q2.
  destruct rest as [|g1 rest']; [right|left; rewrite Eg; cbn; lia]. rewrite Eg in *. cbn [last] in *. destruct ST as [[? _]|[? _]]; cbn [last] in *; rewrite ?Eg in *; cbn [last] in *; lia.
Qed.
Lemma norm_lims d psi d' psi' nrm ff : shows dims psi ff -> normalize_r d psi = Ok (d', psi', nrm) ->
  mN psi' = mN psi /\ ml psi' = ml psi /\ mr psi' = mr psi /\ d' = d /\ exists f', shows dims psi' f'.
Proof. intros SH HN. destruct (normalize_ok _ _ _ _ _ _ _ SH HN) as (A1 & A2 & A3 & A4 & _ & _ & _ & A5). repeat (split; [assumption|]). eauto. Qed.
Definition sound_update (u : update) : Prop :=
  mN (ubefore u) = n /\ (exists f', shows dims (ubefore u) f') /\ bonded (ugate u) (ubefore u) (uafter u) /\
  (if Nat.eqb (upos u) 0 then ugate u = g0 /\ starts_at (ustep u) (ubefore u) else centred (gi1 (ugate u)) (ubefore u)).
Lemma steps_log : forall left tt s s' ff, 1 <= tt -> shows dims (vpsi s) ff -> mN (vpsi s) = n -> starts_at tt (vpsi s) ->
  steps_loop left tt gates tstep s = Ok s' ->
  exists us, vlog s' = vlog s ++ us /\ Forall sound_update us /\ map ugate us = concat (repeat gates left) /\
  Forall (fun u => tt <= ustep u < tt + left) us.
Proof.
  induction left as [|left IH]; intros tt s s' ff Htt SH EN ST H; cbn [TevModel.steps_loop] in H.
  { injection H as <-. exists []. rewrite app_nil_r. repeat split; constructor. }
  destruct (gates_loop _ _ _ _ _ _) as [[[d1 psi1] log1]| |] eqn:EG; cbn [obind] in H; try discriminate.
  assert (HG' : Forall (on_bond (mN (vpsi s))) gates) by (rewrite EN; exact HG).
  assert (ST' : first_lims (vpsi s) \/ later_lims (vpsi s)) by (unfold starts_at in ST; destruct (Nat.eqb tt 1); auto).
  pose proof (lims_after _ _ _ _ _ _ _ _ _ SH EN ST' EG) as LA.
  destruct (loop_ok dims gates tt 0 (vd s) (vpsi s) (vlog s) d1 psi1 log1 _ SH HG' EG) as (-> & N1 & (f1' & SH1) & _ & (us & -> & (RG & RU)) & _).
  assert (STEP : exists psi2 tot f2, mN psi2 = n /\ later_lims psi2 /\ shows dims psi2 f2 /\
     steps_loop left (S tt) gates tstep (mkTev (vd s) psi2 tot (fadd (vtime s) tstep) (vseen s ++ [(tt, fadd (vtime s) tstep, psi2)]) (vlog s ++ us)) = Ok s').
  { destruct dn eqn:Edn.
    - destruct (normalize_r (vd s) psi1) as [[[d2 psi2] nrm]| |] eqn:EZ; cbn [obind] in H; try discriminate.
      destruct (norm_lims _ _ _ _ _ _ SH1 EZ) as (A1 & A2 & A3 & -> & f2 & SH2). exists psi2, (fmul (vnorm s) nrm), f2.
      split; [congruence|]. split; [unfold later_lims in *; rewrite A2, A3; exact LA|]. split; assumption.
    - cbn [obind] in H. exists psi1, (vnorm s), f1'. split; [congruence|]. split; [assumption|]. split; assumption. }
  destruct STEP as (psi2 & tot & f2 & N2 & L2 & SH2 & H2).
  assert (ST2 : starts_at (S tt) psi2) by (unfold starts_at; destruct (Nat.eqb_spec (S tt) 1); [lia|assumption]).
  destruct (IH (S tt) (mkTev (vd s) psi2 tot (fadd (vtime s) tstep) (vseen s ++ [(tt, fadd (vtime s) tstep, psi2)]) (vlog s ++ us)) s' f2 ltac:(lia) SH2 N2 ST2 H2) as (us' & E' & S' & M' & T'). cbn [vlog] in E'.
  exists (us ++ us'). split; [rewrite E', app_assoc; reflexivity|]. split; [|split].
  - apply Forall_app. split; [|assumption]. apply Forall_forall. intros u Hu. apply In_nth_error in Hu as (i & Hi).
    destruct (RU i u Hi) as (R1 & R2 & R3 & R4 & R5 & R6). split; [congruence|]. split; [assumption|]. split; [assumption|].
    rewrite R2, Nat.add_0_l, R1. destruct (Nat.eqb_spec i 0) as [->|]; [|assumption]. split; [|rewrite R6; assumption].
    destruct us as [|u0 us]; [discriminate|]. injection Hi as ->. cbn in RG. rewrite Eg in RG. now injection RG as RG _.
  - rewrite map_app, RG, M'. reflexivity.
  - apply Forall_app. split; [|eapply Forall_impl; [|exact T']; cbn; lia]. apply Forall_forall. intros u Hu. apply In_nth_error in Hu as (i & Hi).
    destruct (RU i u Hi) as (R1 & _). lia.
Qed.
(** What the first gate of a step needs. *)
Definition needs (psi : mps) : Prop :=
  match rest with
  | g1 :: _ => if (gi2 g0 <=? gi1 g1)%Z then (fb - 1 <= ml psi)%Z else (mr psi <= fb + 2)%Z
  | [] => (mr psi <= fb + 2)%Z
  end.
Lemma loop_needs tt k d psi log r ff : shows dims psi ff -> mN psi = n -> gates_loop tt k gates d psi log = Ok r -> needs psi.
Proof.
  intros SH EN H. pose proof SH as (G & _). rewrite Eg in HG. inversion HG as [|? ? HB HF]; subst x l. rewrite <- EN in HB. pose proof HB as (B1 & B2 & B3).
  rewrite Eg in H. cbn [TevModel.gates_loop] in H. rewrite B2, Z.eqb_refl in H. cbn [negb] in H. rewrite <- B2 in H.
  destruct (get2 d psi fb (gi2 g0)) as [[[d1 psi1] [[x|] [y|]]]| |] eqn:EG; cbn [obind] in H; try discriminate.
  unfold needs. destruct rest as [|g1 rest'].
  - destruct (svdBond d1 psi1 fb _ false) as [[d2 psi2]| |] eqn:ES; cbn [obind] in H; try discriminate.
    destruct (bond_ok g0 d psi d1 psi1 x y false d2 psi2 G HB EG ES) as (_ & _ & _ & _ & Q & _). exact Q.
  - destruct (Z.leb_spec (gi2 g0) (gi1 g1)).
    + destruct (svdBond d1 psi1 fb _ true) as [[d2 psi2]| |] eqn:ES; cbn [obind] in H; try discriminate.
      destruct (bond_ok g0 d psi d1 psi1 x y true d2 psi2 G HB EG ES) as (_ & _ & _ & _ & Q & _). exact Q.
    + destruct (svdBond d1 psi1 fb _ false) as [[d2 psi2]| |] eqn:ES; cbn [obind] in H; try discriminate.
      destruct (bond_ok g0 d psi d1 psi1 x y false d2 psi2 G HB EG ES) as (_ & _ & _ & _ & Q & _). exact Q.
Qed.
Lemma steps_need left tt s s' ff : 1 <= tt -> shows dims (vpsi s) ff -> mN (vpsi s) = n -> starts_at tt (vpsi s) -> 2 <= left ->
  steps_loop left tt gates tstep s = Ok s' -> exists psi, later_lims psi /\ needs psi.
Proof.
  destruct left as [|[|left]]; try lia. intros Htt SH EN ST _ H. cbn [TevModel.steps_loop] in H.
  destruct (gates_loop tt _ _ _ _ _) as [[[d1 psi1] log1]| |] eqn:EG; cbn [obind] in H; try discriminate.
  assert (HG' : Forall (on_bond (mN (vpsi s))) gates) by (rewrite EN; exact HG).
  assert (ST' : first_lims (vpsi s) \/ later_lims (vpsi s)) by (unfold starts_at in ST; destruct (Nat.eqb tt 1); auto).
  pose proof (lims_after _ _ _ _ _ _ _ _ _ SH EN ST' EG) as LA.
  destruct (loop_ok dims gates tt 0 (vd s) (vpsi s) (vlog s) d1 psi1 log1 _ SH HG' EG) as (-> & N1 & (f1' & SH1) & _).
  destruct dn eqn:Edn.
  - destruct (normalize_r (vd s) psi1) as [[[d2 psi2] nrm]| |] eqn:EZ; cbn [obind] in H; try discriminate.
    destruct (norm_lims _ _ _ _ _ _ SH1 EZ) as (A1 & A2 & A3 & -> & f2 & SH2). cbn [vd vpsi vlog] in H.
    destruct (gates_loop (S tt) _ _ _ _ _) as [r2| |] eqn:EG2; cbn [obind] in H; try discriminate.
    exists psi2. split; [unfold later_lims in *; rewrite A2, A3; exact LA|]. apply (loop_needs _ _ _ _ _ _ _ SH2 ltac:(congruence) EG2).
  - cbn [obind vd vpsi vlog] in H.
    destruct (gates_loop (S tt) _ _ _ _ _) as [r2| |] eqn:EG2; cbn [obind] in H; try discriminate.
    exists psi1. split; [exact LA|]. apply (loop_needs _ _ _ _ _ _ _ SH1 ltac:(congruence) EG2).
Qed.


(** ** Returning *)
Definition totals : Prop :=
  (forall t, exists z, svdl t = Ok z) /\ (forall t, exists z, svdr t = Ok z) /\
  (forall w, exists z, splitL w = Ok z) /\ (forall w, exists z, splitR w = Ok z) /\
  (forall x, le f0 x -> exists r, fsqrt x = Ok r).
Lemma position_ret d psi i : totals -> good psi -> (1 <= i <= mN psi)%Z -> exists psi', position d psi i = Ok (d, psi').
Proof.
  intros (TL & TR & _) G Hi. pose proof G as (Gm & G2 & G3 & G4 & Gf & Gc).
  now apply (C38_total c0 cadd cmul svdl svdr d psi i TL TR).
Qed.
Lemma svdBond_ret d psi (b : Z) w (fl : bool) : totals -> good psi -> (if fl then b - 1 <= ml psi else mr psi <= b + 2)%Z -> exists psi', svdBond d psi b w fl = Ok (d, psi').
Proof.
  intros (_ & _ & TL & TR & _) G Hb. pose proof G as (Gm & G2 & G3 & G4 & Gf & Gc).
  unfold MpsModel.svdBond. destruct (setBond_mem d psi b Gm) as (s3 & K3 & N3 & A3 & L3 & R3 & D3 & _ & _). rewrite K3. cbn [obind]. rewrite L3, R3.
  destruct fl; cbn [andb negb].
  - destruct (Z.ltb_spec (ml psi) (b - 1)); [lia|]. destruct (TL w) as ([x' y'] & ->). cbn [obind]. eauto.
  - destruct (Z.ltb_spec (b + 2) (mr psi)); [lia|]. destruct (TR w) as ([x' y'] & ->). cbn [obind]. eauto.
Qed.
Lemma get2_ret d psi b : good psi -> (1 <= b < mN psi)%Z -> exists psi1 x y, get2 d psi b (b + 1) = Ok (d, psi1, (Some x, Some y)) /\
  good psi1 /\ ml psi1 = ml psi /\ mr psi1 = mr psi /\ mN psi1 = mN psi.
Proof.
  intros G Hb. pose proof G as (Gm & G2 & G3 & G4 & Gf & Gc).
  destruct (Gf b) as (x & Ex & Jx); [lia|]. destruct (Gf (b + 1)%Z) as (y & Ey & Jy); [lia|].
  unfold get2. destruct (get_mem d psi b Gm) as (s1 & K1 & N1 & A1 & L1 & R1 & D1 & _ & _); [lia|]. rewrite K1. cbn [obind].
  destruct (get_mem d s1 (b + 1) D1) as (s2 & K2 & N2 & A2 & L2 & R2 & D2 & _ & _); [lia|]. rewrite K2. cbn [obind].
  replace (wrap psi b) with b by (unfold wrap; destruct (Z.ltb_spec b 0); lia).
  rewrite A2, A1, Ex, Ey. exists s2, x, y. split; [reflexivity|]. split; [|repeat split; congruence].
  unfold MpsSpec.good, filled, MpsSpec.claims. rewrite N2, A2, L2, R2, N1, A1, L1, R1. split; [assumption|]. auto.
Qed.
Definition needs' (gs : list bgate) (psi : mps) : Prop :=
  match gs with
  | [] => True
  | [g] => (mr psi <= gi1 g + 2)%Z
  | g :: g1 :: _ => if (gi2 g <=? gi1 g1)%Z then (gi1 g - 1 <= ml psi)%Z else (mr psi <= gi1 g + 2)%Z
  end.
Lemma loop_ret (T : totals) : forall gs tt k d psi log, good psi -> mN psi = n -> Forall (on_bond n) gs -> needs' gs psi ->
  exists psi' log', gates_loop tt k gs d psi log = Ok (d, psi', log').
Proof.
  induction gs as [|g gs IH]; intros tt k d psi log G EN HF NE; cbn [TevModel.gates_loop]; [eauto|].
  inversion HF as [|? ? HB HF']; subst. pose proof HB as (B1 & B2 & B3). rewrite B2, Z.eqb_refl. cbn [negb].
  destruct (get2_ret d psi (gi1 g) G ltac:(lia)) as (psi1 & x & y & EG & G1 & L1 & R1 & N1). rewrite EG. cbn [obind].
  rewrite <- B2 in EG. rewrite <- EN in HB.
  destruct gs as [|g' gs'].
  - cbn [needs'] in NE. destruct (svdBond_ret d psi1 (gi1 g) (gated (pair2 x y) (gel g)) false T G1 ltac:(cbn; lia)) as (psi2 & ES). rewrite ES. cbn [obind].
    cbn [TevModel.gates_loop]. eauto.
  - inversion HF' as [|? ? HB' HF'']; subst. destruct HB' as (B1' & B2' & B3'). rewrite <- B2. cbn [needs'] in NE. revert NE.
    destruct (Z.leb_spec (gi2 g) (gi1 g')) as [Hle|Hle]; intros NE.
    + destruct (svdBond_ret d psi1 (gi1 g) (gated (pair2 x y) (gel g)) true T G1 ltac:(cbn; lia)) as (psi2 & ES). rewrite ES. cbn [obind].
      destruct (bond_ok g d psi d psi1 x y true d psi2 G HB EG ES) as (_ & G2 & N2 & BO & _).
      destruct (position_ret d psi2 (gi1 g') T G2 ltac:(lia)) as (psi3 & EP). rewrite EP. cbn [obind].
      destruct (position_good c0 c1 cadd cmul csub copp cconj CR svdl svdr SL SR d d psi2 psi3 (gi1 g') G2 ltac:(lia) EP) as (_ & G3 & N3 & L4 & L5 & S3).
      apply IH; [assumption|congruence|assumption|]. destruct gs' as [|g'' gs'']; cbn [needs']; [lia|]. destruct (gi2 g' <=? gi1 g'')%Z; lia.
    + destruct (svdBond_ret d psi1 (gi1 g) (gated (pair2 x y) (gel g)) false T G1 ltac:(cbn; lia)) as (psi2 & ES). rewrite ES. cbn [obind].
      destruct (bond_ok g d psi d psi1 x y false d psi2 G HB EG ES) as (_ & G2 & N2 & BO & _).
      destruct (position_ret d psi2 (gi2 g') T G2 ltac:(lia)) as (psi3 & EP). rewrite EP. cbn [obind].
      destruct (position_good c0 c1 cadd cmul csub copp cconj CR svdl svdr SL SR d d psi2 psi3 (gi2 g') G2 ltac:(lia) EP) as (_ & G3 & N3 & L4 & L5 & S3).
      apply IH; [assumption|congruence|assumption|]. destruct gs' as [|g'' gs'']; cbn [needs']; [lia|]. destruct (gi2 g' <=? gi1 g'')%Z; lia.
Qed.
Lemma norm_ret d psi ff : totals -> shows dims psi ff -> (mr psi = ml psi + 2)%Z -> exists psi' nrm, norm_of d psi = Ok (d, psi', nrm).
Proof.
  intros (_ & _ & _ & _ & TS) (G & ts & H & P & SI & A) LR. pose proof G as (Gm & G2 & G3 & G4 & Gf & Gc).
  assert (OC : orthoCenter psi = Ok (ml psi + 1)%Z) by (unfold orthoCenter, isOrtho; destruct (Z.eqb_spec (ml psi + 1) (mr psi - 1)); [reflexivity|lia]).
  unfold TevModel.norm_of. rewrite OC. cbn [obind].
  destruct (get_mem d psi (ml psi + 1) Gm) as (s1 & K1 & N1 & A1 & L1 & R1 & D1 & _ & _); [lia|]. rewrite K1. cbn [obind].
  destruct (Gf (ml psi + 1)%Z) as (t & Et & Jt); [lia|]. rewrite Et.
  assert (NN : le f0 (fst (tnorm2 t))).
  { rewrite <- (C38_norm c0 c1 cadd cmul csub copp cconj CR psi ts _ t CA CM C0 C1 G H P OC Et), fnorm2_norm2. destruct (fnorm2_real (sites ts) (amplitude ts)) as (z & -> & Hz). exact Hz. }
  destruct (TS _ NN) as (r & ->). cbn [obind]. eauto.
Qed.
Lemma sq_le z r : lt f0 z -> le f0 r -> le (fmul z z) (fmul r r) -> le z r.
Proof.
  intros Hz Hr H. destruct (fltb r z) eqn:E; [|reflexivity]. exfalso.
  pose proof (lt_mul_pos f0 f1 fadd fmul fsub fopp fdiv finv fltb OF r z z Hz E) as Q1.
  pose proof (mul_le f0 f1 fadd fmul fsub fopp fdiv finv fltb OF r z r Hr (lt_le f0 f1 fadd fmul fsub fopp fdiv finv fltb OF _ _ E)) as Q2.
  replace (fmul r z) with (fmul z r) in Q2 by ring.
  pose proof (le_trans f0 f1 fadd fmul fsub fopp fdiv finv fltb OF _ _ _ H Q2) as Q3. congruence.
Qed.
Lemma normalize_ret d psi ff : totals -> shows dims psi ff -> (mr psi = ml psi + 2)%Z -> le (fmul c1em20 c1em20) (fst (fnorm2 dims ff)) ->
  exists psi' nrm, normalize_r d psi = Ok (d, psi', nrm).
Proof.
  intros T SH LR B. destruct (norm_ret d psi ff T SH LR) as (psi1 & nrm & EN). unfold TevModel.normalize_r. rewrite EN. cbn [obind].
  destruct (norm_ok dims d psi d psi1 nrm ff SH EN) as (_ & SH1 & N1 & A1 & L1 & R1 & _ & Hr & Er).
  rewrite <- Er in B. cbn [fst DavSpec.cof] in B.
  unfold fabs. rewrite Hr. rewrite (sq_le _ _ c1em20_pos Hr B).
  pose proof SH1 as (G1 & _). pose proof G1 as (Gm & G2 & G3 & G4 & Gf & Gc).
  unfold scale, modify, ref. set (i := (ml psi1 + 1)%Z).
  assert (Wi : wrap psi1 i = i) by (unfold wrap; destruct (Z.ltb_spec i 0); lia). rewrite Wi.
  destruct (setSite_mem d psi1 i Gm) as (s2 & E2 & M1 & M2 & M3 & M4 & M5 & M6 & M7). rewrite E2. cbn [obind].
  assert (IR : inrange (ref_lims s2 i) i = true).
  { unfold inrange, ref_lims. cbn [withlims mN]. rewrite M1. apply andb_true_intro. split; apply Z.leb_le; lia. }
  rewrite IR. cbn [obind]. eauto.
Qed.
(** No step takes the norm below 1e-20 of what it was. *)
Definition strong (j : nat) : Prop :=
  le (fmul (fmul c1em20 c1em20) (if Nat.eqb j 0 then f1 else fst (fnorm2 dims (after j)))) (fst (fnorm2 dims (after (S j)))).
Lemma needs_later psi : good psi -> first_lims psi \/ (later_lims psi /\ (forall p : mps, later_lims p -> needs' gates p)) -> needs' gates psi.
Proof.
  intros G [[L1 L2]|[L Q]]; [|auto]. rewrite Eg. destruct rest as [|g1 rest']; cbn [needs']; [lia|]. destruct (gi2 g0 <=? gi1 g1)%Z; lia.
Qed.
Lemma steps_ret (T : totals) (XX : exact) : forall left j s, sinv j s -> starts_at (S j) (vpsi s) ->
  (2 <= left \/ 1 <= j -> forall p : mps, later_lims p -> needs' gates p) ->
  (dn = true -> forall i, i < left -> strong (j + i)) ->
  exists s', steps_loop left (S j) gates tstep s = Ok s'.
Proof.
  induction left as [|left IH]; intros j s I ST NE SG; cbn [TevModel.steps_loop]; [eauto|].
  pose proof I as (Ht & x & (EN & Hx & Hd & SH & Hn) & Hv). pose proof SH as (G & _). pose proof gates_ok as GO.
  assert (ST' : first_lims (vpsi s) \/ later_lims (vpsi s)) by (unfold starts_at in ST; destruct (Nat.eqb (S j) 1); auto).
  assert (ND : needs' gates (vpsi s)).
  { apply needs_later; [assumption|]. unfold starts_at in ST. destruct (Nat.eqb_spec (S j) 1); [now left|right]. split; [assumption|]. apply NE. lia. }
  destruct (loop_ret T gates (S j) 0 (vd s) (vpsi s) (vlog s) G EN HG ND) as (psi1 & log1 & EG). rewrite EG. cbn [obind].
  pose proof (lims_after _ _ _ _ _ _ _ _ _ SH EN ST' EG) as LA.
  assert (HG' : Forall (on_bond (mN (vpsi s))) gates) by (rewrite EN; exact HG).
  destruct (loop_ok dims gates (S j) 0 (vd s) (vpsi s) (vlog s) (vd s) psi1 log1 _ SH HG' EG) as (_ & N1 & _ & SH1 & _ & _).
  specialize (SH1 XX).
  assert (SH2 : shows dims psi1 (fun c => cmul (cof (finv x)) (after (S j) c))).
  { eapply shows_ext; [|exact SH1]. intros c Hc. cbn beta. now rewrite (circuit_scale c0 c1 cadd cmul csub copp CR). }
  assert (STEP : exists psi2 tot, (if dn then let! (d2, psi2, nrm) := normalize_r (vd s) psi1 in Ok (d2, psi2, fmul (vnorm s) nrm) else Ok (vd s, psi1, vnorm s)) = Ok (vd s, psi2, tot) /\ later_lims psi2).
  { destruct dn eqn:Edn.
    - assert (NB : le (fmul c1em20 c1em20) (fst (fnorm2 dims (fun c => cmul (cof (finv x)) (after (S j) c))))).
      { specialize (SG eq_refl 0 ltac:(lia)). rewrite Nat.add_0_r in SG. unfold strong in SG. rewrite fnorm2_scale.
        pose proof (lt_neq f0 f1 fadd fmul fsub fopp fdiv finv fltb OF x Hx) as Nx.
        assert (X2 : (if Nat.eqb j 0 then f1 else fst (fnorm2 dims (after j))) = (if Nat.eqb j 0 then f1 else fmul x x)).
        { destruct (Nat.eqb_spec j 0); [reflexivity|]. rewrite <- Hn by (auto; lia). reflexivity. }
        rewrite X2 in SG. clear X2. destruct (fnorm2_real dims (after (S j))) as (z & Ez & Hz). rewrite Ez in SG |- *.
        rewrite <- (of_mul' f0 f1 fadd fmul fsub fopp fdiv finv fltb OF). cbn [fst DavSpec.cof] in *.
        assert (X1 : j = 0 -> x = f1).
        { intros ->. apply Hd. now right. }
        assert (X2 : (if Nat.eqb j 0 then f1 else fmul x x) = fmul x x) by (destruct (Nat.eqb_spec j 0) as [e|]; [rewrite (X1 e); ring|reflexivity]).
        rewrite X2 in SG.
        pose proof (mul_le f0 f1 fadd fmul fsub fopp fdiv finv fltb OF _ _ _ (sq_nonneg f0 f1 fadd fmul fsub fopp fdiv finv fltb OF (finv x)) SG) as Q.
        replace (fmul (fmul (finv x) (finv x)) (fmul (fmul c1em20 c1em20) (fmul x x))) with (fmul c1em20 c1em20) in Q by (field; assumption). exact Q. }
      destruct (normalize_ret (vd s) psi1 _ T SH2 ltac:(destruct LA; lia) NB) as (psi2 & nrm & EZ). rewrite EZ. cbn [obind].
      exists psi2, (fmul (vnorm s) nrm). split; [reflexivity|]. destruct (norm_lims _ _ _ _ _ _ SH2 EZ) as (A1 & A2 & A3 & _). unfold later_lims in *. rewrite A2, A3. exact LA.
    - exists psi1, (vnorm s). auto. }
  destruct STEP as (psi2 & tot & EQ & L2).
  destruct (steps_exact XX 1 j s (mkTev (vd s) psi2 tot (fadd (vtime s) tstep) (vseen s ++ [(S j, fadd (vtime s) tstep, psi2)]) log1) I) as (I2 & _).
  { cbn [TevModel.steps_loop]. rewrite EG. cbn [obind]. rewrite EQ. reflexivity. }
  rewrite EQ. cbn [obind].
  destruct (Nat.eq_dec left 0) as [->|NL]; [cbn [TevModel.steps_loop]; eauto|].
  apply IH; [now replace (S j) with (j + 1) by lia| | |].
  - cbn [vpsi]. unfold starts_at. cbn. exact L2.
  - intros _. apply NE. lia.
  - intros E i Hi. replace (S j + i) with (j + S i) by lia. apply SG; [assumption|lia].
Qed.
End Steps.
End Tev.
