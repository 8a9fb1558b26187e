(** C64: gateTEvol applies the gates of the list, in order, once per time step, and
    BondGate makes the gates it says. *)
From Coq Require Import ZArith List Bool Arith Lia Ring Field Factorial QArith Qcanon.
From Verif Require Import Util BigSum MpsModel MpsTensor MpsSpec MpsProofs MpsPosition MpsOrtho MpsProps
  DavSpec DavModel DavProofs DavProps DmrgAlg DmrgModel TevSpec TevModel TevProofs TevGate TevTriv.
Import ListNotations.
Local Open Scope nat_scope.
Local Open Scope outcome_scope.
Local Arguments Z.add : simpl never.
Local Arguments Z.sub : simpl never.
Local Arguments Nat.sub : simpl never.

Section Props.
Context {F : Type} (f0 f1 : F) (fadd fmul fsub : F -> F -> F) (fopp : F -> F)
  (fdiv : F -> F -> F) (finv : F -> F) (fltb : F -> F -> bool) (fsqrt : F -> outcome F)
  (OF : ordered_field f0 f1 fadd fmul fsub fopp fdiv finv fltb)
  (SQ : sqrt_ok f0 fmul fltb fsqrt).
Notation K := (@cplx F).
Notation c0 := (c0 f0). Notation c1 := (c1 f0 f1).
Notation cadd := (cadd fadd). Notation cmul := (cmul fadd fmul fsub). Notation cconj := (cconj fopp).
Notation csub := (csub fsub). Notation copp := (copp fopp). Notation cof := (cof f0).
Let FT := of_field _ _ _ _ _ _ _ _ _ OF.
Add Field FFtp : FT.
Let CR := cring f0 f1 fadd fmul fsub fopp fdiv finv fltb OF.
Add Ring CRtp : CR.
Notation le x y := (fltb y x = false).
Notation lt x y := (fltb x y = true).
Notation tensor := (@tensor K).
Notation wave := (@wave K).
Notation mps := (mps tensor).
Notation bgate := (@bgate F).
Notation good := (good c0 c1 cadd cmul cconj).
Notation amplitude := (amplitude c0 c1 cadd cmul).
Notation act := (act c0 cadd cmul).
Notation evolved := (evolved c0 cadd cmul).
Notation fnorm2 := (fnorm2 c0 cadd cmul cconj).
Notation shows := (shows c0 c1 cadd cmul cconj).
Notation ofN := (ofN f0 f1 fadd). Notation ofZ := (ofZ f0 f1 fadd fopp).
Notation fabs := (fabs f0 fopp fltb).
Notation time_gate := (time_gate f0 f1 fadd fmul fsub fopp finv).
Notation swap_gate := (swap_gate f0 f1 fadd fmul fsub).
Notation op2 := (@op2 K).

(** *** The gates *)
Lemma Ok_eq {A} (a b : A) : Ok a = Ok b -> b = a. Proof. congruence. Qed.
(** BondGate(sites,i1,i2,tReal or tImag,tau,H): on the two sites in increasing order, the Taylor
    polynomial of order 100 of exp(-i tau H) or exp(-tau H). *)
Theorem C64_gate : forall d1 d2 i1 i2 ty tau (H : op2) g, time_gate d1 d2 i1 i2 ty tau H = Ok g ->
  gi1 g = Z.min i1 i2 /\ gi2 g = Z.max i1 i2 /\
  exists x, ((ty = tReal /\ x = (f0, fopp tau)) \/ (ty = tImag /\ x = (fopp tau, f0))) /\
  forall p q p' q', p < d1 -> q < d2 ->
    gel g p q p' q' =
    taylor c0 c1 cadd cmul (fun k => cof (finv (ofN k))) d1 d2 (fun p q p' q' => cmul x (H p q p' q')) 100 p q p' q'.
Proof.
  intros d1 d2 i1 i2 ty tau H g E. unfold TevModel.time_gate in E.
  assert (M : forall j1 j2 (X : op2), (if (i1 <? i2)%Z then (i1, i2) else (i2, i1)) = (j1, j2) -> j1 = Z.min i1 i2 /\ j2 = Z.max i1 i2).
  { intros j1 j2 _ Q. destruct (Z.ltb_spec i1 i2); injection Q as <- <-; lia. }
  destruct (if (i1 <? i2)%Z then _ else _) as [j1 j2] eqn:EJ. destruct (M j1 j2 H eq_refl) as [-> ->]. clear M EJ.
  destruct ty; try discriminate; apply Ok_eq in E; subst g; cbn [gi1 gi2 gel]; (split; [reflexivity|]); (split; [reflexivity|]).
  - exists (f0, fopp tau). split; [now left|]. intros p q p' q' Hp Hq.
    rewrite (horner f0 f1 fadd fmul fsub fopp fdiv finv fltb OF) by (auto; lia). apply (taylor_ext f0 f1 fadd fmul fsub finv).
    clear p q p' q' Hp Hq. intros p q p' q'. unfold smul2. destruct (H p q p' q') as [a b]. unfold DavSpec.cmul, DavSpec.cof. cbn [fst snd]. f_equal; ring.
  - exists (fopp tau, f0). split; [now right|]. intros p q p' q' Hp Hq.
    rewrite (horner f0 f1 fadd fmul fsub fopp fdiv finv fltb OF) by (auto; lia). apply (taylor_ext f0 f1 fadd fmul fsub finv).
    clear p q p' q' Hp Hq. intros p q p' q'. unfold smul2. destruct (H p q p' q') as [a b]. unfold DavSpec.cmul, DavSpec.cof. cbn [fst snd]. f_equal; ring.
Qed.
(** Any other type is refused; these two never are. *)
Theorem C64_gate_types : forall d1 d2 i1 i2 ty tau H,
  (exists g, time_gate d1 d2 i1 i2 ty tau H = Ok g) <-> ty = tReal \/ ty = tImag.
Proof.
  intros d1 d2 i1 i2 ty tau H. unfold TevModel.time_gate. destruct (if (i1 <? i2)%Z then _ else _) as [j1 j2].
  destruct ty; split; intros Q; try (eauto; fail); try (destruct Q as (g & Q); discriminate); destruct Q; discriminate.
Qed.

(** BondGate(sites,i1,i2) on sites of the same dimension exchanges their values. *)
Theorem C64_swap : forall dims k i1 i2 g f c, S k < length dims -> nth k dims 0 = nth (S k) dims 0 ->
  swap_gate (nth k dims 0) (nth (S k) dims 0) i1 i2 = Ok g -> Forall2 Peano.lt c dims ->
  gi1 g = Z.min i1 i2 /\ gi2 g = Z.max i1 i2 /\
  act dims k (gel g) f c = f (put2 c k (nth (S k) c 0) (nth k c 0)).
Proof.
  intros dims k i1 i2 g f c Hk Ed E Hc. unfold TevModel.swap_gate in E.
  assert (M : forall j1 j2 (X : nat), (if (i1 <? i2)%Z then (i1, i2) else (i2, i1)) = (j1, j2) -> j1 = Z.min i1 i2 /\ j2 = Z.max i1 i2).
  { intros j1 j2 _ Q. destruct (Z.ltb_spec i1 i2); injection Q as <- <-; lia. }
  destruct (if (i1 <? i2)%Z then _ else _) as [j1 j2] eqn:EJ. destruct (M j1 j2 0 eq_refl) as [-> ->]. clear M EJ.
  destruct (_ <? _); [discriminate|]. injection E as <-. cbn [gi1 gi2 gel]. split; [reflexivity|]. split; [reflexivity|].
  pose proof (F2_nth c dims k Hc ltac:(lia)) as H1. pose proof (F2_nth c dims (S k) Hc Hk) as H2.
  unfold TevSpec.act. set (D1 := nth k dims 0) in *. set (D2 := nth (S k) dims 0) in *. set (u := nth k c 0) in *. set (v := nth (S k) c 0) in *.
  transitivity (bsum c0 cadd D1 (fun p => cmul (delta c0 c1 v p) (bsum c0 cadd D2 (fun q => cmul (delta c0 c1 u q) (f (put2 c k p q)))))).
  - apply bsum_ext. intros p Hp. rewrite <- (bsum_mul_l c0 c1 cadd cmul csub copp CR). apply bsum_ext. intros q Hq.
    rewrite <- Ed in Hq. unfold delta. rewrite (Nat.eqb_sym p v), (Nat.eqb_sym q u).
    destruct (Nat.ltb_spec p D1); [|lia]. destruct (Nat.ltb_spec q D1); [|lia]. rewrite !andb_true_r. ring.
  - rewrite (bsum_delta c0 c1 cadd cmul csub copp CR D1 v (fun p => bsum c0 cadd D2 (fun q => cmul (delta c0 c1 u q) (f (put2 c k p q))))) by (rewrite Ed; exact H2).
    apply (bsum_delta c0 c1 cadd cmul csub copp CR D2 u (fun q => f (put2 c k v q))). rewrite <- Ed. exact H1.
Qed.
(** On sites of different dimensions it is an error or, with the larger one on the right, a
    "swap" that silently destroys states: some state with an amplitude 1 is sent to zero. *)
Theorem C64_swap_refuted : forall dims k i1 i2, S k < length dims -> nth k dims 0 <> nth (S k) dims 0 ->
  Forall (fun d => 0 < d) dims ->
  swap_gate (nth k dims 0) (nth (S k) dims 0) i1 i2 = Err \/
  exists g f c, swap_gate (nth k dims 0) (nth (S k) dims 0) i1 i2 = Ok g /\ Forall2 Peano.lt c dims /\ f c = c1 /\
    forall c', act dims k (gel g) f c' = c0.
Proof.
  intros dims k i1 i2 Hk Hd HP. unfold TevModel.swap_gate. destruct (if (i1 <? i2)%Z then _ else _) as [j1 j2].
  set (D1 := nth k dims 0) in *. set (D2 := nth (S k) dims 0) in *.
  destruct (Nat.ltb_spec D2 D1); [now left|right].
  set (z := repeat 0 (length dims)). set (cc := put2 z k 0 D1).
  assert (Hz : Forall2 Peano.lt z dims).
  { unfold z. clear - HP. induction HP as [|d dims Hd HP IH]; cbn; constructor; assumption. }
  assert (P1 : 0 < D1). { rewrite Forall_forall in HP. apply HP. apply nth_In. lia. }
  exists (mkG j1 j2 (fun p q p' q' => cmul (if Nat.eqb p q' && Nat.ltb p D1 then c1 else c0) (if Nat.eqb q p' && Nat.ltb q D1 then c1 else c0))).
  exists (fun c => if Nat.eqb (nth (S k) c 0) D1 then c1 else c0), cc.
  split; [reflexivity|]. split; [apply put2_valid; try assumption; fold D2; lia|].
  assert (NQ : forall c p q, S k < length c -> nth (S k) (put2 c k p q) 0 = q).
  { intros c p q Hcl. unfold put2. rewrite app_nth2; rewrite firstn_length_le by lia; [|lia]. now replace (S k - k) with 1 by lia. }
  split.
  - unfold cc. rewrite NQ by (unfold z; now rewrite repeat_length). now rewrite Nat.eqb_refl.
  - intros c'. unfold TevSpec.act. apply (bsum_zero c0 c1 cadd cmul csub copp CR). intros p _. apply (bsum_zero c0 c1 cadd cmul csub copp CR). intros q _. cbn [gel].
    destruct (Nat.ltb_spec q D1) as [Q|Q]; [|rewrite andb_false_r; ring]. rewrite andb_true_r.
    assert (NQ' : nth (S k) (put2 c' k p q) 0 <> D1).
    { unfold put2. destruct (Nat.lt_ge_cases (length c') k) as [G|G].
      - rewrite firstn_all2 by lia. rewrite app_nth2 by lia. replace (S k - length c') with (S (S (k - length c' - 1))) by lia. cbn [nth].
        rewrite skipn_all2 by lia. destruct (k - length c' - 1); cbn; lia.
      - rewrite app_nth2; rewrite firstn_length_le by lia; [|lia]. replace (S k - k) with 1 by lia. cbn. lia. }
    destruct (Nat.eqb_spec (nth (S k) (put2 c' k p q) 0) D1); [contradiction|ring].
Qed.

(** *** gateTEvol *)
Context (svdl svdr : tensor -> outcome (tensor * (nat -> nat -> K)))
  (splitL splitR : wave -> outcome (tensor * tensor)) (c1em20 c1em9 : F) (trunc : F -> Z) (dn : bool).
Hypothesis SL : svdl_ok c0 c1 cadd cmul cconj svdl.
Hypothesis SR : svdr_ok c0 c1 cadd cmul cconj svdr.
Hypothesis PL : splitl_ok c0 c1 cadd cmul cconj splitL.
Hypothesis PR : splitr_ok c0 c1 cadd cmul cconj splitR.
Hypothesis HL : split_shape splitL.
Hypothesis HR : split_shape splitR.
Hypothesis c1em20_pos : lt f0 c1em20.
Hypothesis c1em9_pos : lt f0 c1em9.
Hypothesis TO : trunc_ok f0 f1 fadd fopp fltb trunc.
Notation gateTEvol := (gateTEvol f0 f1 fadd fmul fsub fopp fdiv finv fltb fsqrt svdl svdr splitL splitR c1em20 c1em9 trunc dn).
Notation nsteps := (nsteps f0 f1 fadd fmul fsub fopp fdiv fltb c1em9 trunc).
Notation position := (MpsModel.position (orthL c0 cadd cmul svdl) (orthR c0 cadd cmul svdr)).
Notation gated := (gated f0 fadd fmul fsub).
Notation pair2 := (pair2 c0 cadd cmul).
Notation "'untruncated'" := (split_exact c0 cadd cmul splitL /\ split_exact c0 cadd cmul splitR).

Lemma dims_len dims psi f : shows dims psi f -> Z.of_nat (length dims) = mN psi.
Proof. intros (_ & ts & (HN & _) & _ & <- & _). rewrite HN. unfold sites. now rewrite map_length. Qed.
Lemma begin gates ttotal tstep d psi dims f st g rest : gates = g :: rest -> Forall (on_bond (mN psi)) gates -> shows dims psi f ->
  gateTEvol gates ttotal tstep d psi = Ok st ->
  exists nt psi1 N0, nsteps ttotal tstep = Ok nt /\ le f0 N0 /\ cof (fmul N0 N0) = fnorm2 dims f /\ shows dims psi1 f /\ mN psi1 = mN psi /\
    first_lims g psi1 /\
    steps_loop f0 fadd fmul fsub fopp finv fltb fsqrt svdl svdr splitL splitR c1em20 dn (Z.to_nat nt) 1 gates tstep (mkTev d psi1 N0 f0 [] []) = Ok st.
Proof.
  intros -> HG SH H. unfold TevModel.gateTEvol in H. destruct (nsteps ttotal tstep) as [nt| |]; cbn [obind] in H; try discriminate.
  inversion HG as [|? ? (B1 & B2 & B3) HG']; subst. pose proof SH as (G & _).
  destruct (position d psi (gi1 g)) as [[d1 psi1]| |] eqn:EP; cbn [obind] in H; try discriminate.
  destruct (position_good c0 c1 cadd cmul csub copp cconj CR svdl svdr SL SR d d1 psi psi1 (gi1 g) G ltac:(lia) EP) as (-> & G1 & N1 & L1 & R1 & S1).
  pose proof (shows_same f0 f1 fadd fmul fsub fopp dims psi psi1 f SH S1 G1) as SH1.
  destruct (norm_of _ _ _ _ _ _ _ _) as [[[d2 psi2] nrm]| |] eqn:EN; cbn [obind] in H; try discriminate.
  destruct (norm_ok f0 f1 fadd fmul fsub fopp fdiv finv fltb fsqrt OF SQ dims d psi1 d2 psi2 nrm f SH1 EN) as (-> & SH2 & N2 & A2 & L2 & R2 & LR & Hr & Er).
  exists nt, psi2, nrm. repeat (split; [first [assumption|reflexivity|congruence]|]). split; [|exact H].
  unfold first_lims. rewrite L2, R2. auto.
Qed.
Lemma nothing_empty gates ttotal tstep d psi st : gateTEvol gates ttotal tstep d psi = Ok st -> exists g rest, gates = g :: rest.
Proof. unfold TevModel.gateTEvol. destruct (nsteps _ _); cbn [obind]; try discriminate. destruct gates; [discriminate|eauto]. Qed.

(** psi shows the state after j steps divided by x; x is 1 without normalisation, and the norm of
    that state with it. *)
Definition reached (dims : list nat) (gates : list bgate) (f : list nat -> K) (j : nat) (psi : mps) (x : F) : Prop :=
  lt f0 x /\ shows dims psi (fun c => cmul (cof (finv x)) (evolved dims (map place gates) j f c)) /\
  (if dn then 1 <= j -> cof (fmul x x) = fnorm2 dims (evolved dims (map place gates) j f) else x = f1).
Lemma reached_of dims gates n f j psi x : at_step f0 f1 fadd fmul fsub fopp finv fltb dn dims gates n f j psi x -> reached dims gates f j psi x.
Proof.
  intros (_ & H1 & H2 & H3 & H4). split; [assumption|]. split; [assumption|]. destruct dn; [auto|]. apply H2. now left.
Qed.

(** Without truncation: over a time of k steps, the gates of the list are applied k times, in order;
    measure() is called after each step, with its number and time, and sees the state of that
    step.  The value returned is the norm of the state at the start times x. *)
Theorem C64_evolves : forall gates k ttotal tstep d psi dims f st,
  untruncated -> shows dims psi f -> Forall (on_bond (mN psi)) gates ->
  tstep <> f0 -> ttotal = fmul (ofN k) tstep -> lt (fmul c1em9 (ofN k)) f1 -> (Z.of_nat k <= 2147483647)%Z ->
  gateTEvol gates ttotal tstep d psi = Ok st ->
  vtime st = ttotal /\
  (exists N0 x, le f0 N0 /\ cof (fmul N0 N0) = fnorm2 dims f /\ reached dims gates f k (vpsi st) x /\ vnorm st = fmul N0 x) /\
  length (vseen st) = k /\
  forall i tt t psi', nth_error (vseen st) i = Some (tt, t, psi') ->
    tt = S i /\ t = fmul (ofN tt) tstep /\ exists x, reached dims gates f tt psi' x.
Proof.
  intros gates k ttotal tstep d psi dims f st XX SH HG HT ET HK HB H.
  destruct (nothing_empty _ _ _ _ _ _ H) as (g & rest & Eg).
  destruct (begin gates ttotal tstep d psi dims f st g rest Eg HG SH H) as (nt & psi1 & N0 & EN & HN & EN0 & SH1 & N1 & FL & HS).
  rewrite (nsteps_at f0 f1 fadd fmul fsub fopp fdiv finv fltb OF c1em9 trunc c1em9_pos TO (Z.of_nat k) k tstep ttotal HT (or_introl eq_refl)) in EN;
    [|now rewrite (ofZ_nat f0 f1 fadd fopp)|assumption|assumption].
  injection EN as <-. rewrite Nat2Z.id in HS. pose proof (dims_len _ _ _ SH1) as HD. rewrite N1 in HD.
  destruct (steps_exact f0 f1 fadd fmul fsub fopp fdiv finv fltb fsqrt OF SQ svdl svdr splitL splitR c1em20 dn SL SR PL PR HL HR c1em20_pos
     dims gates (mN psi) f tstep N0 HG HD XX k 0 (mkTev d psi1 N0 f0 [] []) st) as ((Ht & x & AT & EV) & _ & l & El & Ll & Hl); [|exact HS|].
  { split; [cbn; ring|]. exists f1. cbn [vpsi vnorm]. split; [|ring]. split; [assumption|]. split; [exact (one_pos f0 f1 fadd fmul fsub fopp fdiv finv fltb OF)|]. split; [auto|]. split.
    - eapply (shows_ext f0 f1 fadd fmul fsub fopp); [|exact SH1]. intros c _. cbn.
      assert (E1 : finv f1 = f1) by (field; apply (F_1_neq_0 FT)). rewrite E1, (of_1 f0 f1). ring.
    - intros _ Q. lia. }
  cbn [vseen app Nat.add] in *. split; [rewrite Ht, ET; reflexivity|]. split; [|split].
  - exists N0, x. split; [assumption|]. split; [assumption|]. split; [|assumption]. exact (reached_of _ _ _ _ _ _ _ AT).
  - now rewrite El.
  - intros i tt t psi' Hi. rewrite El in Hi. destruct (Hl i tt t psi' Hi) as (-> & -> & y & AT'). split; [reflexivity|]. split; [reflexivity|].
    exists y. exact (reached_of _ _ _ _ _ _ _ AT').
Qed.

(** From a normalised state and with "Normalize", the value returned is the norm that the evolved state would
    have without normalisation, and the state returned has norm 1. *)
Theorem C64_norm : forall gates k ttotal tstep d psi dims f st,
  untruncated -> shows dims psi f -> Forall (on_bond (mN psi)) gates ->
  tstep <> f0 -> ttotal = fmul (ofN k) tstep -> lt (fmul c1em9 (ofN k)) f1 -> (Z.of_nat k <= 2147483647)%Z ->
  dn = true -> 1 <= k ->
  gateTEvol gates ttotal tstep d psi = Ok st ->
  (fnorm2 dims f = c1 -> cof (fmul (vnorm st) (vnorm st)) = fnorm2 dims (evolved dims (map place gates) k f)) /\
  forall f', shows dims (vpsi st) f' -> fnorm2 dims f' = c1.
Proof.
  intros gates k ttotal tstep d psi dims f st XX SH HG HT ET HK HB Edn Hk H.
  destruct (C64_evolves gates k ttotal tstep d psi dims f st XX SH HG HT ET HK HB H) as (_ & (N0 & x & HN & EN0 & (Hx & SH' & Hr) & EV) & _).
  rewrite Edn in Hr. specialize (Hr Hk). split.
  - intros E1. rewrite E1 in EN0. rewrite EV. replace (fmul (fmul N0 x) (fmul N0 x)) with (fmul (fmul N0 N0) (fmul x x)) by ring.
    rewrite (of_mul' f0 f1 fadd fmul fsub fopp fdiv finv fltb OF), EN0, Hr. ring.
  - intros f' SH2. rewrite (shows_norm f0 f1 fadd fmul fsub fopp dims _ _ _ SH2 SH').
    rewrite (fnorm2_scale f0 f1 fadd fmul fsub fopp fdiv finv fltb OF), <- Hr, <- (of_mul' f0 f1 fadd fmul fsub fopp fdiv finv fltb OF).
    pose proof (lt_neq f0 f1 fadd fmul fsub fopp fdiv finv fltb OF x Hx) as Nx.
    replace (fmul (fmul (finv x) (finv x)) (fmul x x)) with f1 by (field; assumption). reflexivity.
Qed.
(** From a state that is not normalised it is not: the norm at the start is counted twice. *)
Theorem C64_norm_refuted : forall gates k ttotal tstep d psi dims f st,
  untruncated -> shows dims psi f -> Forall (on_bond (mN psi)) gates ->
  tstep <> f0 -> ttotal = fmul (ofN k) tstep -> lt (fmul c1em9 (ofN k)) f1 -> (Z.of_nat k <= 2147483647)%Z ->
  dn = true -> 1 <= k -> fnorm2 dims f <> c1 ->
  gateTEvol gates ttotal tstep d psi = Ok st ->
  cof (fmul (vnorm st) (vnorm st)) = cmul (fnorm2 dims f) (fnorm2 dims (evolved dims (map place gates) k f)) /\
  cof (fmul (vnorm st) (vnorm st)) <> fnorm2 dims (evolved dims (map place gates) k f).
Proof.
  intros gates k ttotal tstep d psi dims f st XX SH HG HT ET HK HB Edn Hk N1 H.
  destruct (C64_evolves gates k ttotal tstep d psi dims f st XX SH HG HT ET HK HB H) as (_ & (N0 & x & HN & EN0 & (Hx & SH' & Hr) & EV) & _).
  rewrite Edn in Hr. specialize (Hr Hk). rewrite EV. replace (fmul (fmul N0 x) (fmul N0 x)) with (fmul (fmul N0 N0) (fmul x x)) by ring.
  pose proof (lt_neq f0 f1 fadd fmul fsub fopp fdiv finv fltb OF x Hx) as Nx.
  split; [now rewrite (of_mul' f0 f1 fadd fmul fsub fopp fdiv finv fltb OF), EN0, Hr|].
  rewrite <- Hr. intros E. apply N1. rewrite <- EN0. change c1 with (cof f1). f_equal. apply (cof_inj f0) in E.
  transitivity (fmul (fmul (fmul N0 N0) (fmul x x)) (finv (fmul x x))); [field; assumption|]. rewrite E. field. assumption.
Qed.

(** Every svdBond splits the two-site tensor with the gate applied.  When the orthogonality centre
    is at one of its sites, the squared distance between the state after it and the gate acting on the state
    before is the weight discarded in the split.  That is so for all gates of the first step and
    all but the first gate of the later steps; for that one too if the last gate of the list
    is on the same bond as the first or the next one. *)
Theorem C64_truncation : forall gates ttotal tstep d psi dims f st,
  shows dims psi f -> Forall (on_bond (mN psi)) gates ->
  gateTEvol gates ttotal tstep d psi = Ok st ->
  (exists nt, nsteps ttotal tstep = Ok nt /\ map ugate (vlog st) = concat (repeat gates (Z.to_nat nt))) /\
  forall u, In u (vlog st) ->
    upos u <> 0 \/ ustep u = 1 \/
      (exists g g', hd_error gates = Some g /\ last gates g = g' /\ gi1 g <= gi1 g' <= gi1 g + 1)%Z ->
    exists ts ts' x y x' y',
      holds (ubefore u) ts /\ proper ts /\ sites ts = dims /\ holds (uafter u) ts' /\
      mA (ubefore u) (gi1 (ugate u)) = Some x /\ mA (ubefore u) (gi2 (ugate u)) = Some y /\
      mA (uafter u) (gi1 (ugate u)) = Some x' /\ mA (uafter u) (gi2 (ugate u)) = Some y' /\
      fnorm2 dims (fun c => csub (amplitude ts' c) (act dims (Z.to_nat (gi1 (ugate u) - 1)) (gel (ugate u)) (amplitude ts) c)) =
      residual2 f0 fadd fmul fsub fopp (gated (pair2 x y) (gel (ugate u))) (pair2 x' y').
Proof.
  intros gates ttotal tstep d psi dims f st SH HG H.
  destruct (nothing_empty _ _ _ _ _ _ H) as (g & rest & Eg).
  destruct (begin gates ttotal tstep d psi dims f st g rest Eg HG SH H) as (nt & psi1 & N0 & EN & HN & EN0 & SH1 & N1 & FL & HS).
  destruct (steps_log f0 f1 fadd fmul fsub fopp fdiv finv fltb fsqrt OF SQ svdl svdr splitL splitR c1em20 dn SL SR PL PR HL HR c1em20_pos
     dims gates (mN psi) tstep HG g rest Eg (Z.to_nat nt) 1 (mkTev d psi1 N0 f0 [] []) st f ltac:(lia) SH1 N1 FL HS) as (us & EU & SU & MU & _).
  cbn [vlog app] in EU. rewrite EU. split; [eauto|]. intros u Hu HC. rewrite Forall_forall in SU. destruct (SU u Hu) as (U1 & (f' & SHu) & U3 & U4).
  assert (Hgate : on_bond (mN psi) (ugate u)).
  { rewrite Forall_forall in HG. apply HG. assert (In (ugate u) (map ugate us)) as Q by now apply in_map. rewrite MU in Q.
    apply in_concat in Q as (l & Q1 & Q2). apply repeat_spec in Q1. now subst l. }
  assert (CE : centred (gi1 (ugate u)) (ubefore u)).
  { destruct (Nat.eqb_spec (upos u) 0) as [E0|E0]; [|assumption]. destruct U4 as [-> U4]. unfold starts_at in U4.
    destruct (Nat.eqb_spec (ustep u) 1) as [E1|E1]; [unfold first_lims in U4; unfold centred; lia|].
    destruct HC as [HC|[HC|(g1 & g2 & G1 & G2 & G3)]]; [contradiction|contradiction|]. rewrite Eg in G1, G2. cbn in G1. injection G1 as <-.
    unfold later_lims in U4. rewrite Eg, G2 in U4. unfold centred. lia. }
  pose proof SHu as (Gu & ts & HT & P & SI & _).
  pose proof U3 as (pre & post & x & y & x' & y' & H1 & H2 & LP & _ & _).
  pose proof Hgate as (B1 & B2 & B3).
  exists ts, (pre ++ x' :: y' :: post), x, y, x', y'.
  assert (M : forall (q : mps) (a b : tensor), holds q (pre ++ a :: b :: post) -> mA q (gi1 (ugate u)) = Some a /\ mA q (gi2 (ugate u)) = Some b).
  { intros q a b (_ & HA). assert (M0 : nth_error (pre ++ a :: b :: post) (length pre) = Some a /\ nth_error (pre ++ a :: b :: post) (S (length pre)) = Some b)
      by (clear; induction pre; cbn; auto). destruct M0 as [M1 M2].
    rewrite <- HA in M1 by (rewrite app_length; cbn; lia). rewrite <- HA in M2 by (rewrite app_length; cbn; lia).
    rewrite B2. split; [rewrite <- M1|rewrite <- M2]; f_equal; lia. }
  destruct (M _ _ _ H1) as [M1 M2]. destruct (M _ _ _ H2) as [M3 M4].
  repeat (split; [assumption|]).
  rewrite <- U1 in Hgate.
  exact (bonded_loss f0 f1 fadd fmul fsub fopp fdiv finv fltb OF splitL splitR (ugate u) (ubefore u) (uafter u) dims U3 Gu Hgate CE
    ts _ x y x' y' HT P SI H2 M1 M2 M3 M4).
Qed.

(** With decompositions and square roots that return, and as long as no step (with "Normalize") makes the norm
    1e-20 times smaller, gateTEvol returns - provided that, for two or more steps, the last gate of the list
    is not to the left of the first when the second gate is to its right, and not more
    than one bond to its right otherwise. *)
Definition restartable (gates : list bgate) : Prop :=
  match gates with
  | [] => False
  | [g] => True
  | g :: g1 :: _ => if (gi2 g <=? gi1 g1)%Z then (gi1 g <= gi1 (last gates g))%Z else (gi1 (last gates g) <= gi1 g + 1)%Z
  end.
Theorem C64_returns : forall gates k ttotal tstep d psi dims f,
  untruncated -> shows dims psi f -> Forall (on_bond (mN psi)) gates -> gates <> [] ->
  tstep <> f0 -> ttotal = fmul (ofN k) tstep -> lt (fmul c1em9 (ofN k)) f1 -> (Z.of_nat k <= 2147483647)%Z ->
  (forall t, exists z, svdl t = Ok z) -> (forall t, exists z, svdr t = Ok z) ->
  (forall w, exists z, splitL w = Ok z) -> (forall w, exists z, splitR w = Ok z) ->
  (forall x, le f0 x -> exists r, fsqrt x = Ok r) ->
  (2 <= k -> restartable gates) ->
  (dn = true -> forall j, j < k ->
     le (fmul (fmul c1em20 c1em20) (if Nat.eqb j 0 then f1 else fst (fnorm2 dims (evolved dims (map place gates) j f))))
        (fst (fnorm2 dims (evolved dims (map place gates) (S j) f)))) ->
  exists st, gateTEvol gates ttotal tstep d psi = Ok st.
Proof.
  intros gates k ttotal tstep d psi dims f XX SH HG NE HT ET HK HB T1 T2 T3 T4 T5 RS ST.
  assert (T : totals f0 fltb fsqrt svdl svdr splitL splitR) by (split; [assumption|]; split; [assumption|]; split; [assumption|]; split; assumption).
  unfold TevModel.gateTEvol.
  rewrite (nsteps_at f0 f1 fadd fmul fsub fopp fdiv finv fltb OF c1em9 trunc c1em9_pos TO (Z.of_nat k) k tstep ttotal HT (or_introl eq_refl));
    [|now rewrite (ofZ_nat f0 f1 fadd fopp)|assumption|assumption].
  cbn [obind]. destruct gates as [|g rest] eqn:Eg; [congruence|]. rewrite <- Eg in *.
  pose proof HG as HG0. rewrite Eg in HG0. inversion HG0 as [|? ? (B1 & B2 & B3) HG']; subst x l. pose proof SH as (G & _).
  destruct (position_ret f0 f1 fadd fmul fsub fopp fltb fsqrt svdl svdr splitL splitR d psi (gi1 g) T G ltac:(lia)) as (psi1 & EP). rewrite EP. cbn [obind].
  destruct (position_good c0 c1 cadd cmul csub copp cconj CR svdl svdr SL SR d d psi psi1 (gi1 g) G ltac:(lia) EP) as (_ & G1 & N1 & L1 & R1 & S1).
  pose proof (shows_same f0 f1 fadd fmul fsub fopp dims psi psi1 f SH S1 G1) as SH1.
  destruct (norm_ret f0 f1 fadd fmul fsub fopp fdiv finv fltb fsqrt OF svdl svdr splitL splitR dims d psi1 f T SH1 ltac:(lia)) as (psi2 & nrm & EN). rewrite EN. cbn [obind].
  destruct (norm_ok f0 f1 fadd fmul fsub fopp fdiv finv fltb fsqrt OF SQ dims d psi1 d psi2 nrm f SH1 EN) as (_ & SH2 & N2 & A2 & L2 & R2 & LR & Hr & Er).
  rewrite Nat2Z.id. pose proof (dims_len _ _ _ SH2) as HD. rewrite N2, N1 in HD.
  apply (steps_ret f0 f1 fadd fmul fsub fopp fdiv finv fltb fsqrt OF SQ svdl svdr splitL splitR c1em20 dn SL SR PL PR HL HR c1em20_pos
     dims gates (mN psi) f tstep nrm HG HD g rest Eg T XX k 0).
  - split; [cbn; ring|]. exists f1. cbn [vpsi vnorm]. split; [|ring]. split; [congruence|]. split; [exact (one_pos f0 f1 fadd fmul fsub fopp fdiv finv fltb OF)|]. split; [auto|]. split.
    + eapply (shows_ext f0 f1 fadd fmul fsub fopp); [|exact SH2]. intros c _. cbn.
      assert (E1 : finv f1 = f1) by (field; apply (F_1_neq_0 FT)). rewrite E1, (of_1 f0 f1). ring.
    + intros _ Q. lia.
  - cbn. unfold first_lims. rewrite L2, R2. auto.
  - intros [Q|Q]; [|lia]. specialize (RS Q). intros p (P1 & P2). unfold restartable in RS. rewrite Eg in *. destruct rest as [|g1 rest']; cbn [needs'] in *; [cbn [last] in *; lia|].
    destruct (gi2 g <=? gi1 g1)%Z; lia.
  - intros Edn i Hi. unfold strong. cbn [Nat.add]. apply ST; assumption.
Qed.

(** The proviso is needed: for other lists of gates a second time step is an error. *)
Theorem C64_second_step_refuted : forall gates k ttotal tstep d psi dims f st,
  shows dims psi f -> Forall (on_bond (mN psi)) gates ->
  tstep <> f0 -> ttotal = fmul (ofN k) tstep -> lt (fmul c1em9 (ofN k)) f1 -> (Z.of_nat k <= 2147483647)%Z ->
  2 <= k -> ~ restartable gates ->
  gateTEvol gates ttotal tstep d psi <> Ok st.
Proof.
  intros gates k ttotal tstep d psi dims f st SH HG HT ET HK HB Hk NR H.
  destruct (nothing_empty _ _ _ _ _ _ H) as (g & rest & Eg).
  destruct (begin gates ttotal tstep d psi dims f st g rest Eg HG SH H) as (nt & psi1 & N0 & EN & HN & EN0 & SH1 & N1 & FL & HS).
  rewrite (nsteps_at f0 f1 fadd fmul fsub fopp fdiv finv fltb OF c1em9 trunc c1em9_pos TO (Z.of_nat k) k tstep ttotal HT (or_introl eq_refl)) in EN;
    [|now rewrite (ofZ_nat f0 f1 fadd fopp)|assumption|assumption].
  injection EN as <-. rewrite Nat2Z.id in HS.
  destruct (steps_need f0 f1 fadd fmul fsub fopp fdiv finv fltb fsqrt OF SQ svdl svdr splitL splitR c1em20 dn SL SR PL PR HL HR c1em20_pos
     dims gates (mN psi) tstep HG g rest Eg k 1 (mkTev d psi1 N0 f0 [] []) st f ltac:(lia) SH1 N1 FL Hk HS) as (p & (P1 & P2) & ND).
  apply NR. unfold restartable. rewrite Eg in *. destruct rest as [|g1 rest']; [exact Logic.I|]. unfold needs in ND.
  destruct (gi2 g <=? gi1 g1)%Z; lia.
Qed.

(** The number of steps, when there is one, fits the total time to 1e-9. *)
Theorem C64_steps : forall gates ttotal tstep d psi st,
  gateTEvol gates ttotal tstep d psi = Ok st -> exists nt, nsteps ttotal tstep = Ok nt /\
  le (fabs (fsub (fmul (ofZ nt) tstep) ttotal)) c1em9.
Proof.
  intros gates ttotal tstep d psi st H. unfold TevModel.gateTEvol in H. destruct (nsteps ttotal tstep) as [nt| |] eqn:E; cbn [obind] in H; try discriminate.
  exists nt. split; [reflexivity|]. unfold TevModel.nsteps in E. destruct (negb _); [discriminate|]. destruct (negb _); [discriminate|].
  destruct (fltb c1em9 _) eqn:Q; [discriminate|]. injection E as <-. assumption.
Qed.
(** But a total time of the sign opposite to the step is accepted, and then nothing at all is done: evolution
    backwards in time with positive steps silently returns the state as it was. *)
Theorem C64_negative_time_refuted : forall gates k ttotal tstep d psi dims f st,
  shows dims psi f -> Forall (on_bond (mN psi)) gates ->
  tstep <> f0 -> ttotal = fmul (fopp (ofN k)) tstep -> lt (fmul c1em9 (ofN k)) f1 -> (Z.of_nat k <= 2147483647)%Z ->
  gateTEvol gates ttotal tstep d psi = Ok st ->
  vseen st = [] /\ vlog st = [] /\ shows dims (vpsi st) f.
Proof.
  intros gates k ttotal tstep d psi dims f st SH HG HT ET HK HB H.
  destruct (nothing_empty _ _ _ _ _ _ H) as (g & rest & Eg).
  destruct (begin gates ttotal tstep d psi dims f st g rest Eg HG SH H) as (nt & psi1 & N0 & EN & HN & EN0 & SH1 & N1 & FL & HS).
  rewrite (nsteps_at f0 f1 fadd fmul fsub fopp fdiv finv fltb OF c1em9 trunc c1em9_pos TO (- Z.of_nat k)%Z k tstep ttotal HT (or_intror eq_refl)) in EN;
    [|now rewrite (ofZ_neg f0 f1 fadd fmul fsub fopp fdiv finv fltb OF)|assumption|assumption].
  injection EN as <-. replace (Z.to_nat (- Z.of_nat k)) with 0 in HS by lia. cbn [TevModel.steps_loop] in HS. injection HS as <-. auto.
Qed.
(** And from 10^9 steps on, a total time that is a whole number of steps is refused. *)
Theorem C64_many_steps_refuted : forall gates k ttotal tstep d psi st,
  ttotal = fmul (ofN k) tstep -> le f1 (fmul c1em9 (ofN k)) -> lt c1em9 (fabs tstep) ->
  gateTEvol gates ttotal tstep d psi <> Ok st.
Proof.
  intros gates k ttotal tstep d psi st ET HK HT H. unfold TevModel.gateTEvol in H. destruct (nsteps ttotal tstep) as [nt| |] eqn:E; cbn [obind] in H; try discriminate.
  exact (nsteps_many f0 f1 fadd fmul fsub fopp fdiv finv fltb OF c1em9 trunc c1em9_pos TO k tstep ttotal nt ET HK HT E).
Qed.
End Props.

(** *** Three spins in the state 2|001>, and two time steps of the swap gates on the two bonds. *)
Section Example.
Local Open Scope Qc_scope.
Notation K := (@cplx Qc).
Notation q a b := (Q2Qc (a # b)%Q).
Notation k0 := (0, 0). Notation k1 := (1, 0).
Notation ka := (cadd Qcplus). Notation km := (cmul Qcplus Qcmult Qcminus). Notation kc := (cconj Qcopp).
Definition qtrunc (x : Qc) : Z := Z.quot (Qnum (this x)) (Zpos (Qden (this x))).
Lemma ofN_q n : ofN 0 1 Qcplus n = Q2Qc (inject_Z (Z.of_nat n)).
Proof.
  induction n as [|n IH]; [reflexivity|]. cbn [TevModel.ofN]. rewrite IH. apply Qc_is_canon. unfold Qcplus. cbn [this Q2Qc]. rewrite !Qred_correct. unfold inject_Z, Qeq, Qplus. cbn [Qnum Qden]. change (Qnum 1%Qc) with 1%Z. change (Qden 1%Qc) with 1%positive. lia.
Qed.
Lemma qtrunc_ok : trunc_ok 0 1 Qcplus Qcopp Qcltb qtrunc.
Proof.
  split.
  - intros x Hx. assert (H0 : (0 <= Qnum (this x))%Z).
    { destruct (Z.le_gt_cases 0 (Qnum (this x))) as [|G]; [assumption|]. assert (x < 0) as L; [|apply Qcltb_lt in L; congruence].
      unfold Qclt, Qlt. cbn. lia. }
    set (a := Qnum (this x)) in *. set (b := Zpos (Qden (this x))). assert (0 < b)%Z by reflexivity.
    pose proof (Z.quot_pos a b H0 H). exists (Z.to_nat (Z.quot a b)). split; [unfold qtrunc; fold a b; lia|].
    assert (E : (a = b * Z.quot a b + Z.rem a b)%Z) by (apply Z.quot_rem; lia). pose proof (Z.rem_bound_pos a b H0 H).
    rewrite !ofN_q. rewrite Nat2Z.inj_succ, Z2Nat.id by assumption. split.
    + clear Hx. destruct (Qcltb x _) eqn:Q; [|reflexivity]. apply Qcltb_lt in Q. unfold Qclt, Q2Qc in Q. cbn [this] in Q.
      rewrite Qred_correct in Q. unfold inject_Z, Qlt in Q. cbn [Qnum Qden] in Q. fold a b in Q. nia.
    + apply Qcltb_lt. unfold Qclt, Q2Qc. cbn [this]. rewrite Qred_correct. unfold inject_Z, Qlt. cbn [Qnum Qden]. fold a b. nia.
  - intros x. unfold qtrunc. assert (E : this (- x) = (- this x)%Q).
    { unfold Qcopp, Q2Qc. cbn [this]. now rewrite Qred_opp, (canon x). }
    rewrite E. unfold Qopp. cbn [Qnum Qden]. rewrite Z.quot_opp_l by discriminate. reflexivity.
Qed.

Definition txlist : list (@tensor K) :=
  [mkT 1 2 1 true (fun _ s _ => if Nat.eqb s 0 then (q 2 1, 0) else k0);
   mkT 1 2 1 true (fun _ s _ => if Nat.eqb s 0 then k1 else k0);
   mkT 1 2 1 false (fun _ s _ => if Nat.eqb s 0 then k0 else k1)].
Definition txpsi : mps (@tensor K) := mkMps 3 (fun j => if (j <? 1)%Z then None else nth_error txlist (Z.to_nat (j - 1))) 0 2 1 false 0%nat.
Definition txswap (b : Z) : bgate := match swap_gate 0 1 Qcplus Qcmult Qcminus 2 2 b (b + 1) with Ok g => g | _ => mkG b b (fun _ _ _ _ => k0) end.
Definition txgates : list bgate := [txswap 1; txswap 2].
Definition txevol := gateTEvol 0 1 Qcplus Qcmult Qcminus Qcopp Qcdiv Qcinv Qcltb qsqrt (triv_svdl k0 k1) (triv_svdr k0 k1) (triv_splitl k0 k1) (triv_splitr k0 k1)
  (q 1 100000000000000000000) (q 1 1000000000) qtrunc true txgates (q 1 5) (q 1 10) (fun _ _ => None) txpsi.
Notation "'kring'" := (cring 0 1 Qcplus Qcmult Qcminus Qcopp Qcdiv Qcinv Qcltb Qc_ordered).
Example C64_nonvacuous :
  ordered_field 0 1 Qcplus Qcmult Qcminus Qcopp Qcdiv Qcinv Qcltb /\ sqrt_ok 0 Qcmult Qcltb qsqrt /\
  svdl_ok k0 k1 ka km kc (triv_svdl k0 k1) /\ svdr_ok k0 k1 ka km kc (triv_svdr k0 k1) /\
  splitl_ok k0 k1 ka km kc (triv_splitl k0 k1) /\ splitr_ok k0 k1 ka km kc (triv_splitr k0 k1) /\
  split_exact k0 ka km (triv_splitl k0 k1) /\ split_exact k0 ka km (triv_splitr k0 k1) /\
  trunc_ok 0 1 Qcplus Qcopp Qcltb qtrunc /\
  shows k0 k1 ka km kc [2; 2; 2]%nat txpsi (amplitude k0 k1 ka km txlist) /\ fnorm2 k0 ka km kc [2; 2; 2]%nat (amplitude k0 k1 ka km txlist) = (q 4 1, 0) /\
  Forall (on_bond 3) txgates /\ restartable txgates /\ q 1 5 = ofN 0 1 Qcplus 2 * q 1 10 /\
  exists st, txevol = Ok st /\ vnorm st = q 4 1 /\ length (vseen st) = 2%nat /\
    exists ts, holds (vpsi st) ts /\ amplitude k0 k1 ka km ts [1; 0; 0]%nat = k1.
Proof.
  assert (C0 : kc k0 = k0) by (apply ceqb_eq; vm_compute; reflexivity). assert (C1 : kc k1 = k1) by (apply ceqb_eq; vm_compute; reflexivity).
  split; [exact Qc_ordered|]. split; [exact qsqrt_ok|].
  split; [exact (triv_svdl_ok k0 k1 ka km _ _ kc kring C0 C1)|]. split; [exact (triv_svdr_ok k0 k1 ka km _ _ kc kring C0 C1)|].
  split; [exact (triv_splitl_ok k0 k1 ka km _ _ kc kring C0 C1)|]. split; [exact (triv_splitr_ok k0 k1 ka km _ _ kc kring C0 C1)|].
  split; [exact (triv_splitl_exact k0 k1 ka km _ _ kring)|]. split; [exact (triv_splitr_exact k0 k1 ka km _ _ kring)|].
  split; [exact qtrunc_ok|]. split.
  { split.
    - split; [reflexivity|]. split; [cbn; lia|]. split; [cbn; lia|]. split; [cbn; lia|]. split.
      + intros j Hj. cbn in Hj. assert (j = 1 \/ j = 2 \/ j = 3)%Z as [-> | [-> | ->]] by lia; eexists; (split; [reflexivity|]); cbn; intros; try reflexivity; lia.
      + split; [intros j t Hj; cbn in Hj; lia|]. intros j t Hj Et. cbn in Hj. assert (j = 2 \/ j = 3)%Z as [-> | ->] by lia; cbn in Et; injection Et as <-;
          intros a b Ha Hb; cbn in Ha, Hb; assert (a = 0)%nat as -> by lia; assert (b = 0)%nat as -> by lia; apply ceqb_eq; vm_compute; reflexivity.
    - exists txlist. split; [|split; [vm_compute; auto|split; [reflexivity|reflexivity]]].
      split; [reflexivity|]. intros k Hk. cbn in Hk. destruct k as [|[|[|k]]]; try lia; reflexivity. }
  split; [apply ceqb_eq; vm_compute; reflexivity|].
  split; [unfold txgates; repeat (apply Forall_cons; [repeat split; vm_compute; congruence|]); apply Forall_nil|]. split; [vm_compute; congruence|]. split; [apply Qc_is_canon; vm_compute; reflexivity|].
  assert (E : match txevol with Ok st => Qc_eq_bool (vnorm st) (q 4 1) && (length (vseen st) =? 2)%nat && (mN (vpsi st) =? 3)%Z &&
     match mA (vpsi st) 1, mA (vpsi st) 2, mA (vpsi st) 3 with Some a, Some b, Some c => ceqb (amplitude k0 k1 ka km [a; b; c] [1; 0; 0]%nat) k1 | _, _, _ => false end
     | _ => false end = true) by (vm_compute; reflexivity).
  destruct txevol as [st| |]; try discriminate. exists st. split; [reflexivity|]. rewrite !andb_true_iff in E. destruct E as (((E1 & E2) & E3) & E4).
  apply Qc_eq_bool_correct in E1. apply Nat.eqb_eq in E2. apply Z.eqb_eq in E3. split; [assumption|]. split; [assumption|].
  destruct (mA (vpsi st) 1) as [a|] eqn:M1; [|discriminate]. destruct (mA (vpsi st) 2) as [b|] eqn:M2; [|discriminate]. destruct (mA (vpsi st) 3) as [c|] eqn:M3; [|discriminate].
  apply ceqb_eq in E4. exists [a; b; c]. split; [|assumption]. split; [now rewrite E3|]. intros k Hk. cbn in Hk.
  destruct k as [|[|[|k]]]; try lia; assumption.
Qed.
(** A list of gates that can be applied once but not twice: bonds 3, 4 and then 1. *)
Example C64_not_restartable : Forall (on_bond 5) [txswap 3; txswap 4; txswap 1] /\ ~ restartable [txswap 3; txswap 4; txswap 1].
Proof. split; [ repeat (apply Forall_cons; [repeat split; vm_compute; congruence|]); apply Forall_nil|]. vm_compute. congruence. Qed.
End Example.

Print Assumptions C64_gate.
Print Assumptions C64_gate_types.
Print Assumptions C64_swap.
Print Assumptions C64_swap_refuted.
Print Assumptions C64_evolves.
Print Assumptions C64_norm.
Print Assumptions C64_norm_refuted.
Print Assumptions C64_truncation.
Print Assumptions C64_returns.
Print Assumptions C64_second_step_refuted.
Print Assumptions C64_steps.
Print Assumptions C64_negative_time_refuted.
Print Assumptions C64_many_steps_refuted.
