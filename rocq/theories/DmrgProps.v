(** C54: dmrg keeps the state normalised, never returns an energy below the spectrum, and
    without truncation never raises the energy; the energy returned is then that of the state. *)
From Coq Require Import ZArith List Bool Arith Lia Ring Field QArith QArith.Qcanon.
From Verif Require Import Util BigSum MpsModel MpsTensor MpsSpec MpsProofs MpsPosition MpsOrtho MpsProps LocalModel LocalSpec LocalProofs LocalTensor LocalMeaning LocalSem LocalProps
  DavSpec DavModel DavProofs DavProps SweepsModel DmrgAlg DmrgSpec DmrgModel DmrgStep.
Import ListNotations.
Local Open Scope outcome_scope.
Local Open Scope nat_scope.
Local Arguments Z.add : simpl never.
Local Arguments Z.sub : simpl never.

Section Props.
(** The numbers, the square root and the eigensolver. *)
Context {F : Type} (f0 f1 : F) (fadd fmul fsub : F -> F -> F) (fopp : F -> F)
  (fdiv : F -> F -> F) (finv : F -> F) (fltb : F -> F -> bool) (fsqrt : F -> outcome F)
  (OF : ordered_field f0 f1 fadd fmul fsub fopp fdiv finv fltb)
  (SQ : sqrt_ok f0 fmul fltb fsqrt).
Notation K := (@cplx F).
Notation c0 := (c0 f0). Notation c1 := (c1 f0 f1).
Notation cadd := (cadd fadd). Notation cmul := (cmul fadd fmul fsub). Notation cconj := (cconj fopp).
Notation csub := (csub fsub). Notation copp := (copp fopp). Notation cof := (cof f0).
Let FT := of_field _ _ _ _ _ _ _ _ _ OF.
Add Field FFdmp : FT.
Let CR := cring f0 f1 fadd fmul fsub fopp fdiv finv fltb OF.
Add Ring CRdmp : CR.
Notation le x y := (fltb y x = false).
Notation lt x y := (fltb x y = true).
Notation tensor := (@tensor K).
Notation wave := (@wave K).
Notation mps := (mps tensor).
Notation good := (good c0 c1 cadd cmul cconj).
Notation norm2 := (norm2 c0 c1 cadd cmul cconj).
Notation energy := (energy c0 c1 cadd cmul cconj).
(** The MPO, on n sites. *)
Context (ws : Z -> wten K) (n : nat).
Notation W := (seg ws 1 n).
(** Everything dmrg is given or calls. *)
Context (heev : nat -> (nat -> nat -> K) -> outcome ((nat -> nat -> K) * (nat -> F)))
  (HEEV : heev_ok f0 f1 fadd fmul fsub fopp fltb heev)
  (rnd0 rnd : nat -> Z -> Z -> nat -> nat -> @two_site F)
  (c1em20 c1em10 Approx0 c1em3 thousand : F) (Hc : lt f0 c1em10) (Hc20 : lt f0 c1em20)
  (svdl svdr : tensor -> outcome (tensor * @matrix K))
  (SL : svdl_ok c0 c1 cadd cmul cconj svdl) (SR : svdr_ok c0 c1 cadd cmul cconj svdr)
  (split : nat -> Z -> lmpo (@edge K) -> bool -> wave -> outcome (tensor * tensor))
  (FAC : forall sw b PH, factors f0 f1 fadd fmul fsub fopp (split sw b PH))
  (niter : nat -> nat) (miniter : nat) (errgoal : F) (writes : nat -> bool) (dfuel : nat)
  {O : Type} (measure : O -> nat -> Z -> Z -> option F -> mps -> O)
  (checkDone : O -> nat -> option F -> mps -> bool * O).
Notation dmrg := (dmrg f0 f1 fadd fmul fsub fopp finv fltb fsqrt ws heev rnd0 rnd c1em20 c1em10 Approx0 c1em3 thousand
  svdl svdr split niter miniter errgoal writes dfuel measure checkDone).
Notation exact := (forall sw b PH, exact_split f0 f1 fadd fmul fsub fopp (split sw b PH)).
Notation tens := (tens f0).
Notation ts s := (seg (tens s) 1 n).
Let CA := DavProofs.conj_add f0 f1 fadd fmul fsub fopp fdiv finv fltb OF.
Let CM := DavProofs.conj_mul f0 f1 fadd fmul fsub fopp fdiv finv fltb OF.
Let C0 := conj_0 f0 f1 fadd fmul fsub fopp fdiv finv fltb OF.
Let C1 := conj_1 f0 f1 fadd fmul fsub fopp fdiv finv fltb OF.

Lemma last_cons' (l : list F) x y : last (x :: l) y = last l x.
Proof. revert x y. induction l as [|z l IH]; intros x y; [reflexivity|]. change (last (z :: l) y = last (z :: l) x). now rewrite !IH. Qed.
(** position(1) at the start. *)
Lemma start_ok (Hn : 3 <= n) d psi d1 psi1 ts0 : good psi -> mN psi = Z.of_nat n -> holds psi ts0 -> proper ts0 -> sites ts0 = wsites W ->
  MpsModel.position (orthL c0 cadd cmul svdl) (orthR c0 cadd cmul svdr) d psi 1%Z = Ok (d1, psi1) ->
  inv f0 f1 fadd fmul fsub fopp ws n 1 psi1 (make (Z.of_nat n) true None None 0 (Z.of_nat n + 1)) /\ orthoCenter psi1 = Ok 1%Z /\
  norm2 (ts psi1) = norm2 ts0 /\ energy (ts psi1) W = energy ts0 W.
Proof.
  intros G EN HD PR ES H.
  destruct (position_good c0 c1 cadd cmul csub copp cconj CR svdl svdr SL SR d d1 psi psi1 1 G ltac:(lia) H) as (-> & G1 & EN1 & El & Er & SS).
  destruct (SS ts0 HD PR) as (ts1 & HD1 & PR1 & ES1 & AM).
  assert (ts1 = ts psi1) as -> by (apply (holds_ts f0 n); congruence).
  split; [|split; [|split]].
  - split; [assumption|]. split; [congruence|]. split; [exact PR1|]. split; [congruence|]. split; [lia|]. split; [reflexivity|]. split; [cbn; lia|].
    exists (tens psi1). split; [apply lr_start|reflexivity].
  - unfold orthoCenter, isOrtho. rewrite El, Er. reflexivity.
  - rewrite !(norm2_whole c0 c1 cadd cmul cconj), ES1. apply (wnorm_ext c0 cadd cmul cconj); intros; apply AM; assumption.
  - rewrite !(energy_whole c0 c1 cadd cmul cconj), ES1. apply (wform_ext c0 cadd cmul cconj); intros; apply AM; assumption.
Qed.

(** What a run of dmrg with a Hermitian MPO on at least three sites leaves behind, for any
    state psi with tensors ts0, any sweep parameters, any observer, any truncation and noise:
    - a state on the same sites, of norm one;
    - in every sweep done, every bond optimised twice, left to right and back; all sweeps
      unless the observer says stop;
    - energies no lower than any lower bound of the spectrum of H;
    and if nothing is truncated:
    - the energy returned is <psi|H|psi> of the state returned;
    - no step raises the energy, and the first energy is no higher than the Rayleigh
      quotient of the state given. *)
Theorem C54_dmrg : forall nsweep d psi o ts0 s,
  3 <= n -> wlinked 1 W 1 -> hermitian_mpo f0 f1 fadd fmul fsub fopp W ->
  good psi -> holds psi ts0 -> proper ts0 -> sites ts0 = wsites W ->
  dmrg (Z.of_nat n) nsweep d psi o = Ok s ->
  exists ts', holds (gpsi s) ts' /\ proper ts' /\ sites ts' = sites ts0 /\ norm2 ts' = c1 /\
  exists (visits : list (nat * Z * Z)) (es : list F) (k : nat),
    glog s = combine visits (map Some es) /\ length visits = length es /\
    genergy s = last (map Some es) None /\
    visits = flat_map (fun sw => map (fun bh => (sw, fst bh, snd bh)) (up_and_down n)) (seq 1 k) /\
    k <= nsweep /\ (1 <= nsweep -> 1 <= k) /\ ((forall o i e p, fst (checkDone o i e p) = false) -> k = nsweep) /\
    (forall mu, bounded_below f0 f1 fadd fmul fsub fopp fltb W mu -> Forall (fun e => le mu e) es) /\
    match es with
    | [] => cmul (energy ts' W) (norm2 ts0) = energy ts0 W
    | e1 :: rest =>
        (fst (norm2 ts0) <> f0 -> le (fmul e1 (fst (norm2 ts0))) (fst (energy ts0 W))) /\
        (exact -> energy ts' W = cof (last rest e1) /\ descending fltb e1 rest)
    end.
Proof.
  intros nsweep d psi o ts0 s Hn HW HH G HD PR ES H. unfold DmrgModel.dmrg, worker in H.
  assert (EN : mN psi = Z.of_nat n).
  { destruct HD as [HL _]. rewrite HL. f_equal. assert (length (sites ts0) = length (wsites W)) by now rewrite ES.
    unfold sites, wsites in *. rewrite !map_length, seg_len in *. lia. }
  destruct (MpsModel.position _ _ _ _ _) as [[d1 psi1]| |] eqn:EP; cbn [obind] in H; try discriminate.
  destruct (start_ok Hn d psi d1 psi1 ts0 G EN HD PR ES EP) as (I0 & O0 & EQN & EQE).
  destruct (sweeps_loop _ _ _ _ _ _ _ _ _ _ _ _ _ _ _ _ _ _ _ _ _ _ _ _ _ _ _ _ _) as [s1| |] eqn:EL in H; cbn [obind] in H; try discriminate.
  pose proof (sweeps_ok f0 f1 fadd fmul fsub fopp fdiv finv fltb fsqrt OF SQ ws n Hn HW HH heev HEEV rnd0 rnd c1em20 c1em10 Approx0 c1em3 thousand Hc
    split niter miniter errgoal writes dfuel measure checkDone FAC nsweep 1 (mkD d1 psi1 (make (Z.of_nat n) true None None 0 (Z.of_nat n + 1)) o None []) s1 I0 O0 EL) as (l & k & (P & LG & EG) & K1 & K2 & K3 & V & I1 & O1).
  cbn [gpsi glog genergy app] in P, LG, EG.
  destruct (normalize _ _ _ _ _ _ _ _ _ _ _) as [[d2 psi2]| |] eqn:EZ in H; cbn [obind] in H; try discriminate. injection H as <-. cbn [gpsi glog genergy].
  destruct I1 as (G1 & EN1 & HT1 & HS1 & _).
  destruct (normalize_ok f0 f1 fadd fmul fsub fopp fdiv finv fltb fsqrt OF SQ ws n Hn c1em20 Hc20 _ _ _ _ G1 EN1 HT1 O1 EZ)
    as (Fl & EN2 & HT2 & HS2 & N2 & E2).
  destruct (path_facts f0 f1 fadd fmul fsub fopp fdiv finv fltb OF ws n split _ _ _ P) as (A1 & A2 & A3 & A4 & A5).
  exists (ts psi2). split; [apply (tens_holds f0 n); assumption|]. split; [exact HT2|]. split; [congruence|]. split; [exact N2|].
  exists (map fst l), (map snd l), k. split; [|split; [now rewrite !map_length|split; [|split; [exact V|split; [assumption|split; [assumption|split; [assumption|split]]]]]]].
  - rewrite LG. clear. induction l as [|[v e] l IH]; [reflexivity|]. cbn [map combine fst snd]. rewrite IH. reflexivity.
  - rewrite EG. clear. unfold energies.
    induction l as [|v l IH] using rev_ind; [reflexivity|]. rewrite fold_left_app, !map_app. cbn [fold_left map]. rewrite last_last. reflexivity.
  - intros mu B. rewrite Forall_map. rewrite Forall_forall in *. intros v Hv. apply (A3 v Hv mu B).
  - destruct l as [|[v e] l]; cbn [map snd].
    + rewrite (A1 eq_refl) in E2. rewrite EQN, EQE in E2. exact E2.
    + rewrite EQN, EQE in A5. destruct A5 as (B1 & B2). split; [exact B1|]. intros EX. split; [|now apply B2].
      rewrite (A2 ltac:(discriminate)) in E2.
      assert (EE : energies ((v, e) :: l) None = Some (last (map snd l) e)).
      { clear. unfold energies. cbn [fold_left snd]. revert v e. induction l as [|[v' e'] l IH]; intros v e; [reflexivity|]. cbn [fold_left snd].
        rewrite (IH v' e'). cbn [map snd]. symmetry. f_equal. apply last_cons'. }
      rewrite <- (A4 EX _ EE), <- E2. ring.
Qed.

(** A run never fails: with square roots, eigensolver and factorisations that return, and a
    nonzero state, dmrg returns. *)
Theorem C54_returns : forall nsweep d psi o ts0,
  3 <= n -> wlinked 1 W 1 -> hermitian_mpo f0 f1 fadd fmul fsub fopp W ->
  good psi -> holds psi ts0 -> proper ts0 -> sites ts0 = wsites W -> norm2 ts0 <> c0 ->
  (forall x, le f0 x -> exists r, fsqrt x = Ok r) ->
  (forall m M, 0 < m -> (forall i j, i < m -> j < m -> M j i = cconj (M i j)) -> exists U w, heev m M = Ok (U, w)) ->
  (forall sw b PH left w, wave2 f0 fadd fmul fsub fopp w = c1 -> exists x y, split sw b PH left w = Ok (x, y)) ->
  (forall t, exists z, svdl t = Ok z) -> (forall t, exists z, svdr t = Ok z) ->
  0 < dfuel -> le c1em20 f1 -> 1 <= nsweep ->
  exists s e, dmrg (Z.of_nat n) nsweep d psi o = Ok s /\ genergy s = Some e.
Proof.
  intros nsweep d psi o ts0 Hn HW HH G HD PR ES NZ SQT HTt SPT TL TR DF HC1 NS.
  assert (EN : mN psi = Z.of_nat n).
  { destruct HD as [HL _]. rewrite HL. f_equal. assert (length (sites ts0) = length (wsites W)) by now rewrite ES.
    unfold sites, wsites in *. rewrite !map_length, seg_len in *. lia. }
  assert (exists s, dmrg (Z.of_nat n) nsweep d psi o = Ok s) as (s & HSs).
  { unfold DmrgModel.dmrg, worker. pose proof G as (Gm & G2 & G3 & G4 & Gf & Gc).
    destruct (C38_total c0 cadd cmul svdl svdr d psi 1 TL TR Gm G3 G4 ltac:(lia)) as (psi1 & EP). rewrite EP. cbn [obind].
    destruct (start_ok Hn d psi d psi1 ts0 G EN HD PR ES EP) as (I0 & O0 & EQN & EQE).
    assert (NZ' : fst (norm2 (ts psi1)) <> f0).
    { rewrite EQN. intros E. apply NZ. rewrite (norm2_real f0 f1 fadd fmul fsub fopp fdiv finv fltb OF), E. reflexivity. }
    set (s0 := mkD d psi1 _ o None []).
    destruct (sweeps_total f0 f1 fadd fmul fsub fopp fdiv finv fltb fsqrt OF SQ ws n Hn HW HH heev HEEV rnd0 rnd c1em20 c1em10 Approx0 c1em3 thousand Hc
      split niter miniter errgoal writes dfuel measure checkDone FAC ltac:(split; [assumption|split; [assumption|split; assumption]]) nsweep 1 s0 I0 NZ') as (s1 & E1).
    rewrite E1. cbn [obind].
    pose proof (sweeps_ok f0 f1 fadd fmul fsub fopp fdiv finv fltb fsqrt OF SQ ws n Hn HW HH heev HEEV rnd0 rnd c1em20 c1em10 Approx0 c1em3 thousand Hc
      split niter miniter errgoal writes dfuel measure checkDone FAC nsweep 1 s0 s1 I0 O0 E1) as (l & k & (P & LG & EG) & K1 & K2 & K3 & V & I1 & O1).
    destruct I1 as (G1 & EN1 & HT1 & HS1 & _).
    destruct (path_facts f0 f1 fadd fmul fsub fopp fdiv finv fltb OF ws n split _ _ _ P) as (A1 & A2 & _).
    assert (NN : norm2 (ts (gpsi s1)) = c1).
    { apply A2. intros ->. specialize (K2 NS). destruct k as [|k]; [lia|]. cbn in V. destruct n as [|[|m]]; try lia. discriminate. }
    destruct (normalize_total f0 f1 fadd fmul fsub fopp fdiv finv fltb fsqrt OF SQ n Hn c1em20 (gd s1) (gpsi s1) SQT HC1 G1 EN1 HT1 O1 NN) as (d2 & psi2 & EZ).
    rewrite EZ. cbn [obind]. eauto. }
  destruct (C54_dmrg nsweep d psi o ts0 s Hn HW HH G HD PR ES HSs) as (ts' & _ & _ & _ & _ & v & es & k & _ & LE & EG & V & _ & K & _ & _ & _).
  exists s, (last es f0). split; [exact HSs|]. rewrite EG. specialize (K NS).
  destruct es as [|e es].
  - exfalso. destruct k as [|k]; [lia|]. subst v. cbn in LE. destruct n as [|[|m]]; try lia. discriminate.
  - clear. revert e. induction es as [|e' es IH]; intros e; [reflexivity|]. exact (IH e').
Qed.

(** With two sites dmrg never returns: both edges of the only bond are null, and
    LocalOp::product calls that an error. *)
Theorem C54_two_sites_refuted : forall nsweep d psi o s,
  good psi -> mN psi = 2%Z -> 1 <= nsweep -> dmrg 2 nsweep d psi o <> Ok s.
Proof.
  intros nsweep d psi o s G EN NS H. unfold DmrgModel.dmrg, worker in H.
  destruct (MpsModel.position _ _ _ _ _) as [[d1 psi1]| |] eqn:EP; cbn [obind] in H; try discriminate.
  destruct (position_good c0 c1 cadd cmul csub copp cconj CR svdl svdr SL SR d d1 psi psi1 1 G ltac:(lia) EP) as (_ & _ & EN1 & _).
  destruct nsweep as [|nsweep]; [lia|]. cbn [DmrgModel.sweeps_loop] in H. cbn [gpsi gPH lwr make negb andb] in H.
  assert (P0 : forall PH g, (exists wr f, PH = mkL 2 true (fun k => if (k =? 3)%Z then None else if (k =? 0)%Z then None else None) 0 3 2 wr f) ->
    exists PH', LocalModel.position (stepL c0 cadd cmul cconj ws) (stepR c0 cadd cmul cconj ws) g PH 1 = Ok PH' /\ getL PH' = None /\ getR PH' = None).
  { intros PH g (wr & f & ->). destruct wr; cbn; eexists; (split; [reflexivity|]); split; cbn; reflexivity. }
  destruct (if writes 1 then _ else _) as [PH| |] eqn:EW; cbn [obind] in H; try discriminate.
  assert (exists wr f, PH = mkL 2 true (fun k => if (k =? 3)%Z then None else if (k =? 0)%Z then None else None) 0 3 2 wr f) as EPH.
  { destruct (writes 1); [cbn in EW|]; injection EW as <-; eexists; eexists; reflexivity. }
  rewrite EN1, EN in H. change (Z.to_nat (2 * 2)) with 4 in H. cbn [DmrgModel.bond_loop] in H. change (1 <=? 2)%Z with true in H. cbn iota in H.
  unfold bond_step in H at 1. cbn [gpsi gPH gd] in H.
  destruct (P0 PH (tens psi1) EPH) as (PH' & E1 & E2 & E3). rewrite E1 in H. cbn [obind] in H.
  destruct (get2 _ _ _ _) as [[[d2 psi2] [ox oy]]| |]; cbn [obind] in H; try discriminate.
  destruct ox as [x|]; [|discriminate]. destruct oy as [y|]; [|discriminate].
  unfold solve in H at 1. cbv zeta in H. unfold effH in H at 1. rewrite E2, E3 in H. cbn in H. discriminate.
Qed.
End Props.

(** *** A chain of three spins over the rationals: H acts on the first with the matrix of
    C53_nonvacuous (eigenvalues -1 and 4) and as the identity on the others. *)
Section Example.
Local Open Scope Qc_scope.
Notation K := (@cplx Qc).
Notation q a b := (Q2Qc (a # b)%Q).
Notation k0 := (0, 0). Notation k1 := (1, 0).
Definition exws (j : Z) : wten K :=
  mkWt 1 2 1 (fun _ s s' _ => if (j =? 1)%Z then exM s' s else if Nat.eqb s s' then k1 else k0).
(** 2|000> *)
Definition exlist : list (@tensor K) :=
  [mkT 1 2 1 true (fun _ s _ => if Nat.eqb s 0 then (q 2 1, 0) else k0);
   mkT 1 2 1 true (fun _ s _ => if Nat.eqb s 0 then k1 else k0);
   mkT 1 2 1 false (fun _ s _ => if Nat.eqb s 0 then k1 else k0)].
Definition expsi : mps (@tensor K) := mkMps 3 (fun j => if (j <? 1)%Z then None else nth_error exlist (Z.to_nat (j - 1))) 0 2 1 false 0%nat.
(** Factors waves in which the right spin is 0. *)
Definition exsplit (left : bool) (w : @wave K) : outcome (@tensor K * @tensor K) :=
  let a := we w 0 0 0 0 in let b := we w 0 1 0 0 in
  if (wl w =? 1)%nat && (wp1 w =? 2)%nat && (wp2 w =? 2)%nat && (wr w =? 1)%nat &&
     ceqb (cadd Qcplus (cmul Qcplus Qcmult Qcminus (cconj Qcopp a) a) (cmul Qcplus Qcmult Qcminus (cconj Qcopp b) b)) k1 &&
     ceqb (we w 0 0 1 0) k0 && ceqb (we w 0 1 1 0) k0
  then Ok (mkT 1 2 1 true (fun _ s _ => if (s =? 0)%nat then a else b), mkT 1 2 1 (wj w) (fun _ s _ => if (s =? 0)%nat then k1 else k0))
  else Err.
Definition exdmrg := dmrg 0 1 Qcplus Qcmult Qcminus Qcopp Qcinv Qcltb qsqrt exws exheev
  (fun _ _ _ _ _ _ _ _ => k1) (fun _ _ _ _ _ _ _ _ => k1) (q 1 100000) (q 1 1000) (q 1 10000) (q 1 1000) (q 1000 1)
  (fun _ => Err) (fun _ => Err) (fun _ _ _ => exsplit) (fun _ => 5)%nat 1 (q 1 1000) (fun _ => false) 1
  (fun (o : list nat) sw _ _ _ _ => sw :: o) (fun o sw _ _ => ((sw =? 2)%nat, o)) 3 4 (fun _ _ => None) expsi [].

Lemma exsplit_inv left w x y : exsplit left w = Ok (x, y) ->
  wl w = 1%nat /\ wp1 w = 2%nat /\ wp2 w = 2%nat /\ wr w = 1%nat /\
  cadd Qcplus (cmul Qcplus Qcmult Qcminus (cconj Qcopp (we w 0 0 0 0)) (we w 0 0 0 0)) (cmul Qcplus Qcmult Qcminus (cconj Qcopp (we w 0 1 0 0)) (we w 0 1 0 0)) = k1 /\
  we w 0 0 1 0 = k0 /\ we w 0 1 1 0 = k0 /\
  x = mkT 1 2 1 true (fun _ s _ => if (s =? 0)%nat then we w 0 0 0 0 else we w 0 1 0 0) /\ y = mkT 1 2 1 (wj w) (fun _ s _ => if (s =? 0)%nat then k1 else k0).
Proof.
  unfold exsplit. destruct (_ && _) eqn:E; [|discriminate]. intros [= <- <-].
  rewrite !andb_true_iff in E. destruct E as ((((((E1 & E2) & E3) & E4) & E5) & E6) & E7).
  apply Nat.eqb_eq in E1, E2, E3, E4. apply ceqb_eq in E5, E6, E7. auto 12.
Qed.
Lemma kzero a : cadd Qcplus k0 a = a.
Proof. destruct a as [x y]. unfold cadd. cbn [fst snd]. f_equal; ring. Qed.
Lemma kunit a : cmul Qcplus Qcmult Qcminus a k1 = a.
Proof. destruct a as [x y]. unfold cmul. cbn [fst snd]. f_equal; ring. Qed.
Lemma knull a : cmul Qcplus Qcmult Qcminus a k0 = k0.
Proof. destruct a as [x y]. unfold cmul. cbn [fst snd]. f_equal; ring. Qed.
Lemma exsplit_factors : factors 0 1 Qcplus Qcmult Qcminus Qcopp exsplit.
Proof.
  intros left w x y H. apply exsplit_inv in H as (E1 & E2 & E3 & E4 & E5 & E6 & E7 & -> & ->). cbn [tl tp tr tj].
  rewrite E1, E2, E3, E4. repeat (split; [reflexivity|]). split.
  - destruct left; intros a b Ha Hb; cbn in Ha, Hb; assert (a = 0)%nat as -> by lia; assert (b = 0)%nat as -> by lia.
    + cbn [tl tp bsum te Nat.eqb DavSpec.c0]. rewrite !kzero. exact E5.
    + apply ceqb_eq. vm_compute. reflexivity.
  - destruct left; unfold tnorm2; cbn [tl tp tr bsum te Nat.eqb DavSpec.c0].
    + apply ceqb_eq. vm_compute. reflexivity.
    + rewrite !kzero. exact E5.
Qed.
Lemma exsplit_exact : exact_split 0 1 Qcplus Qcmult Qcminus Qcopp exsplit.
Proof.
  intros left w x y _ H. apply exsplit_inv in H as (E1 & E2 & E3 & E4 & E5 & E6 & E7 & -> & ->).
  rewrite E1, E2, E3, E4. intros a s s' b Ha Hs Hs' Hb. assert (a = 0)%nat as -> by lia. assert (b = 0)%nat as -> by lia.
  cbn [tr bsum te]. unfold DavSpec.c0. rewrite kzero.
  destruct s as [|[|s]]; try lia; destruct s' as [|[|s']]; try lia; cbn [Nat.eqb]; rewrite ?kunit, ?knull; congruence.
Qed.

Example C54_nonvacuous :
  ordered_field 0 1 Qcplus Qcmult Qcminus Qcopp Qcdiv Qcinv Qcltb /\ sqrt_ok 0 Qcmult Qcltb qsqrt /\
  heev_ok 0 1 Qcplus Qcmult Qcminus Qcopp Qcltb exheev /\
  factors 0 1 Qcplus Qcmult Qcminus Qcopp exsplit /\ exact_split 0 1 Qcplus Qcmult Qcminus Qcopp exsplit /\
  wlinked 1 (seg exws 1 3) 1 /\ hermitian_mpo 0 1 Qcplus Qcmult Qcminus Qcopp (seg exws 1 3) /\
  good (c0 0) (c1 0 1) (cadd Qcplus) (cmul Qcplus Qcmult Qcminus) (cconj Qcopp) expsi /\
  holds expsi exlist /\ proper exlist /\ sites exlist = wsites (seg exws 1 3) /\
  norm2 (c0 0) (c1 0 1) (cadd Qcplus) (cmul Qcplus Qcmult Qcminus) (cconj Qcopp) exlist = (q 4 1, 0) /\
  energy (c0 0) (c1 0 1) (cadd Qcplus) (cmul Qcplus Qcmult Qcminus) (cconj Qcopp) exlist (seg exws 1 3) = (q 44 5, 0) /\
  exists s, exdmrg = Ok s /\ genergy s = Some (q (-1) 1) /\ length (glog s) = 8%nat.
Proof.
  split; [exact Qc_ordered|]. split; [exact qsqrt_ok|]. split; [exact exheev_ok|]. split; [exact exsplit_factors|]. split; [exact exsplit_exact|].
  split; [vm_compute; auto|]. split.
  { intros c c' Hc Hc'. cbn in Hc, Hc'.
    repeat match goal with H : Forall2 lt _ (_ :: _) |- _ => inversion H; clear H; subst | H : Forall2 lt _ [] |- _ => inversion H; clear H; subst end.
    repeat match goal with H : (?i < 2)%nat |- _ => assert (i = 0 \/ i = 1)%nat as [-> | ->] by lia; clear H end; apply ceqb_eq; vm_compute; reflexivity. }
  split.
  { split; [reflexivity|]. split; [cbn; lia|]. split; [cbn; lia|]. split; [cbn; lia|]. split.
    - intros j Hj. cbn in Hj. assert (j = 1 \/ j = 2 \/ j = 3)%Z as [-> | [-> | ->]] by lia; eexists; (split; [reflexivity|]); cbn; intros; try reflexivity; lia.
    - split; [intros j t Hj; cbn in Hj; lia|]. intros j t Hj Et. cbn in Hj. assert (j = 2 \/ j = 3)%Z as [-> | ->] by lia; cbn in Et; injection Et as <-;
        intros a b Ha Hb; cbn in Ha, Hb; assert (a = 0)%nat as -> by lia; assert (b = 0)%nat as -> by lia; apply ceqb_eq; vm_compute; reflexivity. }
  split.
  { split; [reflexivity|]. intros k Hk. cbn in Hk. destruct k as [|[|[|k]]]; try lia; reflexivity. }
  split; [vm_compute; auto|]. split; [reflexivity|]. split; [apply ceqb_eq; vm_compute; reflexivity|]. split; [apply ceqb_eq; vm_compute; reflexivity|].
  assert (E : match exdmrg with Ok s => match genergy s with Some e => Qc_eq_bool e (q (-1) 1) && (length (glog s) =? 8)%nat | None => false end | _ => false end = true) by (vm_compute; reflexivity).
  destruct exdmrg as [s| |]; try discriminate. exists s. destruct (genergy s) as [e|] eqn:Eg; [|discriminate]. apply andb_true_iff in E as [E1 E2].
  apply Qc_eq_bool_correct in E1. apply Nat.eqb_eq in E2. subst e. auto.
Qed.
End Example.

Print Assumptions C54_dmrg.
Print Assumptions C54_returns.
Print Assumptions C54_two_sites_refuted.
