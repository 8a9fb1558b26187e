(** One optimisation step of dmrg. *)
From Coq Require Import ZArith List Bool Arith Lia Ring Field.
From Verif Require Import Util BigSum MpsModel MpsTensor MpsSpec MpsProofs MpsPosition MpsOrtho MpsProps LocalModel LocalSpec LocalProofs LocalTensor LocalMeaning LocalSem LocalProps
  DavSpec DavModel DavProofs DavProps SweepsModel DmrgAlg DmrgSpec DmrgModel.
Import ListNotations.
Local Open Scope outcome_scope.
Local Arguments Z.add : simpl never.
Local Arguments Z.sub : simpl never.

Lemma seg_ext {A} (f g : Z -> A) i n : (forall k, (i <= k < i + Z.of_nat n)%Z -> f k = g k) -> seg f i n = seg g i n.
Proof. intros H. unfold seg. apply map_ext_in. intros k Hk. apply in_seq in Hk. apply H. lia. Qed.
Lemma seg_nth {A} (f : Z -> A) i n k : k < n -> nth_error (seg f i n) k = Some (f (i + Z.of_nat k)%Z).
Proof.
  intros H. unfold seg. rewrite nth_error_map. replace (nth_error (seq 0 n) k) with (Some k); [reflexivity|].
  symmetry. rewrite nth_error_nth' with (d := 0) by now rewrite seq_length. now rewrite seq_nth.
Qed.
Lemma nth_error_ext' {A} (l l' : list A) : (forall k, nth_error l k = nth_error l' k) -> l = l'.
Proof.
  revert l'. induction l as [|a l IH]; intros [|a' l'] H; [reflexivity|specialize (H 0); discriminate..|].
  f_equal; [specialize (H 0); cbn in H; congruence|apply IH; intros k; exact (H (S k))].
Qed.
Lemma seg_in {A} (f : Z -> A) i n x : In x (seg f i n) -> exists k, (i <= k < i + Z.of_nat n)%Z /\ x = f k.
Proof. unfold seg. intros H. apply in_map_iff in H as (k & <- & H). apply in_seq in H. exists (i + Z.of_nat k)%Z. split; [lia|reflexivity]. Qed.

Lemma app_tail {A} (l l' m m' : list A) : l ++ m = l' ++ m' -> length l = length l' -> m = m'.
Proof. revert l'. induction l as [|a l IH]; intros [|a' l'] H E; cbn in H, E; try discriminate; [assumption|]. injection H as _ H. eapply IH; [eassumption|lia]. Qed.

(** LocalMPO::position reads psi pointwise. *)
Section PosExt.
Context {E T : Type} (stepL stepR : Z -> option E -> T -> E).
Lemma makeL_ext n psi psi' (s : lmpo E) : (forall j, psi j = psi' j) -> makeL_loop stepL n psi s = makeL_loop stepL n psi' s.
Proof.
  intros H. revert s. induction n as [|n IH]; intros s; cbn [makeL_loop]; [reflexivity|]. rewrite H.
  destruct (at_ok s (lL s) && at_ok s (lL s + 1)); [|reflexivity]. destruct (setLHlim _ _); cbn [obind]; auto.
Qed.
Lemma makeR_ext n psi psi' (s : lmpo E) : (forall j, psi j = psi' j) -> makeR_loop stepR n psi s = makeR_loop stepR n psi' s.
Proof.
  intros H. revert s. induction n as [|n IH]; intros s; cbn [makeR_loop]; [reflexivity|]. rewrite H.
  destruct (at_ok s (lR s) && at_ok s (lR s - 1)); [|reflexivity]. destruct (setRHlim _ _); cbn [obind]; auto.
Qed.
Lemma position_ext psi psi' (s : lmpo E) b : (forall j, psi j = psi' j) ->
  LocalModel.position stepL stepR psi s b = LocalModel.position stepL stepR psi' s b.
Proof.
  intros H. unfold LocalModel.position, makeL, makeR. rewrite (makeL_ext _ psi psi') by assumption.
  destruct (makeL_loop _ _ _ _); cbn [obind]; auto. rewrite (makeR_ext _ psi psi') by assumption. reflexivity.
Qed.
End PosExt.

Section Step.
Context {F : Type} (f0 f1 : F) (fadd fmul fsub : F -> F -> F) (fopp : F -> F)
  (fdiv : F -> F -> F) (finv : F -> F) (fltb : F -> F -> bool) (fsqrt : F -> outcome F)
  (OF : ordered_field f0 f1 fadd fmul fsub fopp fdiv finv fltb)
  (SQ : sqrt_ok f0 fmul fltb fsqrt).
Notation K := (@cplx F).
Notation c0 := (c0 f0). Notation c1 := (c1 f0 f1).
Notation cadd := (cadd fadd). Notation cmul := (cmul fadd fmul fsub). Notation cconj := (cconj fopp).
Notation csub := (csub fsub). Notation copp := (copp fopp). Notation cof := (cof f0).
Let FT := of_field _ _ _ _ _ _ _ _ _ OF.
Add Field FFds : FT.
Let CR := cring f0 f1 fadd fmul fsub fopp fdiv finv fltb OF.
Add Ring CRds : CR.
Let C0 := conj_0 f0 f1 fadd fmul fsub fopp fdiv finv fltb OF.
Let C1 := conj_1 f0 f1 fadd fmul fsub fopp fdiv finv fltb OF.
Let CA := DavProofs.conj_add f0 f1 fadd fmul fsub fopp fdiv finv fltb OF.
Let CM := DavProofs.conj_mul f0 f1 fadd fmul fsub fopp fdiv finv fltb OF.
Let CC := DavProofs.conj_conj f0 f1 fadd fmul fsub fopp fdiv finv fltb OF.
Notation le x y := (fltb y x = false).
Notation lt x y := (fltb x y = true).
Notation bsum := (bsum c0 cadd).
Notation csum := (BigSum.csum c0 cadd).
Notation tensor := (@tensor K).
Notation wave := (@wave K).
Notation edge := (@edge K).
Notation mps := (mps tensor).
Notation lmpo := (lmpo edge).
Notation LO := (left_orth c0 c1 cadd cmul cconj).
Notation RO := (right_orth c0 c1 cadd cmul cconj).
Notation good := (good c0 c1 cadd cmul cconj).
Notation norm2 := (norm2 c0 c1 cadd cmul cconj).
Notation tnorm2 := (tnorm2 c0 cadd cmul cconj).
Notation energy := (energy c0 c1 cadd cmul cconj).
Notation amplitude := (amplitude c0 c1 cadd cmul).
Notation chain := (chain c0 c1 cadd cmul).
Notation tdot := (tdot c0 cadd cmul cconj).
Notation whole := (whole c0 c1 cadd cmul).
Notation wform := (wform c0 cadd cmul cconj).
Notation wnorm := (wnorm c0 cadd cmul cconj).
Notation element := (element f0 f1 fadd fmul fsub).
Notation tens := (tens f0).
Notation vadd := (vadd fadd). Notation vscale := (vscale fadd fmul fsub).
Notation two_site := (@two_site F).
Notation all := (fun _ : two_site => True).

(** ** The space of two-site tensors *)
Lemma nonneg_bsum n f : (forall i, i < n -> le f0 (fst (f i))) -> le f0 (fst (bsum n f)).
Proof.
  induction n as [|n IH]; intros H; cbn [BigSum.bsum]; [apply (le_refl f0 f1 fadd fmul fsub fopp fdiv finv fltb OF)|].
  change (le f0 (fadd (fst (bsum n f)) (fst (f n)))).
  pose proof (le_add2 f0 f1 fadd fmul fsub fopp fdiv finv fltb OF f0 (fst (bsum n f)) f0 (fst (f n)) (IH ltac:(auto)) (H n ltac:(lia))) as Q.
  now replace (fadd f0 f0) with f0 in Q by ring.
Qed.
Lemma nonneg_csum ps f : (forall c, le f0 (fst (f c))) -> le f0 (fst (csum ps f)).
Proof.
  revert f. induction ps as [|p ps IH]; intros f H; cbn [BigSum.csum]; [apply H|]. apply nonneg_bsum. intros i _. now apply IH.
Qed.
Lemma space dl ps dr : inner_space f0 fadd fmul fsub fopp fltb all vadd vscale (vdot f0 fadd fmul fsub fopp dl ps dr).
Proof.
  constructor; try trivial.
  - intros u v w _ _ _. apply (tdot_add c0 c1 cadd cmul csub copp cconj CR).
  - intros c u v _ _. apply (tdot_scale c0 c1 cadd cmul csub copp cconj CR).
  - intros u v _ _. apply (tdot_conj c0 c1 cadd cmul csub copp cconj CR C0 CA CM CC).
  - intros v _. unfold vdot. apply nonneg_bsum. intros a _. apply nonneg_csum. intros c. apply nonneg_bsum. intros b _.
    rewrite (abs2_conj f0 f1 fadd fmul fsub fopp fdiv finv fltb OF). cbn [fst DavSpec.cof].
    apply (abs2_nonneg f0 f1 fadd fmul fsub fopp fdiv finv fltb OF).
Qed.

Context (ws : Z -> wten K) (n : nat) (Hn : 3 <= n).
Notation sL := (stepL c0 cadd cmul cconj ws).
Notation sR := (stepR c0 cadd cmul cconj ws).
Notation W := (seg ws 1 n).
Hypothesis HW : wlinked 1 W 1.
Hypothesis HH : hermitian_mpo f0 f1 fadd fmul fsub fopp W.
Notation ts s := (seg (tens s) 1 n).
Notation H := (element W).

(** The chain and the MPO cut around the sites b and b+1. *)
Section Cut.
Variables (t : Z -> tensor) (b : Z).
Hypothesis Hb : (1 <= b <= Z.of_nat n - 1)%Z.
Hypothesis HT : linked 1 (seg t 1 n) 1.
Hypothesis HS : sites (seg t 1 n) = wsites W.
Let k := Z.to_nat (b - 1).
Let m := Z.to_nat (Z.of_nat n - (b - 1) - 2).
Notation TL := (seg t 1 k). Notation TR := (seg t (b + 2) m).
Notation WL := (seg ws 1 k). Notation WR := (seg ws (b + 2) m).
Notation x := (t b). Notation y := (t (b + 1)%Z).

Lemma cut {A} (f : Z -> A) : seg f 1 n = seg f 1 k ++ [f b; f (b + 1)%Z] ++ seg f (b + 2) m.
Proof.
  replace n with (k + (2 + m))%nat at 1 by lia. rewrite seg_app. f_equal. replace (1 + Z.of_nat k)%Z with b by lia.
  rewrite seg_app. f_equal. rewrite !seg_cons. reflexivity.
Qed.
Lemma cut_linked : linked 1 TL (tl x) /\ tr x = tl y /\ linked (tr y) TR 1.
Proof.
  rewrite cut in HT. apply linked_app in HT as (d & H1 & H2). cbn [app linked] in H2. destruct H2 as (-> & H2 & H3). auto.
Qed.
Lemma cut_wlinked : wlinked 1 WL (wtl (ws b)) /\ wtl (ws (b + 1)%Z) = wtr (ws b) /\ wlinked (wtr (ws (b + 1)%Z)) WR 1.
Proof.
  pose proof HW as HW'. rewrite cut in HW'. apply wlinked_app in HW' as (d & H1 & H2). cbn [app wlinked] in H2. destruct H2 as (-> & H2 & H3). auto.
Qed.
Lemma cut_sites : wsites [ws b; ws (b + 1)%Z] = [tp x; tp y] /\ wsites W = sites TL ++ [tp x; tp y] ++ sites TR.
Proof.
  split; [|rewrite <- HS, cut; unfold sites; rewrite !map_app; reflexivity].
  rewrite !cut in HS. unfold sites, wsites in HS. rewrite !map_app in HS.
  assert (E : length (map (@tp K) TL) = length (map wtp WL)) by now rewrite !map_length, !seg_len.
  apply app_tail in HS; [|exact E]. cbn [app map] in HS |- *. injection HS as -> -> _. reflexivity.
Qed.

(** The tensor psi(b)*psi(b+1) and the state. *)
Definition mid : two_site := fun a c e => we (pair2 c0 cadd cmul x y) a (nth 0 c 0) (nth 1 c 0) e.
Lemma mid_chain a c e : Forall2 Peano.lt c [tp x; tp y] -> e < tr y -> mid a c e = chain [x; y] c a e.
Proof.
  intros Hc He. inversion Hc as [|s ? c' ? _ Hc']; subst. inversion Hc' as [|s' ? c'' ? _ Hc'']; subst. inversion Hc''; subst.
  unfold mid. cbn [nth pair2 we MpsSpec.chain]. apply (bsum_ext c0 cadd). intros d _. f_equal. symmetry.
  rewrite <- (delta_sum c0 c1 cadd cmul csub copp CR (tr y) e (te y d s')) by assumption. reflexivity.
Qed.
Lemma whole_mid c : Forall2 Peano.lt c (wsites W) -> whole TL TR 2 (tl x) (tr y) mid c = amplitude (seg t 1 n) c.
Proof.
  intros Hc. destruct cut_sites as [_ S]. destruct cut_linked as (L1 & L2 & L3). rewrite S in Hc.
  rewrite (whole_ext c0 c1 cadd cmul TL TR 2 (tl x) (tr y) mid (fun a c e => chain [x; y] c a e) c [tp x; tp y]); [|reflexivity|assumption|].
  - rewrite cut. apply (whole_chain c0 c1 cadd cmul csub copp CR TL [x; y] TR); [assumption| |exact Hc].
    cbn [linked]. repeat split. congruence.
  - intros a c' e _ Hc' He. now apply mid_chain.
Qed.

Hypothesis OL : Forall LO TL.
Hypothesis OR : Forall RO TR.
Notation dot := (vdot f0 fadd fmul fsub fopp (tl x) [tp x; tp y] (tr y)).
Notation big v := (whole TL TR 2 (tl x) (tr y) v).

Lemma dot_big u v : dot u v = wnorm (wsites W) (big u) (big v).
Proof.
  destruct cut_sites as [_ S]. destruct cut_linked as (L1 & L2 & L3). rewrite S. symmetry.
  exact (dot_whole c0 c1 cadd cmul csub copp cconj CR C0 C1 CA CM TL TR [tp x; tp y] (tl x) (tr y) u v L1 L3 OL OR).
Qed.
Lemma dot_mid : dot mid mid = norm2 (seg t 1 n).
Proof.
  rewrite dot_big. rewrite (norm2_whole c0 c1 cadd cmul cconj), HS.
  apply (wnorm_ext c0 cadd cmul cconj); intros c Hc; now apply whole_mid.
Qed.

(** The environments of PH turn the two-site problem into the whole one. *)
Variable PH : lmpo.
Variable psi : Z -> tensor.
Hypothesis PR : lreach sL sR (Z.of_nat n) true None None 0 (Z.of_nat n + 1) PH psi.
Hypothesis PE : forall j, psi j = t j.
Hypothesis PC : lnc PH = 2%Z.
Hypothesis PP : position_of PH = Ok b.
Notation eff := (effH f0 fadd fmul fsub ws PH b (tl x) (tr y)).

Lemma eff_ok v : exists f, eff v = Ok f /\ forall chi, dot chi f = wform (wsites W) H (big chi) (big v).
Proof.
  destruct cut_linked as (L1 & L2 & L3). destruct cut_wlinked as (W1 & W2 & W3). destruct cut_sites as [S1 S2].
  pose proof (C40_projects c0 c1 cadd cmul csub copp cconj CR (Z.of_nat n) ws PH psi b (tl x) (wtl (ws b)) (wtr (ws (b + 1)%Z)) (tr y) v
    CA CM C0 C1 ltac:(lia) PR PP ltac:(lia)) as Q. cbv zeta in Q. rewrite PC in Q.
  change (Z.to_nat 2) with 2 in Q. fold k m in Q.
  rewrite (seg_ext psi t 1 k), (seg_ext psi t (b + 2) m) in Q by (intros; apply PE).
  replace (seg ws b 2) with [ws b; ws (b + 1)%Z] in Q by (rewrite !seg_cons; reflexivity).
  specialize (Q L1 L3 W1). cbn [wlinked] in Q. specialize (Q (conj eq_refl (conj W2 eq_refl)) W3).
  destruct Q as (f & Ef & Hf). exists f. split; [exact Ef|]. intros chi.
  specialize (Hf chi). rewrite (me_whole c0 c1 cadd cmul cconj) in Hf. rewrite S1 in Hf.
  cbn [length] in Hf. rewrite <- S2 in Hf. rewrite <- (cut ws) in Hf. exact Hf.
Qed.
Definition A (v : two_site) : two_site := match eff v with Ok f => f | _ => v end.
Lemma A_ok u v : dot u (A v) = wform (wsites W) H (big u) (big v).
Proof. unfold A. destruct (eff_ok v) as (f & Ef & Hf). rewrite Ef. apply Hf. Qed.

Lemma A_herm : hermitian fadd fmul fsub all vadd vscale dot A.
Proof.
  constructor; try trivial.
  - intros u v w _ _ _. rewrite !A_ok. rewrite <- (wform_add c0 c1 cadd cmul csub copp cconj CR).
    apply (wform_ext c0 cadd cmul cconj); [reflexivity|]. intros c _. apply (insert_add c0 c1 cadd cmul csub copp CR).
  - intros k' u v _ _. rewrite !A_ok. rewrite <- (wform_scale c0 c1 cadd cmul csub copp cconj CR).
    apply (wform_ext c0 cadd cmul cconj); [reflexivity|]. intros c _. apply (insert_scale c0 c1 cadd cmul csub copp CR).
  - intros u v _ _. rewrite A_ok. rewrite (wform_conj c0 c1 cadd cmul csub copp cconj CR C0 CA CM CC) by (apply HH).
    rewrite <- A_ok. symmetry. apply (tdot_conj c0 c1 cadd cmul csub copp cconj CR C0 CA CM CC).
Qed.
Lemma A_mid : dot mid (A mid) = energy (seg t 1 n) W.
Proof.
  rewrite A_ok, (energy_whole c0 c1 cadd cmul cconj), HS. apply (wform_ext c0 cadd cmul cconj); intros c Hc; now apply whole_mid.
Qed.
Lemma A_bound mu u : bounded_below f0 f1 fadd fmul fsub fopp fltb W mu -> le (fmul mu (fst (dot u u))) (fst (dot u (A u))).
Proof. intros B. rewrite A_ok, dot_big. apply B. Qed.

End Cut.

(** ** Two factors in place of two tensors *)
Lemma cut_replace (t t' : Z -> tensor) b : (1 <= b <= Z.of_nat n - 1)%Z -> (forall j, j <> b -> j <> (b + 1)%Z -> t' j = t j) ->
  seg t' 1 (Z.to_nat (b - 1)) = seg t 1 (Z.to_nat (b - 1)) /\
  seg t' (b + 2) (Z.to_nat (Z.of_nat n - (b - 1) - 2)) = seg t (b + 2) (Z.to_nat (Z.of_nat n - (b - 1) - 2)).
Proof. intros Hb E. split; apply seg_ext; intros j Hj; apply E; lia. Qed.

Lemma replace_linked (t t' : Z -> tensor) b : (1 <= b <= Z.of_nat n - 1)%Z -> (forall j, j <> b -> j <> (b + 1)%Z -> t' j = t j) ->
  linked 1 (seg t 1 n) 1 -> sites (seg t 1 n) = wsites W ->
  tl (t' b) = tl (t b) -> tp (t' b) = tp (t b) -> tp (t' (b + 1)%Z) = tp (t (b + 1)%Z) -> tr (t' (b + 1)%Z) = tr (t (b + 1)%Z) -> tr (t' b) = tl (t' (b + 1)%Z) ->
  linked 1 (seg t' 1 n) 1 /\ sites (seg t' 1 n) = wsites W.
Proof.
  intros Hb E HT HS E1 E2 E3 E4 E5. destruct (cut_replace t t' b Hb E) as [R1 R2]. destruct (cut_linked t b Hb HT) as (L1 & L2 & L3).
  split.
  - rewrite (cut b Hb t'). rewrite R1, R2. apply (proj2 (linked_app _ _ _ _)). exists (tl (t b)). split; [assumption|].
    cbn [app linked]. rewrite E1, E4, E5. auto.
  - rewrite <- HS, (cut b Hb t'), (cut b Hb t), R1, R2. unfold sites. rewrite !map_app. cbn [map]. rewrite E2, E3. reflexivity.
Qed.

(** ** One step *)
Context (heev : nat -> (nat -> nat -> K) -> outcome ((nat -> nat -> K) * (nat -> F)))
  (HEEV : heev_ok f0 f1 fadd fmul fsub fopp fltb heev)
  (rnd0 rnd : nat -> Z -> Z -> nat -> nat -> two_site)
  (c1em20 c1em10 Approx0 c1em3 thousand : F) (Hc : lt f0 c1em10)
  (split : nat -> Z -> lmpo -> bool -> wave -> outcome (tensor * tensor))
  (niter : nat -> nat) (miniter : nat) (errgoal : F) (writes : nat -> bool) (dfuel : nat)
  {O : Type} (measure : O -> nat -> Z -> Z -> option F -> mps -> O)
  (checkDone : O -> nat -> option F -> mps -> bool * O).
Hypothesis FAC : forall sw b PH, factors f0 f1 fadd fmul fsub fopp (split sw b PH).
Notation exact := (forall sw b PH, exact_split f0 f1 fadd fmul fsub fopp (split sw b PH)).
Notation bond_step := (bond_step f0 f1 fadd fmul fsub fopp finv fltb fsqrt ws heev rnd0 rnd c1em20 c1em10 Approx0 c1em3 thousand
  split niter miniter errgoal dfuel measure).
Notation dstate := (@dstate F O).

(** psi in canonical form around b, b+1, and PH in step with it. *)
Definition inv (b : Z) (psi : mps) (PH : lmpo) : Prop :=
  good psi /\ mN psi = Z.of_nat n /\ linked 1 (ts psi) 1 /\ sites (ts psi) = wsites W /\
  (b - 1 <= ml psi /\ mr psi <= b + 2)%Z /\
  lnc PH = 2%Z /\ (b - 1 < lR PH)%Z /\
  exists g, lreach sL sR (Z.of_nat n) true None None 0 (Z.of_nat n + 1) PH g /\ forall j, g j = tens psi j.

Lemma orth_left psi b PH : inv b psi PH -> (1 <= b <= Z.of_nat n - 1)%Z -> Forall LO (seg (tens psi) 1 (Z.to_nat (b - 1))).
Proof.
  intros ((G1 & G2 & G3 & G4 & G5 & (G6 & _)) & EN & _ & _ & (L & _) & _) Hb. apply Forall_forall. intros u Hu. apply seg_in in Hu as (j & Hj & ->).
  unfold DmrgModel.tens. destruct (G5 j) as (t & Et & _); [lia|]. rewrite Et. apply (G6 j); [lia|assumption].
Qed.
Lemma orth_right psi b PH : inv b psi PH -> (1 <= b <= Z.of_nat n - 1)%Z -> Forall RO (seg (tens psi) (b + 2) (Z.to_nat (Z.of_nat n - (b - 1) - 2))).
Proof.
  intros ((G1 & G2 & G3 & G4 & G5 & (_ & G6)) & EN & _ & _ & (_ & L) & _) Hb. apply Forall_forall. intros u Hu. apply seg_in in Hu as (j & Hj & ->).
  unfold DmrgModel.tens. destruct (G5 j) as (t & Et & _); [lia|]. rewrite Et. apply (G6 j); [lia|assumption].
Qed.

(** What one step does. *)
Definition stepped (b ha : Z) (s s' : dstate) : Prop :=
  exists e, genergy s' = Some e /\
  (forall b', (b' <= b + 1)%Z -> (if (ha =? 1)%Z then b <= b' else b - 1 <= b' /\ b' <= b)%Z -> inv b' (gpsi s') (gPH s')) /\
  orthoCenter (gpsi s') = Ok (if (ha =? 1)%Z then (b + 1)%Z else b) /\
  norm2 (ts (gpsi s')) = c1 /\
  (forall mu, bounded_below f0 f1 fadd fmul fsub fopp fltb W mu -> le mu e) /\
  (fst (norm2 (ts (gpsi s))) <> f0 -> le (fmul e (fst (norm2 (ts (gpsi s))))) (fst (energy (ts (gpsi s)) W))) /\
  (exact -> energy (ts (gpsi s')) W = cof e).

Lemma tens_at (psi : mps) j t : mA psi j = Some t -> tens psi j = t.
Proof. unfold DmrgModel.tens. now intros ->. Qed.
Lemma tens_holds (psi : mps) : filled psi -> mN psi = Z.of_nat n -> holds psi (ts psi).
Proof.
  intros Fl EN. unfold holds. rewrite EN. split; [now rewrite seg_len|]. intros k Hk. rewrite seg_len in Hk.
  rewrite seg_nth by assumption. destruct (Fl (1 + Z.of_nat k)%Z) as (t & Et & _); [lia|]. rewrite Et. now rewrite (tens_at _ _ _ Et).
Qed.

Lemma two (c : list nat) p q : Forall2 Peano.lt c [p; q] -> exists i j, c = [i; j] /\ i < p /\ j < q.
Proof. intros Q. inversion Q as [|i ? c' ? I1 Q1]; subst. inversion Q1 as [|j ? c'' ? I2 Q2]; subst. inversion Q2; subst. eauto. Qed.

Lemma step_ok sw b ha s s' : (1 <= b <= Z.of_nat n - 1)%Z -> inv b (gpsi s) (gPH s) ->
  bond_step sw b ha s = Ok s' -> stepped b ha s s' /\ exists e, glog s' = glog s ++ [(sw, b, ha, Some e)] /\ genergy s' = Some e.
Proof.
  intros Hb I HB. unfold DmrgModel.bond_step in HB.
  pose proof (orth_left _ _ _ I Hb) as OL. pose proof (orth_right _ _ _ I Hb) as OR.
  destruct I as (G & EN & HT & HS & HL & HC & HRl & g & LR & Eg).
  destruct (LocalModel.position _ _ _ _ _) as [PH| |] eqn:EP; cbn [obind] in HB; try discriminate.
  (* PH.position(b,psi) *)
  rewrite <- (position_ext _ _ g) in EP by assumption.
  assert (LV : lvalid (Z.of_nat n) true (@None edge) None 0 (Z.of_nat n + 1) (T := tensor) (gPH s) (Position b)) by (cbn; rewrite HC; repeat split; lia).
  assert (LS : lstep sL sR (gPH s) g (Position b) = Ok (PH, g)) by (cbn [lstep]; rewrite EP; reflexivity).
  pose proof (lr_step sL sR _ _ _ _ _ _ _ _ _ _ _ LR LV LS) as LR1.
  assert (RG : (0 <= 0 < Z.of_nat n + 1)%Z /\ (Z.of_nat n + 1 <= Z.of_nat n + 1)%Z) by lia.
  destruct (LocalProofs.position_ok sL sR (Z.of_nat n) true None None 0 (Z.of_nat n + 1) RG g (gPH s) b
      (LocalProofs.reach_inv sL sR (Z.of_nat n) true None None 0 (Z.of_nat n + 1) RG _ _ LR)) as (PH0 & E0 & _ & (_ & _ & _ & PC) & PL & PRr); [lia|rewrite HC; lia|intros; lia|].
  rewrite EP in E0. injection E0 as <-. rewrite HC in PC, PRr.
  assert (PP : position_of PH = Ok b).
  { unfold position_of. rewrite PL, PRr, PC. destruct (Z.eqb_spec (b + 2 - (b - 1)) (2 + 1)); [f_equal; lia|lia]. }
  (* psi(b)*psi(b+1) *)
  pose proof G as (Gm & G2 & G3 & G4 & Gf & Gc).
  destruct (Gf b) as (x & Ex & Jx); [lia|]. destruct (Gf (b + 1)%Z) as (y & Ey & Jy); [lia|].
  unfold get2 in HB. destruct (get_mem (gd s) (gpsi s) b Gm) as (s1 & K1 & N1 & A1 & L1 & R1 & D1 & _ & _); [lia|]. rewrite K1 in HB. cbn [obind] in HB.
  destruct (get_mem (gd s) s1 (b + 1) D1) as (s2 & K2 & N2 & A2 & L2 & R2 & D2 & _ & _); [lia|]. rewrite K2 in HB. cbn [obind] in HB.
  replace (wrap (gpsi s) b) with b in HB by (unfold wrap; destruct (Z.ltb_spec b 0); lia).
  rewrite A2, A1, Ex, Ey in HB.
  set (t := tens (gpsi s)) in *.
  assert (Etx : t b = x) by (apply tens_at; assumption). assert (Ety : t (b + 1)%Z = y) by (apply tens_at; assumption).
  (* davidson *)
  destruct (solve _ _ _ _ _ _ _ _ _ _ _ _ _ _ _ _ _ _ _ _ _ _ _ _ _ _ _) as [[oe v]| |] eqn:EV; cbn [obind] in HB; try discriminate.
  unfold solve in EV. destruct (effH _ _ _ _ _ _ _ _ _ _) as [f'| |] eqn:EE in EV; cbn [obind] in EV; try discriminate. clear f' EE.
  rewrite <- Etx, <- Ety in EV. cbn [pair2 wl wr wp1 wp2] in EV.
  destruct (C53_davidson f0 f1 fadd fmul fsub fopp fdiv finv fltb fsqrt OF SQ all vadd vscale _ (space (tl (t b)) [tp (t b); tp (t (b + 1)%Z)] (tr (t (b + 1)%Z)))
    (A t b PH) (A_herm t b Hb HT HS PH g LR1 Eg PC PP) (tl (t b) * tp (t b) * tp (t (b + 1)%Z) * tr (t (b + 1)%Z)) heev HEEV (rnd0 sw b ha) (rnd sw b ha) (fun _ _ => Logic.I) (fun _ _ => Logic.I) c1em20 c1em10 Approx0 c1em3 thousand Hc
    dfuel (niter sw) miniter errgoal (mid t b) oe v Logic.I EV) as (e & -> & _ & Vn & Ve & Vr).
  rewrite (dot_mid t b Hb HT HS OL OR) in Vr. rewrite (A_mid t b Hb HT HS PH g LR1 Eg PC PP) in Vr.
  (* svdBond *)
  set (w' := mkW _ _ _ _ _ _) in HB.
  destruct (svdBond _ _ _ _ _ _ _) as [[d3 psi']| |] eqn:ES; cbn [obind] in HB; try discriminate. injection HB as <-.
  assert (G' : good s2).
  { unfold MpsSpec.good, filled, MpsSpec.claims. rewrite N2, A2, L2, R2, N1, A1, L1, R1. split; [assumption|]. auto. }
  assert (J2 : (b + 1 < mN s2)%Z -> wj w' = true) by (rewrite N2, N1; exact Jy).
  assert (SL : splitl_ok c0 c1 cadd cmul cconj (split sw b PH true)) by (intros w u u' Hu; destruct (FAC sw b PH true w u u' Hu) as (? & ? & ? & ? & ? & ? & ? & ? & ?); auto).
  assert (SR : splitr_ok c0 c1 cadd cmul cconj (split sw b PH false)) by (intros w u u' Hu; destruct (FAC sw b PH false w u u' Hu) as (? & ? & ? & ? & ? & ? & ? & ? & ?); auto).
  destruct (svdBond_good c0 c1 cadd cmul cconj (split sw b PH true) (split sw b PH false) SL SR (gd s) d3 s2 psi' b w' (ha =? 1)%Z G' ltac:(lia) J2 ES) as (-> & G'' & EN').
  apply svdBond_mem in ES; [|assumption]. destruct ES as (_ & _ & _ & LM & x' & y' & Esp & Ax & Ay & Ak).
  set (fl := (ha =? 1)%Z) in *.
  assert (Esp' : split sw b PH fl w' = Ok (x', y')) by (destruct fl; assumption).
  destruct (FAC sw b PH fl w' x' y' Esp') as (F1 & F2 & F3 & F4 & F5 & F6 & F7 & F8 & F9). cbn [w' wl wp1 wp2 wr pair2] in F1, F2, F3, F4.
  set (t' := tens psi').
  assert (Ex' : t' b = x') by (apply tens_at; assumption). assert (Ey' : t' (b + 1)%Z = y') by (apply tens_at; assumption).
  assert (Et' : forall j, j <> b -> j <> (b + 1)%Z -> t' j = t j).
  { intros j J3 J4. unfold t', t, DmrgModel.tens. rewrite Ak by assumption. rewrite A2, A1. reflexivity. }
  destruct (replace_linked t t' b Hb Et' HT HS) as (HT' & HS'); [congruence|congruence|congruence|congruence|congruence|].
  rewrite L2, L1, R2, R1 in LM.
  assert (LM' : (ml psi' = (if fl then b else b - 1) /\ mr psi' = ml psi' + 2)%Z) by (destruct fl; lia).
  assert (OC : orthoCenter psi' = Ok (if fl then b + 1 else b)%Z).
  { unfold orthoCenter, isOrtho. destruct LM' as (E1 & E2). rewrite E1 in E2. destruct (Z.eqb_spec (ml psi' + 1) (mr psi' - 1)); [|destruct fl; lia].
    f_equal. destruct fl; lia. }
  assert (PN : mN psi' = Z.of_nat n) by congruence.
  split; [|exists e; split; reflexivity]. exists e. cbn [genergy gpsi gPH]. fold fl.
  split; [reflexivity|]. split; [|split; [exact OC|split; [|split; [|split]]]].
  - (* invariant *)
    intros b' B1 B2. split; [assumption|]. split; [assumption|]. split; [assumption|]. split; [assumption|].
    split; [destruct fl; lia|]. split; [assumption|]. split; [rewrite PRr; destruct fl; lia|].
    exists (fun j => if (j =? b + 1)%Z then y' else if (j =? b)%Z then x' else g j). split.
    + refine (lr_step sL sR _ _ _ _ _ _ PH (fun j => if (j =? b)%Z then x' else g j) (Change (b + 1)%Z y') _ _ _ _ eq_refl).
      * refine (lr_step sL sR _ _ _ _ _ _ PH g (Change b x') _ _ LR1 _ eq_refl). cbn [lvalid]. lia.
      * cbn [lvalid]. lia.
    + intros j. change (tens psi' j) with (t' j). destruct (Z.eqb_spec j (b + 1)) as [->|]; [now symmetry|]. destruct (Z.eqb_spec j b) as [->|]; [now symmetry|].
      rewrite Et' by assumption. apply Eg.
  - pose proof G'' as (_ & _ & _ & _ & Gf' & _).
    rewrite (C38_norm c0 c1 cadd cmul csub copp cconj CR psi' (ts psi') (if fl then b + 1 else b)%Z (if fl then y' else x') CA CM C0 C1 G''
      (tens_holds _ Gf' PN) HT' OC); [exact F9|destruct fl; assumption].
  - intros mu B. pose proof (A_bound t b Hb HT HS OL OR PH g LR1 Eg PC PP mu v B) as Q. rewrite Vn, Ve in Q. cbn [fst DavSpec.cof DavSpec.c1] in Q.
    now replace (fmul mu f1) with mu in Q by ring.
  - exact Vr.
  - intros EX. rewrite <- Ve. rewrite (A_ok t b Hb HT HS PH g LR1 Eg PC PP).
    rewrite (energy_whole c0 c1 cadd cmul cconj). fold t'. rewrite HS'.
    assert (W2 : forall c, Forall2 Peano.lt c (wsites W) -> amplitude (seg t' 1 n) c =
       whole (seg t 1 (Z.to_nat (b - 1))) (seg t (b + 2) (Z.to_nat (Z.of_nat n - (b - 1) - 2))) 2 (tl (t b)) (tr (t (b + 1)%Z)) v c).
    { intros c Hcc. rewrite <- (whole_mid t' b Hb HT' HS' c Hcc). destruct (cut_replace t t' b Hb Et') as [-> ->].
      rewrite Ex', Ey', F1, F4. rewrite Etx, Ety.
      destruct (cut_sites t b Hb HS) as [_ S2]. rewrite S2 in Hcc.
      refine (whole_ext c0 c1 cadd cmul _ _ 2 _ _ _ _ c [tp (t b); tp (t (b + 1)%Z)] _ Hcc _); [reflexivity|].
      intros a cc ee Ha Hcc' Hee. apply two in Hcc' as (i1 & i2 & -> & I1 & I2).
      unfold mid. cbn [nth]. rewrite Ex', Ey'. cbn [pair2 we].
      rewrite Etx in I1. rewrite Ety in I2. rewrite Etx, Ety in Vn.
      exact (EX sw b PH fl w' x' y' Vn Esp' a i1 i2 ee Ha I1 I2 Hee). }
    apply (wform_ext c0 cadd cmul cconj); assumption.
Qed.

(** With square roots, diagonalisations and factorisations that return, so does the step. *)
Definition totals : Prop :=
  (forall x, le f0 x -> exists r, fsqrt x = Ok r) /\
  (forall m M, 0 < m -> (forall i j, i < m -> j < m -> M j i = cconj (M i j)) -> exists U w, heev m M = Ok (U, w)) /\
  (forall sw b PH left w, wave2 f0 fadd fmul fsub fopp w = c1 -> exists x y, split sw b PH left w = Ok (x, y)) /\ 0 < dfuel.
Lemma step_total sw b ha s : totals -> (1 <= b <= Z.of_nat n - 1)%Z -> inv b (gpsi s) (gPH s) ->
  fst (norm2 (ts (gpsi s))) <> f0 -> exists s', bond_step sw b ha s = Ok s'.
Proof.
  intros (SQT & HTt & SPT & DF) Hb I NZ. unfold DmrgModel.bond_step.
  pose proof (orth_left _ _ _ I Hb) as OL. pose proof (orth_right _ _ _ I Hb) as OR.
  destruct I as (G & EN & HT & HS & HL & HC & HRl & g & LR & Eg).
  rewrite <- (position_ext _ _ g) by assumption.
  assert (RG : (0 <= 0 < Z.of_nat n + 1)%Z /\ (Z.of_nat n + 1 <= Z.of_nat n + 1)%Z) by lia.
  destruct (LocalProofs.position_ok sL sR (Z.of_nat n) true None None 0 (Z.of_nat n + 1) RG g (gPH s) b
      (LocalProofs.reach_inv sL sR (Z.of_nat n) true None None 0 (Z.of_nat n + 1) RG _ _ LR)) as (PH & EP & _ & (_ & _ & _ & PC) & PL & PRr); [lia|rewrite HC; lia|intros; lia|].
  rewrite EP. cbn [obind]. rewrite HC in PC, PRr.
  assert (LV : lvalid (Z.of_nat n) true (@None edge) None 0 (Z.of_nat n + 1) (T := tensor) (gPH s) (Position b)) by (cbn; rewrite HC; repeat split; lia).
  assert (LS : lstep sL sR (gPH s) g (Position b) = Ok (PH, g)) by (cbn [lstep]; rewrite EP; reflexivity).
  pose proof (lr_step sL sR _ _ _ _ _ _ _ _ _ _ _ LR LV LS) as LR1.
  assert (PP : position_of PH = Ok b).
  { unfold position_of. rewrite PL, PRr, PC. destruct (Z.eqb_spec (b + 2 - (b - 1)) (2 + 1)); [f_equal; lia|lia]. }
  pose proof G as (Gm & G2 & G3 & G4 & Gf & Gc).
  destruct (Gf b) as (x & Ex & Jx); [lia|]. destruct (Gf (b + 1)%Z) as (y & Ey & Jy); [lia|].
  unfold get2. destruct (get_mem (gd s) (gpsi s) b Gm) as (s1 & K1 & N1 & A1 & L1 & R1 & D1 & _ & _); [lia|]. rewrite K1. cbn [obind].
  destruct (get_mem (gd s) s1 (b + 1) D1) as (s2 & K2 & N2 & A2 & L2 & R2 & D2 & _ & _); [lia|]. rewrite K2. cbn [obind].
  replace (wrap (gpsi s) b) with b by (unfold wrap; destruct (Z.ltb_spec b 0); lia).
  rewrite A2, A1, Ex, Ey.
  set (t := tens (gpsi s)) in *.
  assert (Etx : t b = x) by (apply tens_at; assumption). assert (Ety : t (b + 1)%Z = y) by (apply tens_at; assumption).
  destruct (C53_returns f0 f1 fadd fmul fsub fopp fdiv finv fltb fsqrt OF SQ all vadd vscale _ (space (tl (t b)) [tp (t b); tp (t (b + 1)%Z)] (tr (t (b + 1)%Z)))
    (A t b PH) (A_herm t b Hb HT HS PH g LR1 Eg PC PP) (tl (t b) * tp (t b) * tp (t (b + 1)%Z) * tr (t (b + 1)%Z)) heev HEEV (rnd0 sw b ha) (rnd sw b ha)
    (fun _ _ => Logic.I) (fun _ _ => Logic.I) c1em20 c1em10 Approx0 c1em3 thousand Hc SQT HTt (Nat.pred dfuel) (niter sw) miniter errgoal (mid t b) Logic.I)
    as (e & v & EV). { rewrite (dot_mid t b Hb HT HS OL OR). exact NZ. }
  replace (S (Nat.pred dfuel)) with dfuel in EV by lia.
  destruct (C53_davidson f0 f1 fadd fmul fsub fopp fdiv finv fltb fsqrt OF SQ all vadd vscale _ (space (tl (t b)) [tp (t b); tp (t (b + 1)%Z)] (tr (t (b + 1)%Z)))
    (A t b PH) (A_herm t b Hb HT HS PH g LR1 Eg PC PP) (tl (t b) * tp (t b) * tp (t (b + 1)%Z) * tr (t (b + 1)%Z)) heev HEEV (rnd0 sw b ha) (rnd sw b ha)
    (fun _ _ => Logic.I) (fun _ _ => Logic.I) c1em20 c1em10 Approx0 c1em3 thousand Hc
    dfuel (niter sw) miniter errgoal (mid t b) (Some e) v Logic.I EV) as (e' & _ & _ & Vn & _ & _).
  destruct (eff_ok t b Hb HT HS PH g LR1 Eg PC PP (mid t b)) as (f & Ef & _).
  assert (ES : solve f0 f1 fadd fmul fsub fopp finv fltb fsqrt ws heev rnd0 rnd c1em20 c1em10 Approx0 c1em3 thousand niter miniter errgoal dfuel
    sw b ha PH (pair2 c0 cadd cmul x y) = Ok (Some e, v)).
  { rewrite <- Etx, <- Ety. exact (eq_trans (f_equal (fun o => obind o (fun _ => _)) Ef) EV). }
  rewrite ES. cbn [obind]. set (w' := mkW _ _ _ _ _ _).
  assert (W2 : wave2 f0 fadd fmul fsub fopp w' = c1) by (rewrite Etx, Ety in Vn; exact Vn).
  unfold svdBond. destruct (setBond_mem (gd s) s2 b D2) as (s3 & K3 & N3 & A3 & L3 & R3 & D3 & _ & _). rewrite K3. cbn [obind].
  rewrite L3, L2, L1, R3, R2, R1.
  destruct (ha =? 1)%Z; cbn [andb negb].
  - destruct (Z.ltb_spec (ml (gpsi s)) (b - 1)); [lia|]. destruct (SPT sw b PH true w' W2) as (x' & y' & ->). cbn [obind]. eauto.
  - destruct (Z.ltb_spec (b + 2) (mr (gpsi s))); [lia|]. destruct (SPT sw b PH false w' W2) as (x' & y' & ->). cbn [obind]. eauto.
Qed.

(** ** The loops *)
Definition one (e : F) (psi psi' : mps) : Prop :=
  norm2 (ts psi') = c1 /\
  (forall mu, bounded_below f0 f1 fadd fmul fsub fopp fltb W mu -> le mu e) /\
  (fst (norm2 (ts psi)) <> f0 -> le (fmul e (fst (norm2 (ts psi)))) (fst (energy (ts psi) W))) /\
  (exact -> energy (ts psi') W = cof e).
Notation visit := (nat * Z * Z * F)%type.
Inductive path : list visit -> mps -> mps -> Prop :=
| path_nil psi : path [] psi psi
| path_cons v e l psi psi1 psi2 : one e psi psi1 -> path l psi1 psi2 -> path ((v, e) :: l) psi psi2.
Lemma path_app l l' psi psi1 psi2 : path l psi psi1 -> path l' psi1 psi2 -> path (l ++ l') psi psi2.
Proof. intros P. revert l' psi2. induction P; intros; cbn [app]; [assumption|]. econstructor; eauto. Qed.

Definition energies (l : list visit) (x : option F) : option F := fold_left (fun _ v => Some (snd v)) l x.
Lemma energies_app l l' x : energies (l ++ l') x = energies l' (energies l x).
Proof. apply fold_left_app. Qed.
Definition entry (v : visit) : nat * Z * Z * option F := (fst v, Some (snd v)).
Definition ran (l : list visit) (s s' : dstate) : Prop :=
  path l (gpsi s) (gpsi s') /\ glog s' = glog s ++ map entry l /\ genergy s' = energies l (genergy s).
Lemma ran_app l l' s s1 s2 : ran l s s1 -> ran l' s1 s2 -> ran (l ++ l') s s2.
Proof.
  intros (P1 & L1 & E1) (P2 & L2 & E2). split; [eapply path_app; eassumption|]. split.
  - rewrite L2, L1, map_app, app_assoc. reflexivity.
  - rewrite E2, E1, energies_app. reflexivity.
Qed.
Lemma step_ran sw b ha s s' : (1 <= b <= Z.of_nat n - 1)%Z -> inv b (gpsi s) (gPH s) -> bond_step sw b ha s = Ok s' ->
  (exists e, ran [((sw, b, ha), e)] s s') /\
  (forall b', (b' <= b + 1)%Z -> (if (ha =? 1)%Z then b <= b' else b - 1 <= b' /\ b' <= b)%Z -> inv b' (gpsi s') (gPH s')) /\
  orthoCenter (gpsi s') = Ok (if (ha =? 1)%Z then (b + 1)%Z else b) /\ norm2 (ts (gpsi s')) = c1.
Proof.
  intros Hb I H. destruct (step_ok _ _ _ _ _ Hb I H) as ((e & E1 & E2 & E3 & E4 & E5 & E6 & E7) & e' & L & E'). rewrite E1 in E'. injection E' as <-.
  split; [|auto]. exists e. split; [|split; [exact L|exact E1]]. econstructor; [|constructor]. split; [assumption|auto].
Qed.

Notation bond_loop := (bond_loop f0 f1 fadd fmul fsub fopp finv fltb fsqrt ws heev rnd0 rnd c1em20 c1em10 Approx0 c1em3 thousand
  split niter miniter errgoal dfuel measure).
Lemma c1_ne : fst c1 <> f0.
Proof. cbn. apply (F_1_neq_0 FT). Qed.

Definition vis (sw : nat) (ha : Z) (k : nat) : nat * Z * Z := (sw, Z.of_nat k, ha).
Lemma back_ok : forall k fuel sw s s', 1 <= k -> k <= n - 1 -> inv (Z.of_nat k) (gpsi s) (gPH s) ->
  bond_loop fuel sw (Z.of_nat k) 2 s = Ok s' ->
  exists l, ran l s s' /\ map fst l = map (vis sw 2) (rev (seq 1 k)) /\ inv 1 (gpsi s') (gPH s') /\ orthoCenter (gpsi s') = Ok 1%Z /\ norm2 (ts (gpsi s')) = c1.
Proof.
  induction k as [|k IH]; intros fuel sw s s' H1 H2 I H; [lia|].
  destruct fuel as [|fuel]; [discriminate|]. cbn [DmrgModel.bond_loop] in H. change (2 <=? 2)%Z with true in H. cbn iota in H.
  destruct (bond_step sw (Z.of_nat (S k)) 2 s) as [s1| |] eqn:E; cbn [obind] in H; try discriminate.
  destruct (step_ran sw (Z.of_nat (S k)) 2 s s1 ltac:(lia) I E) as ((e & R) & I' & OC & NN). change (2 =? 1)%Z with false in *. cbn iota in *.
  unfold sweepnext in H. change (2 =? 1)%Z with false in H. cbn iota in H.
  assert (RS : rev (seq 1 (S k)) = S k :: rev (seq 1 k)).
  { replace (S k) with (k + 1) at 1 by lia. rewrite seq_app, rev_app_distr. reflexivity. }
  rewrite RS. cbn [map].
  destruct (Z.eqb_spec (Z.of_nat (S k) + -1) (1 - 1)).
  - assert (k = 0) as -> by lia.
    change (2 + 1)%Z with 3%Z in H. assert (s' = s1) as -> by (destruct fuel; cbn in H; congruence).
    exists [((sw, 1%Z, 2%Z), e)]. split; [exact R|]. split; [reflexivity|]. split; [apply I'; lia|]. split; assumption.
  - replace (Z.of_nat (S k) + -1)%Z with (Z.of_nat k) in H by lia.
    destruct (IH fuel sw s1 s' ltac:(lia) ltac:(lia) (I' (Z.of_nat k) ltac:(lia) ltac:(lia)) H) as (l & R2 & V & I2 & O2 & N2).
    exists ([((sw, Z.of_nat (S k), 2%Z), e)] ++ l). split; [eapply ran_app; eassumption|]. split; [|auto].
    cbn [app map fst]. rewrite V. reflexivity.
Qed.
Lemma back_total : totals -> forall k fuel sw s, 1 <= k -> k <= n - 1 -> k <= fuel -> inv (Z.of_nat k) (gpsi s) (gPH s) -> fst (norm2 (ts (gpsi s))) <> f0 ->
  exists s', bond_loop fuel sw (Z.of_nat k) 2 s = Ok s'.
Proof.
  intros T. induction k as [|k IH]; intros fuel sw s H1 H2 Hf I NZ; [lia|].
  destruct fuel as [|fuel]; [lia|]. cbn [DmrgModel.bond_loop]. change (2 <=? 2)%Z with true. cbn iota.
  destruct (step_total sw (Z.of_nat (S k)) 2%Z s T ltac:(lia) I NZ) as (s1 & E). rewrite E. cbn [obind].
  destruct (step_ran sw (Z.of_nat (S k)) 2 s s1 ltac:(lia) I E) as ((e & R) & I' & OC & NN). change (2 =? 1)%Z with false in *. cbn iota in *.
  unfold sweepnext. change (2 =? 1)%Z with false. cbn iota.
  destruct (Z.eqb_spec (Z.of_nat (S k) + -1) (1 - 1)).
  - exists s1. change (2 + 1)%Z with 3%Z. destruct fuel; reflexivity.
  - replace (Z.of_nat (S k) + -1)%Z with (Z.of_nat k) by lia. apply IH; try lia; [apply I'; lia|]. rewrite NN. exact c1_ne.
Qed.
Lemma forth_ok : forall j k fuel sw s s', 1 <= k -> k + S j = n -> inv (Z.of_nat k) (gpsi s) (gPH s) ->
  bond_loop fuel sw (Z.of_nat k) 1 s = Ok s' ->
  exists l, ran l s s' /\ map fst l = map (vis sw 1) (seq k (S j)) ++ map (vis sw 2) (rev (seq 1 (n - 1))) /\
    inv 1 (gpsi s') (gPH s') /\ orthoCenter (gpsi s') = Ok 1%Z /\ norm2 (ts (gpsi s')) = c1.
Proof.
  induction j as [|j IH]; intros k fuel sw s s' H1 H2 I H;
    (destruct fuel as [|fuel]; [discriminate|]); cbn [DmrgModel.bond_loop] in H; change (1 <=? 2)%Z with true in H; cbn iota in H;
    (destruct (bond_step sw (Z.of_nat k) 1 s) as [s1| |] eqn:E; cbn [obind] in H; try discriminate);
    destruct (step_ran sw (Z.of_nat k) 1 s s1 ltac:(lia) I E) as ((e & R) & I' & OC & NN); change (1 =? 1)%Z with true in *; cbn iota in *;
    unfold sweepnext in H; change (1 =? 1)%Z with true in H; cbn iota in H; destruct I as (_ & EN & _); rewrite EN in H.
  - destruct (Z.eqb_spec (Z.of_nat k + 1) (Z.of_nat n + 2 - 2)); [|lia].
    replace (Z.of_nat k + 1 - 1)%Z with (Z.of_nat (n - 1)) in H by lia. change (1 + 1)%Z with 2%Z in H.
    destruct (back_ok (n - 1) fuel sw s1 s' ltac:(lia) ltac:(lia) (I' (Z.of_nat (n - 1)) ltac:(lia) ltac:(lia)) H) as (l & R2 & V & I2 & O2 & N2).
    exists ([((sw, Z.of_nat k, 1%Z), e)] ++ l). split; [eapply ran_app; eassumption|]. split; [|auto].
    cbn [app map fst seq]. rewrite V. reflexivity.
  - destruct (Z.eqb_spec (Z.of_nat k + 1) (Z.of_nat n + 2 - 2)); [lia|].
    replace (Z.of_nat k + 1)%Z with (Z.of_nat (S k)) in H by lia.
    destruct (IH (S k) fuel sw s1 s' ltac:(lia) ltac:(lia) (I' (Z.of_nat (S k)) ltac:(lia) ltac:(lia)) H) as (l & R2 & V & I2 & O2 & N2).
    exists ([((sw, Z.of_nat k, 1%Z), e)] ++ l). split; [eapply ran_app; eassumption|]. split; [|auto].
    cbn [app map fst]. rewrite V. reflexivity.
Qed.
Lemma forth_total : totals -> forall j k fuel sw s, 1 <= k -> k + S j = n -> S j + (n - 1) <= fuel -> inv (Z.of_nat k) (gpsi s) (gPH s) ->
  fst (norm2 (ts (gpsi s))) <> f0 -> exists s', bond_loop fuel sw (Z.of_nat k) 1 s = Ok s'.
Proof.
  intros T. induction j as [|j IH]; intros k fuel sw s H1 H2 Hf I NZ;
    (destruct fuel as [|fuel]; [lia|]); cbn [DmrgModel.bond_loop]; change (1 <=? 2)%Z with true; cbn iota;
    destruct (step_total sw (Z.of_nat k) 1%Z s T ltac:(lia) I NZ) as (s1 & E); rewrite E; cbn [obind];
    destruct (step_ran sw (Z.of_nat k) 1 s s1 ltac:(lia) I E) as ((e & R) & I' & OC & NN); change (1 =? 1)%Z with true in *; cbn iota in *;
    unfold sweepnext; change (1 =? 1)%Z with true; cbn iota; destruct I as (_ & EN & _); rewrite EN.
  - destruct (Z.eqb_spec (Z.of_nat k + 1) (Z.of_nat n + 2 - 2)); [|lia].
    replace (Z.of_nat k + 1 - 1)%Z with (Z.of_nat (n - 1)) by lia. change (1 + 1)%Z with 2%Z.
    apply back_total; try assumption; try lia; [apply I'; lia|]. rewrite NN. exact c1_ne.
  - destruct (Z.eqb_spec (Z.of_nat k + 1) (Z.of_nat n + 2 - 2)); [lia|].
    replace (Z.of_nat k + 1)%Z with (Z.of_nat (S k)) by lia. apply IH; try lia; [apply I'; lia|]. rewrite NN. exact c1_ne.
Qed.

Notation sweeps_loop := (sweeps_loop f0 f1 fadd fmul fsub fopp finv fltb fsqrt ws heev rnd0 rnd c1em20 c1em10 Approx0 c1em3 thousand
  split niter miniter errgoal writes dfuel measure checkDone).
Definition sweep_visits (sw : nat) : list (nat * Z * Z) := map (fun bh => (sw, fst bh, snd bh)) (up_and_down n).
Lemma sweep_visits_eq sw : sweep_visits sw = map (vis sw 1) (seq 1 (n - 1)) ++ map (vis sw 2) (rev (seq 1 (n - 1))).
Proof. unfold sweep_visits, up_and_down. rewrite map_app, !map_map. reflexivity. Qed.

Lemma lvalid_write PH : lvalid (Z.of_nat n) true (@None edge) None 0 (Z.of_nat n + 1) (T := tensor) PH Write.
Proof. cbn. repeat split; reflexivity. Qed.
(** PH with write mode switched on is still in step with psi. *)
Lemma write_inv psi PH PH' b (w : bool) : inv b psi PH -> (if w then LocalModel.doWrite PH true else Ok PH) = Ok PH' -> inv b psi PH'.
Proof.
  intros I H. destruct w; [|congruence]. destruct I as (G & EN & HT & HS & HL & HC & HR & g & LR & Eg).
  assert (LS : lstep sL sR PH g Write = Ok (PH', g)) by (cbn [lstep]; rewrite H; reflexivity).
  pose proof (lr_step sL sR _ _ _ _ _ _ _ _ _ _ _ LR (lvalid_write PH) LS) as LR1.
  unfold doWrite in H. destruct (negb (lop PH)); [discriminate|]. injection H as <-.
  split; [assumption|]. split; [assumption|]. split; [assumption|]. split; [assumption|]. split; [assumption|]. cbn [lnc lR].
  split; [assumption|]. split; [assumption|]. exists g. auto.
Qed.
Lemma write_total psi PH b (w : bool) : inv b psi PH -> exists PH', (if w then LocalModel.doWrite PH true else Ok PH) = Ok PH'.
Proof.
  intros I. destruct w; [|eauto]. destruct I as (G & EN & HT & HS & HL & HC & HR & g & LR & Eg).
  destruct (C40_succeeds sL sR (Z.of_nat n) true None None 0 (Z.of_nat n + 1) PH g Write ltac:(lia) ltac:(lia) LR (lvalid_write PH)) as (s' & g' & E & _).
  cbn [lstep] in E. destruct (LocalModel.doWrite PH true) as [PH'| |]; cbn [obind] in E; try discriminate. eauto.
Qed.

Lemma sweeps_ok : forall left sw s s', inv 1 (gpsi s) (gPH s) -> orthoCenter (gpsi s) = Ok 1%Z -> sweeps_loop left sw s = Ok s' ->
  exists l k, ran l s s' /\ k <= left /\ (1 <= left -> 1 <= k) /\ ((forall o i e p, fst (checkDone o i e p) = false) -> k = left) /\
    map fst l = flat_map sweep_visits (seq sw k) /\ inv 1 (gpsi s') (gPH s') /\ orthoCenter (gpsi s') = Ok 1%Z.
Proof.
  induction left as [|left IH]; intros sw s s' I OC H; cbn [DmrgModel.sweeps_loop] in H.
  - injection H as <-. exists [], 0. split; [split; [constructor|split; [now rewrite app_nil_r|reflexivity]]|]. cbn. auto 6 with arith.
  - destruct (if negb (lwr (gPH s)) && writes sw then _ else _) as [PH| |] eqn:EW; cbn [obind] in H; try discriminate.
    apply (write_inv _ _ _ 1 _ I) in EW.
    destruct (DmrgModel.bond_loop _ _ _ _ _ _ _ _ _ _ _ _ _ _ _ _ _ _ _ _ _ _ _ _ _ _ _ _ _) as [s1| |] eqn:EB in H; cbn [obind] in H; try discriminate.
    destruct (forth_ok (n - 2) 1 (Z.to_nat (2 * mN (gpsi s))) sw (mkD (gd s) (gpsi s) PH (gobs s) (genergy s) (glog s)) s1 ltac:(lia) ltac:(lia) EW EB) as (l & R & V & I1 & O1 & N1).
    replace (S (n - 2)) with (n - 1) in V by lia. rewrite <- sweep_visits_eq in V.
    destruct (checkDone (gobs s1) sw (genergy s1) (gpsi s1)) as [stop o] eqn:EC.
    destruct stop.
    + injection H as <-. exists l, 1. split; [exact R|]. split; [lia|]. split; [lia|]. split; [|cbn; rewrite app_nil_r; auto].
      intros HN. specialize (HN (gobs s1) sw (genergy s1) (gpsi s1)). rewrite EC in HN. discriminate.
    + destruct (IH (S sw) (mkD (gd s1) (gpsi s1) (gPH s1) o (genergy s1) (glog s1)) s' I1 O1 H) as (l' & k & R' & K1 & K2 & K3 & V' & I' & O').
      exists (l ++ l'), (S k). split; [exact (ran_app l l' s s1 s' R R')|]. split; [lia|]. split; [lia|]. split; [intros HN; rewrite (K3 HN); reflexivity|].
      split; [|auto]. rewrite map_app, V, V'. reflexivity.
Qed.
Lemma sweeps_total : totals -> forall left sw s, inv 1 (gpsi s) (gPH s) -> fst (norm2 (ts (gpsi s))) <> f0 -> exists s', sweeps_loop left sw s = Ok s'.
Proof.
  intros T. induction left as [|left IH]; intros sw s I NZ; cbn [DmrgModel.sweeps_loop]; [eauto|].
  destruct (write_total _ _ 1 (negb (lwr (gPH s)) && writes sw) I) as (PH & EW). rewrite EW. cbn [obind].
  apply (write_inv _ _ _ 1 _ I) in EW. pose proof I as (_ & EN & _). rewrite EN.
  set (s0 := mkD (gd s) (gpsi s) PH _ _ _).
  destruct (forth_total T (n - 2) 1 (Z.to_nat (2 * Z.of_nat n)) sw s0 ltac:(lia) ltac:(lia) ltac:(lia) EW NZ) as (s1 & E).
  change (Z.of_nat 1) with 1%Z in E. rewrite E. cbn [obind].
  destruct (forth_ok (n - 2) 1 (Z.to_nat (2 * Z.of_nat n)) sw s0 s1 ltac:(lia) ltac:(lia) EW E) as (l & R & V & I1 & O1 & N1).
  destruct (checkDone _ _ _ _) as [stop o]. destruct stop; [eauto|]. apply IH; [exact I1|]. cbn [gpsi]. rewrite N1. exact c1_ne.
Qed.

(** What a run says about its energies. *)
Lemma le_trans' x y z : le x y -> le y z -> le x z.
Proof. apply (le_trans f0 f1 fadd fmul fsub fopp fdiv finv fltb OF). Qed.
Lemma path_facts l psi psi' : path l psi psi' ->
  (l = [] -> psi' = psi) /\ (l <> [] -> norm2 (ts psi') = c1) /\
  Forall (fun v => forall mu, bounded_below f0 f1 fadd fmul fsub fopp fltb W mu -> le mu (snd v)) l /\
  (exact -> (forall e, energies l None = Some e -> energy (ts psi') W = cof e)) /\
  match l with
  | [] => True
  | (_, e) :: l' => (fst (norm2 (ts psi)) <> f0 -> le (fmul e (fst (norm2 (ts psi)))) (fst (energy (ts psi) W))) /\
      (exact -> descending fltb e (map snd l'))
  end.
Proof.
  induction 1 as [psi|v e l psi psi1 psi2 (O1 & O2 & O3 & O4) P (I1 & I2 & I3 & I4 & I5)].
  - split; [reflexivity|]. split; [congruence|]. split; [constructor|]. split; [discriminate|exact Logic.I].
  - split; [discriminate|]. split; [|split; [|split; [|split; [exact O3|]]]].
    + intros _. destruct l as [|x l]; [rewrite (I1 eq_refl); exact O1|apply I2; discriminate].
    + constructor; assumption.
    + intros EX e' He. destruct l as [|x l].
      * rewrite (I1 eq_refl). cbn in He. injection He as <-. apply O4; assumption.
      * apply I4; [assumption|exact He].
    + intros EX. destruct l as [|[v' e'] l]; [exact Logic.I|]. cbn [map snd descending]. destruct I5 as (J1 & J2).
      split; [|apply J2; assumption]. rewrite O1, (O4 EX) in J1. specialize (J1 c1_ne). cbn [fst DavSpec.cof DavSpec.c1] in J1.
      now replace (fmul e' f1) with e' in J1 by ring.
Qed.

(** ** The end: normalize *)
Lemma holds_ts (psi : mps) l : holds psi l -> mN psi = Z.of_nat n -> l = ts psi.
Proof.
  intros [HL HA] EN. assert (length l = n) as EL by lia. apply nth_error_ext'. intros k.
  destruct (Nat.lt_ge_cases k n) as [Hk|Hk].
  - rewrite seg_nth by assumption. destruct (nth_error l k) as [u|] eqn:E; [|apply nth_error_None in E; lia].
    specialize (HA k ltac:(lia)). rewrite E in HA. now rewrite (tens_at _ _ _ HA).
  - rewrite (proj2 (nth_error_None l k)) by lia. symmetry. apply nth_error_None. now rewrite seg_len.
Qed.
Lemma real_bsum m f : (forall i, i < m -> snd (f i) = f0) -> snd (bsum m f) = f0.
Proof.
  induction m as [|m IH]; intros Hf; cbn [BigSum.bsum]; [reflexivity|].
  change (fadd (snd (bsum m f)) (snd (f m)) = f0). rewrite IH, Hf by auto. ring.
Qed.
Lemma real_csum ps f : (forall c, snd (f c) = f0) -> snd (csum ps f) = f0.
Proof. revert f. induction ps as [|q ps IH]; intros f Hf; cbn [BigSum.csum]; [apply Hf|]. apply real_bsum. intros i _. apply IH. auto. Qed.
Lemma norm2_real l : norm2 l = cof (fst (norm2 l)).
Proof.
  assert (snd (norm2 l) = f0) as E.
  { unfold MpsSpec.norm2. apply real_csum. intros c. rewrite (abs2_conj f0 f1 fadd fmul fsub fopp fdiv finv fltb OF). reflexivity. }
  destruct (norm2 l) as [a b]. cbn in *. now subst b.
Qed.
Notation tscale := (tscale fadd fmul fsub).
Lemma scale_amplitude k t l c : c <> [] -> amplitude (tscale k t :: l) c = cmul k (amplitude (t :: l) c).
Proof.
  destruct c as [|i c]; [congruence|]. intros _. unfold MpsSpec.amplitude. cbn [MpsSpec.chain DmrgModel.tscale tr te].
  rewrite <- (bsum_mul_l c0 c1 cadd cmul csub copp CR). apply (bsum_ext c0 cadd). intros e _. ring.
Qed.
Lemma scale_norm2 x t l : norm2 (tscale (cof x) t :: l) = cmul (cof (fmul x x)) (norm2 (t :: l)).
Proof.
  unfold MpsSpec.norm2. change (sites (tscale (cof x) t :: l)) with (sites (t :: l)).
  rewrite <- (csum_mul_l c0 c1 cadd cmul csub copp CR). apply (BigSum.csum_ext c0 cadd). intros c Hcc.
  rewrite scale_amplitude by (intros ->; inversion Hcc). rewrite CM, (conj_of f0 f1 fadd fmul fsub fopp fdiv finv fltb OF).
  rewrite (of_mul' f0 f1 fadd fmul fsub fopp fdiv finv fltb OF). ring.
Qed.
Lemma scale_energy x t l : energy (tscale (cof x) t :: l) W = cmul (cof (fmul x x)) (energy (t :: l) W).
Proof.
  rewrite !(energy_whole c0 c1 cadd cmul cconj). change (sites (tscale (cof x) t :: l)) with (sites (t :: l)). unfold DmrgAlg.wform.
  rewrite <- (csum_mul_l c0 c1 cadd cmul csub copp CR). apply (BigSum.csum_ext c0 cadd). intros c Hcc.
  rewrite <- (csum_mul_l c0 c1 cadd cmul csub copp CR). apply (BigSum.csum_ext c0 cadd). intros c' Hcc'.
  rewrite !scale_amplitude by (intros ->; inversion Hcc; inversion Hcc'). rewrite CM, (conj_of f0 f1 fadd fmul fsub fopp fdiv finv fltb OF).
  rewrite (of_mul' f0 f1 fadd fmul fsub fopp fdiv finv fltb OF). ring.
Qed.
Notation normalize := (normalize f0 fadd fmul fsub fopp finv fltb fsqrt c1em20).
Hypothesis Hc20 : lt f0 c1em20.
Lemma seg_head {B} (f : Z -> B) : seg f 1 n = f 1%Z :: seg f 2 (n - 1).
Proof. replace n with (S (n - 1)) at 1 by lia. rewrite seg_cons. reflexivity. Qed.
Lemma center_norm psi t : good psi -> mN psi = Z.of_nat n -> linked 1 (ts psi) 1 -> orthoCenter psi = Ok 1%Z -> mA psi 1%Z = Some t ->
  norm2 (ts psi) = tnorm2 t.
Proof.
  intros G EN HT OC Et. pose proof G as (_ & _ & _ & _ & Gf & _).
  exact (C38_norm c0 c1 cadd cmul csub copp cconj CR psi (ts psi) 1%Z t CA CM C0 C1 G (tens_holds _ Gf EN) HT OC Et).
Qed.
Lemma normalize_ok d psi d' psi' : good psi -> mN psi = Z.of_nat n -> linked 1 (ts psi) 1 -> orthoCenter psi = Ok 1%Z ->
  normalize d psi = Ok (d', psi') ->
  filled psi' /\ mN psi' = Z.of_nat n /\ linked 1 (ts psi') 1 /\ sites (ts psi') = sites (ts psi) /\ norm2 (ts psi') = c1 /\
  cmul (energy (ts psi') W) (norm2 (ts psi)) = energy (ts psi) W.
Proof.
  intros G EN HT OC H. pose proof G as (Gm & G2 & G3 & G4 & Gf & Gc).
  unfold DmrgModel.normalize in H. rewrite OC in H. cbn [obind] in H.
  destruct (get_mem d psi 1 Gm) as (s1 & K1 & N1 & A1 & L1 & R1 & D1 & _ & _); [lia|]. rewrite K1 in H. cbn [obind] in H.
  destruct (Gf 1%Z) as (t & Et & Jt); [lia|]. rewrite Et in H. rewrite <- (center_norm psi t G EN HT OC Et) in H.
  destruct (fsqrt (fst (norm2 (ts psi)))) as [r| |] eqn:ER; cbn [obind] in H; try discriminate.
  apply SQ in ER as [Er Hr0].
  destruct (fltb (fabs f0 fopp fltb r) c1em20) eqn:Ea; [discriminate|].
  assert (Rn : r <> f0).
  { intros ->. unfold fabs in Ea. rewrite Hr0 in Ea. congruence. }
  unfold scale in H. unfold orthoCenter in OC. destruct (isOrtho psi); [|discriminate]. injection OC as OC. rewrite L1, OC in H.
  apply modify_mem in H; [|assumption|unfold wrap; cbn; lia]. cbn zeta in H. unfold wrap in H. change (1 <? 0)%Z with false in H. cbn iota in H.
  destruct H as (_ & _ & N2 & _ & _ & A2 & A3). rewrite A1, Et in A2. cbn [option_map] in A2.
  assert (T1 : tens psi 1 = t) by now apply tens_at. assert (T2 : tens psi' 1 = tscale (cof (finv r)) t) by now apply tens_at.
  assert (T3 : seg (tens psi') 2 (n - 1) = seg (tens psi) 2 (n - 1)).
  { apply seg_ext. intros k Hk. unfold DmrgModel.tens. rewrite A3 by lia. now rewrite A1. }
  split; [|split; [congruence|]].
  { intros j Hj. rewrite N2, N1 in *. destruct (Z.eq_dec j 1) as [->|]; [exists (tscale (cof (finv r)) t); split; [assumption|exact Jt]|].
    rewrite A3, A1 by assumption. apply Gf. lia. }
  assert (Q : fmul (fmul (finv r) (finv r)) (fst (norm2 (ts psi))) = f1) by (rewrite <- Er; field; assumption).
  assert (Q2 : cmul (cof (fmul (finv r) (finv r))) (norm2 (ts psi)) = c1).
  { rewrite norm2_real, <- (of_mul' f0 f1 fadd fmul fsub fopp fdiv finv fltb OF), Q. reflexivity. }
  rewrite seg_head, T1 in HT, Q2. rewrite (seg_head (tens psi)), (seg_head (tens psi')), T1, T2, T3.
  split; [exact HT|]. split; [reflexivity|]. split; [rewrite scale_norm2; exact Q2|].
  rewrite scale_energy.
  transitivity (cmul (cmul (cof (fmul (finv r) (finv r))) (norm2 (t :: seg (tens psi) 2 (n - 1)))) (energy (t :: seg (tens psi) 2 (n - 1)) W)); [ring|].
  rewrite Q2. ring.
Qed.
Lemma normalize_total d psi : (forall x, le f0 x -> exists r, fsqrt x = Ok r) -> le c1em20 f1 ->
  good psi -> mN psi = Z.of_nat n -> linked 1 (ts psi) 1 -> orthoCenter psi = Ok 1%Z -> norm2 (ts psi) = c1 ->
  exists d' psi', normalize d psi = Ok (d', psi').
Proof.
  intros SQT HC1 G EN HT OC N1'. pose proof G as (Gm & G2 & G3 & G4 & Gf & Gc).
  unfold DmrgModel.normalize. rewrite OC. cbn [obind].
  destruct (get_mem d psi 1 Gm) as (s1 & K1 & N1 & A1 & L1 & R1 & D1 & _ & _); [lia|]. rewrite K1. cbn [obind].
  destruct (Gf 1%Z) as (t & Et & Jt); [lia|]. rewrite Et. rewrite <- (center_norm psi t G EN HT OC Et), N1'.
  assert (P1 : le f0 f1) by (replace f1 with (fmul f1 f1) by ring; apply (sq_nonneg f0 f1 fadd fmul fsub fopp fdiv finv fltb OF)).
  change (fst c1) with f1. destruct (SQT f1 P1) as (r & ER). rewrite ER. cbn [obind]. apply SQ in ER as [Er Hr0].
  assert (r = f1) as ->.
  { assert (E : fmul (fsub r f1) (fadd r f1) = f0) by (transitivity (fsub (fmul r r) f1); [ring|rewrite Er; ring]).
    assert (P : fadd r f1 <> f0).
    { apply (lt_neq f0 f1 fadd fmul fsub fopp fdiv finv fltb OF).
      destruct (le_cases f0 f1 fadd fmul fsub fopp fdiv finv fltb OF f0 f1 P1) as [P2|P2]; [|exfalso; apply (F_1_neq_0 FT); now symmetry].
      apply (lt_le_trans f0 f1 fadd fmul fsub fopp fdiv finv fltb OF _ f1); [assumption|].
      pose proof (le_add f0 f1 fadd fmul fsub fopp fdiv finv fltb OF f0 r f1 Hr0) as Q. now replace (fadd f0 f1) with f1 in Q by ring. }
    transitivity (fadd (fdiv (fmul (fsub r f1) (fadd r f1)) (fadd r f1)) f1); [field; assumption|]. rewrite E. field. assumption. }
  unfold fabs. rewrite P1, HC1. unfold scale, modify, ref. rewrite L1.
  unfold orthoCenter in OC. destruct (isOrtho psi); [|discriminate]. injection OC as OC. rewrite OC.
  unfold wrap. change (1 <? 0)%Z with false. cbn iota.
  destruct (setSite_mem d s1 1 D1) as (s2 & E2 & M1 & M2 & M3 & M4 & M5 & M6 & M7). rewrite E2. cbn [obind].
  unfold inrange, ref_lims. cbn [withlims mN]. rewrite M1, N1, EN. destruct (Z.leb_spec 1 (Z.of_nat n + 1)); [|lia]. cbn. eauto.
Qed.
End Step.
