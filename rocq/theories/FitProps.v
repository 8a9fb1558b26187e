(** Property C71: fitWF is the orthogonal projection on the states that keep all tensors of the basis but the first. *)
From Coq Require Import ZArith List Bool Arith Lia Ring Field Reals Lra.
From Verif Require Import Util BigSum MpsModel MpsTensor MpsSpec MpsProofs LocalSem SumModel SumProps OrtSpec OrtModel OrtProofs OrtProps FitSpec FitModel FitProofs.
Import ListNotations.
Local Open Scope nat_scope.
Local Open Scope outcome_scope.

Section Props.
Context {R : Type} (r0 r1 : R) (radd rmul rsub : R -> R -> R) (ropp : R -> R) (rdiv : R -> R -> R) (rinv : R -> R) (conj : R -> R).
Context (FT : field_theory r0 r1 radd rmul rsub ropp rdiv rinv eq).
Context (conj0 : conj r0 = r0) (conj1 : conj r1 = r1)
  (conj_add : forall x y, conj (radd x y) = radd (conj x) (conj y))
  (conj_mul : forall x y, conj (rmul x y) = rmul (conj x) (conj y))
  (conj_conj : forall x, conj (conj x) = x)
  (DEF : definite r0 radd rmul conj).
Context (rzero : R -> bool) (ZOK : forall x, rzero x = true <-> x = r0).
Context (nonneg : R -> Prop) (norm : @tensor R -> R) (NOK : norm_ok r0 radd rmul conj nonneg norm).
Let RT := F_R FT.
Add Field FTfitp : FT.
Notation tensor := (@tensor R).
Notation amp := (amplitude r0 r1 radd rmul).
Notation overlap := (overlap r0 radd rmul conj).
Notation dist2 := (dist2 r0 radd rmul rsub conj).
Notation good := (good r0 r1 radd rmul conj).
Notation bsum := (bsum r0 radd).
Notation fitWF := (fitWF r0 radd rmul rinv rzero conj norm).

Lemma tdot_tnorm2 (t : tensor) : tl t = 1 -> tdot r0 radd rmul conj t t = tnorm2 r0 radd rmul conj t.
Proof. intros E. unfold tdot, tnorm2. rewrite E, (bsum_1 r0 r1 radd rmul rsub ropp RT). reflexivity. Qed.
Lemma tnorm2_zero (t : tensor) : tl t = 1 -> tnorm2 r0 radd rmul conj t = r0 ->
  forall s e, s < tp t -> e < tr t -> te t 0 s e = r0.
Proof.
  intros E H s e Hs He. rewrite <- tdot_tnorm2 in H by assumption. unfold tdot in H.
  apply (definite_lsum r0 radd rmul conj DEF (pairs (tp t) (tr t)) (fun i => te t 0 (fst i) (snd i))) with (x := (s, e)).
  - rewrite (lsum_pairs r0 r1 radd rmul rsub ropp RT). etransitivity; [|exact H]. cbn [fst snd].
    apply bsum_ext. intros. apply bsum_ext. intros. ring.
  - apply in_pairs. auto.
Qed.

(** The basis is orthogonal with its centre on site 1, and both states have the same two or more sites.
    Either the fit is a state h_1 g_2 .. g_N of norm 1 with its centre still on site 1, n = <h|f> is positive, and n h is
    the closest to f among all states x_1 g_2 .. g_N: the distance of f to any other is larger by exactly the distance of
    that one to n h.  Or f is orthogonal to all states x_1 g_2 .. g_N, and fitWF throws. *)
Theorem C71_fitWF : forall basis fit (g : tensor) gs fs,
  good basis -> holds basis (g :: gs) -> proper (g :: gs) -> orthoCenter basis = Ok 1%Z ->
  mdo fit = false -> holds fit fs -> proper fs -> sites fs = sites (g :: gs) -> 2 <= length fs ->
  (exists s' h n, fitWF basis fit = Ok s' /\ holds s' (h :: gs) /\ same_inds g h /\ good s' /\ orthoCenter s' = Ok 1%Z /\
     norm2 r0 r1 radd rmul conj (h :: gs) = r1 /\
     nonneg n /\ n <> r0 /\ overlap (sites fs) (amp (h :: gs)) (amp fs) = n /\
     forall x, same_inds g x ->
       dist2 (sites fs) (amp fs) (amp (x :: gs)) =
       radd (dist2 (sites fs) (amp fs) (fun c => rmul n (amp (h :: gs) c)))
            (dist2 (sites fs) (fun c => rmul n (amp (h :: gs) c)) (amp (x :: gs))))
  \/ (fitWF basis fit = Err /\ forall x, same_inds g x -> overlap (sites fs) (amp (x :: gs)) (amp fs) = r0).
Proof.
  intros basis fit g gs fs G [HbN HbA] Pg HO Md [HfN HfA] Pf S N2.
  destruct G as (G1 & G2 & G3 & G4 & G5 & (C1 & C2)).
  destruct fs as [|f fs]; [cbn in N2; lia|].
  assert (NE : fs <> []) by (intros ->; cbn in N2; lia).
  assert (LEN : length fs = length gs).
  { apply (f_equal (@length _)) in S. unfold sites in S. rewrite !map_length in S. cbn in S. lia. }
  unfold orthoCenter in HO. destruct (isOrtho basis) eqn:I; [|discriminate]. injection HO as HO.
  assert (Hml : ml basis = 0%Z) by lia.
  assert (Hmr : mr basis = 2%Z) by (unfold isOrtho in I; apply Z.eqb_eq in I; lia).
  pose (A := proj r0 radd rmul conj f g fs gs).
  assert (IA : same_inds g A).
  { unfold A, same_inds. cbn. cbn in S. injection S as Sp _. auto. }
  assert (RO : Forall (right_orth r0 r1 radd rmul conj) gs).
  { apply Forall_forall. intros u Hu. destruct (In_nth_error _ _ Hu) as (k & Hk).
    assert (Hkl : k < length gs) by (apply nth_error_Some; congruence).
    apply (C2 (1 + Z.of_nat (Datatypes.S k))%Z); [cbn [length] in HbN; lia|]. rewrite HbA by (cbn; lia). exact Hk. }
  assert (TL : tl A = 1) by (destruct Pg as [X _]; exact X).
  destruct (NOK A) as (Nn & Nc & Nq).
  assert (OF := overlap_fit r0 r1 radd rmul rsub ropp rdiv rinv conj FT conj0 conj1 conj_add conj_mul f g fs gs NE Pf Pg S).
  assert (OT := overlap_tail r0 r1 radd rmul rsub ropp rdiv rinv conj FT conj0 conj1 conj_add conj_mul f g fs gs Pg S).
  fold A in OF.
  assert (EV : fitWF basis fit = if rzero (norm A) then Err else
    Ok (withA (ref_lims (withatb basis (if (matb basis <? 1)%Z then 0%Z else 1%Z)) 1)
         (setA (mA basis) 1 (Some (divide rmul rinv A (norm A)))))).
  { unfold FitModel.fitWF. rewrite G1, Md, I. cbn [orb negb]. unfold orthoCenter. rewrite I. cbn [obind].
    replace (ml basis + 1)%Z with 1%Z by lia. cbn [Z.eqb Pos.eqb negb].
    replace (mN fit =? mN basis)%Z with true by (symmetry; apply Z.eqb_eq; cbn [length] in *; lia). cbn [negb].
    rewrite HbN, HfN, !Nat2Z.id, (collect_ok _ _ 1 HbA), (collect_ok _ _ 1 HfA). cbn [obind].
    assert (FF : fit_first r0 radd rmul conj (f :: fs) (g :: gs) = Ok A).
    { unfold fit_first, A, proj. destruct fs; [congruence|]. reflexivity. }
    rewrite FF. cbn [obind]. destruct (rzero (norm A)); [reflexivity|].
    unfold modify, ref, setSite, wrap. rewrite G1. cbn [negb Z.ltb Z.compare obind].
    unfold inrange. cbn [ref_lims withlims withatb mN].
    replace ((0 <=? 1)%Z && (1 <=? mN basis + 1)%Z) with true.
    - cbn [obind]. reflexivity.
    - symmetry. apply andb_true_intro. split; [reflexivity|]. apply Z.leb_le. lia. }
  rewrite EV. clear EV. destruct (rzero (norm A)) eqn:EZ.
  - right. split; [reflexivity|]. apply ZOK in EZ. intros x Hx. rewrite (OF x Hx). unfold tdot.
    assert (Z0 : tnorm2 r0 radd rmul conj A = r0) by (rewrite <- Nq, EZ; ring).
    apply (bsum_zero r0 r1 radd rmul rsub ropp RT). intros s Hs. apply (bsum_zero r0 r1 radd rmul rsub ropp RT). intros e He.
    rewrite (tnorm2_zero A TL Z0 s e Hs He). ring.
  - left. assert (NZ : norm A <> r0) by (intros H; apply ZOK in H; congruence). clear EZ.
    set (n := norm A) in *. set (h := divide rmul rinv A n).
    assert (IH : same_inds g h) by exact IA.
    assert (Ic : conj (rinv n) = rinv n).
    { transitivity (rmul (rinv n) (rmul (conj (rinv n)) n)).
      - field. exact NZ.
      - rewrite <- Nc at 3. rewrite <- conj_mul. replace (rmul (rinv n) n) with r1 by (field; exact NZ). rewrite conj1. ring. }
    assert (Hh : forall x, tdot r0 radd rmul conj x h = rmul (tdot r0 radd rmul conj x A) (rinv n)).
    { intros x. unfold tdot, h. cbn [divide tp tr te]. rewrite <- (bsum_mul_r r0 r1 radd rmul rsub ropp RT). apply bsum_ext.
      intros s _. rewrite <- (bsum_mul_r r0 r1 radd rmul rsub ropp RT). apply bsum_ext. intros e _. ring. }
    assert (HhA : tdot r0 radd rmul conj h A = n).
    { rewrite <- (tdot_conj r0 r1 radd rmul rsub ropp rdiv rinv conj FT conj0 conj_add conj_mul conj_conj A h eq_refl eq_refl).
      rewrite Hh, (tdot_tnorm2 A TL), <- Nq, !conj_mul, Ic, Nc. field. exact NZ. }
    exists (withA (ref_lims (withatb basis (if (matb basis <? 1)%Z then 0%Z else 1%Z)) 1) (setA (mA basis) 1 (Some h))), h, n.
    split; [reflexivity|]. split; [|split; [exact IH|split; [|split; [|split; [|split; [exact Nn|split; [exact NZ|split]]]]]]].
    + split; [exact HbN|]. intros k Hk. cbn [withA mA setA]. destruct k as [|k]; [reflexivity|].
      cbn [length] in Hk. unfold setA. replace (1 + Z.of_nat (Datatypes.S k) =? 1)%Z with false by (symmetry; apply Z.eqb_neq; lia).
      rewrite HbA by (cbn; lia). reflexivity.
    + unfold ref_lims. cbn [withatb ml mr]. rewrite Hml, Hmr. cbn [Z.leb Z.compare Pos.compare Pos.compare_cont].
      split; [exact G1|]. cbn [withA withlims withatb mN ml mr mA mdo].
      split; [exact G2|]. split; [lia|]. split; [cbn [length] in *; lia|]. split.
      * intros j Hj. cbn [withA withlims withatb mN mA] in *. unfold setA. destruct (Z.eqb_spec j 1) as [->|Nj].
        -- exists h. split; [reflexivity|]. intros Hlt. destruct (G5 1%Z ltac:(lia)) as (t & Et & Jt).
           pose proof (HbA 0 ltac:(cbn; lia)) as E0. change (1 + Z.of_nat 0)%Z with 1%Z in E0. rewrite E0 in Et. cbn in Et. injection Et as <-. exact (Jt Hlt).
        -- apply G5. exact Hj.
      * split; [intros j t Hj; cbn in Hj; lia|]. intros j t Hj Et. cbn [withA withlims withatb mN mr mA] in *. unfold setA in Et.
        destruct (Z.eqb_spec j 1) as [->|Nj]; [lia|]. apply (C2 j); [lia|exact Et].
    + unfold ref_lims. cbn [withatb ml mr]. rewrite Hml, Hmr. reflexivity.
    + change (h :: gs) with ([] ++ h :: gs). rewrite (norm2_center r0 r1 radd rmul rsub ropp conj RT conj_add conj_mul conj0 conj1 [] h gs); [| |constructor|exact RO].
      * rewrite <- tdot_tnorm2 by exact TL. rewrite Hh, HhA. field. exact NZ.
      * destruct Pg as [X Y]. split; [exact X|exact Y].
    + rewrite (OF h IH). exact HhA.
    + intros x Hx. apply (pythagoras r0 r1 radd rmul rsub ropp rdiv rinv conj FT conj0 conj_add conj_mul conj_conj).
      pose (d := tsub rsub A x).
      assert (Id : same_inds g d) by exact IA.
      assert (AE : forall c, Forall2 lt c (sites (f :: fs)) ->
        rmul n (amp (h :: gs) c) = amp (A :: gs) c /\ rsub (rmul n (amp (h :: gs) c)) (amp (x :: gs) c) = amp (d :: gs) c).
      { intros c Hc. assert (Cn : c <> []) by (intros ->; inversion Hc).
        assert (E1 : rmul n (amp (h :: gs) c) = amp (A :: gs) c).
        { unfold h. rewrite (amp_divide r0 r1 radd rmul rsub ropp rdiv rinv FT A n gs c Cn). field. exact NZ. }
        split; [exact E1|]. rewrite E1. symmetry. apply (amp_sub r0 r1 radd rmul rsub ropp rdiv rinv FT); [exact Cn|].
        destruct IA as (_ & _ & ->). destruct Hx as (_ & _ & ->). reflexivity. }
      transitivity (overlap (sites (f :: fs)) (amp (d :: gs)) (amp (f :: fs))).
      { apply (csum_ext r0 radd). intros c Hc. rewrite (proj2 (AE c Hc)). reflexivity. }
      rewrite (OF d Id), <- (OT d A RO Id IA).
      apply (csum_ext r0 radd). intros c Hc. rewrite (proj2 (AE c Hc)), (proj1 (AE c Hc)). reflexivity.
Qed.

(** A basis that is not orthogonal, or not with its centre on site 1, or of another length is refused. *)
Theorem C71_throws : forall basis fit, orthoCenter basis <> Ok 1%Z \/ mN fit <> mN basis -> fitWF basis fit = Err.
Proof.
  intros basis fit H. unfold FitModel.fitWF. destruct (mdo basis || mdo fit); [reflexivity|].
  destruct (isOrtho basis) eqn:I; cbn [negb]; [|reflexivity]. destruct H as [H|H].
  - unfold orthoCenter in *. rewrite I in *. cbn [obind]. destruct (Z.eqb_spec (ml basis + 1) 1) as [E|E]; cbn [negb]; [|reflexivity].
    rewrite E in H. congruence.
  - unfold orthoCenter. rewrite I. cbn [obind]. destruct (negb (ml basis + 1 =? 1)%Z); [reflexivity|].
    destruct (Z.eqb_spec (mN fit) (mN basis)); [congruence|]. reflexivity.
Qed.

(** Not true for one site: there every state is of the form x_1, so the fit should always succeed, but psi_to_fit(1) is
    multiplied in twice and fitWF throws whenever the two states are orthogonal. *)
Theorem C71_one_site_refuted : forall basis fit (g f : tensor),
  holds basis [g] -> proper [g] -> orthoCenter basis = Ok 1%Z -> holds fit [f] -> proper [f] -> tp f = tp g ->
  overlap (sites [f]) (amp [g]) (amp [f]) = r0 -> fitWF basis fit = Err.
Proof.
  intros basis fit g f [HbN HbA] Pg HO [HfN HfA] Pf Ep Z0. unfold FitModel.fitWF.
  destruct (mdo basis || mdo fit); [reflexivity|]. rewrite HO.
  destruct (isOrtho basis); cbn [negb obind]; [|reflexivity]. cbn [Z.eqb Pos.eqb negb].
  rewrite HbN, HfN. cbn [length Z.of_nat Pos.of_succ_nat Z.eqb Pos.eqb negb].
  change (Z.to_nat 1) with (length [g]). rewrite (collect_ok _ [g] 1 HbA).
  change (length [g]) with (length [f]). rewrite (collect_ok _ [f] 1 HfA). cbn [obind fit_first].
  assert (L0 : fit_last r0 radd rmul conj f g 0 0 = r0).
  { etransitivity; [|exact Z0]. unfold FitSpec.overlap, fit_last. cbn [sites map csum BigSum.csum]. apply bsum_ext. intros s _.
    unfold amplitude. cbn [MpsSpec.chain]. destruct Pg as [_ ->]. destruct Pf as [_ ->].
    rewrite !(bsum_1 r0 r1 radd rmul rsub ropp RT). unfold delta. cbn [Nat.eqb].
    rewrite conj_mul, conj1. ring. }
  set (A := mkT _ _ _ _ _). assert (Q : tnorm2 r0 radd rmul conj A = r0).
  { unfold tnorm2. apply (bsum_zero r0 r1 radd rmul rsub ropp RT). intros a _. apply (bsum_zero r0 r1 radd rmul rsub ropp RT). intros s _.
    apply (bsum_zero r0 r1 radd rmul rsub ropp RT). intros b _. unfold A. cbn [te]. rewrite L0, !conj_mul, conj0. ring. }
  destruct (NOK A) as (_ & _ & Nq). rewrite Q in Nq.
  assert (EN : norm A = r0).
  { destruct (rzero (norm A)) eqn:E; [now apply ZOK|]. assert (norm A <> r0) by (intros H; apply ZOK in H; congruence).
    transitivity (rmul (rinv (norm A)) (rmul (norm A) (norm A))); [field; assumption|]. rewrite Nq. ring. }
  apply ZOK in EN. rewrite EN. reflexivity.
Qed.
End Props.

(** * A case that meets the hypotheses: real numbers, two sites of dimension 2.  The basis is any first tensor with
    g_2 = |1> on a link of dimension 1, the state to fit is |00> + 2|11>; the overlap is not 0. *)
Definition exg : @tensor R := mkT 1 2 1 true (fun _ s _ => if s =? 0 then 1%R else 0%R).
Definition exg2 : @tensor R := mkT 1 2 1 false (fun _ s _ => if s =? 1 then 1%R else 0%R).
Definition exf : @tensor R := mkT 1 2 2 true (fun _ s b => if s =? b then 1%R else 0%R).
Definition exf2 : @tensor R := mkT 2 2 1 false (fun a s _ => if a =? s then (1 + INR s)%R else 0%R).
Definition ex_of (x y : @tensor R) (r : Z) : mps (@tensor R) :=
  mkMps 2 (fun j => if (1 <=? j)%Z then nth_error [x; y] (Z.to_nat (j - 1)) else None) 0 r 1 false 0.
Definition ex_norm (t : @tensor R) : R := sqrt (tnorm2 0%R Rplus Rmult (fun x => x) t).
Lemma Rdefinite : definite 0%R Rplus Rmult (fun x => x).
Proof.
  intros l. assert (N : forall l, (0 <= square_sum 0%R Rplus Rmult (fun x => x) l)%R).
  { clear. induction l as [|x l IH]; cbn; [lra|]. pose proof (Rle_0_sqr x). unfold Rsqr in H. lra. }
  induction l as [|x l IH]; intros H; [constructor|]. cbn in H. pose proof (N l). pose proof (Rle_0_sqr x) as Q. unfold Rsqr in Q.
  constructor; [|apply IH; lra]. apply Rsqr_0_uniq. unfold Rsqr. lra.
Qed.
Lemma tnorm2_nonneg (t : @tensor R) : (0 <= tnorm2 0%R Rplus Rmult (fun x => x) t)%R.
Proof.
  assert (N : forall n f, (forall i, (0 <= f i)%R) -> (0 <= bsum 0%R Rplus n f)%R).
  { induction n as [|n IH]; intros f H; cbn; [lra|]. specialize (IH f H). specialize (H n). lra. }
  unfold tnorm2. apply N. intros. apply N. intros. apply N. intros. apply Rle_0_sqr.
Qed.
Example C71_nonvacuous :
  definite 0%R Rplus Rmult (fun x => x) /\
  norm_ok 0%R Rplus Rmult (fun x => x) (fun x => (0 <= x)%R) ex_norm /\
  good 0%R 1%R Rplus Rmult (fun x => x) (ex_of exg exg2 2) /\ holds (ex_of exg exg2 2) [exg; exg2] /\ proper [exg; exg2] /\
  orthoCenter (ex_of exg exg2 2) = Ok 1%Z /\ holds (ex_of exf exf2 3) [exf; exf2] /\ proper [exf; exf2] /\
  sites [exf; exf2] = sites [exg; exg2] /\
  (exists x, same_inds exg x /\
  overlap 0%R Rplus Rmult (fun x => x) [2; 2] (amplitude 0%R 1%R Rplus Rmult [x; exg2]) (amplitude 0%R 1%R Rplus Rmult [exf; exf2]) = 2%R) /\
  same_inds exg exg /\
  overlap 0%R Rplus Rmult (fun x => x) [2; 2] (amplitude 0%R 1%R Rplus Rmult [exg; exg2]) (amplitude 0%R 1%R Rplus Rmult [exf; exf2]) = 0%R.
Proof.
  split; [exact Rdefinite|]. split.
  { intros t. split; [apply sqrt_pos|]. split; [reflexivity|]. apply sqrt_sqrt, tnorm2_nonneg. }
  assert (HB : forall x y r, holds (ex_of x y r) [x; y]).
  { intros x y r. split; [reflexivity|]. intros k Hk. cbn in Hk. destruct k as [|[|k]]; try lia; reflexivity. }
  split.
  { split; [reflexivity|]. cbn [ex_of mN ml mr]. split; [lia|]. split; [lia|]. split; [lia|]. split.
    - intros j Hj. cbn [ex_of mN] in Hj. assert (j = 1 \/ j = 2)%Z as [-> | ->] by lia.
      + exists exg. split; reflexivity.
      + exists exg2. split; [reflexivity|]. cbn. lia.
    - split; [intros j t Hj; cbn in Hj; lia|]. intros j t Hj Et. cbn [ex_of mN mr] in Hj. assert (j = 2)%Z as -> by lia.
      injection Et as <-. intros c c' Hc Hc'. cbn in Hc, Hc'. assert (c = 0) as -> by lia. assert (c' = 0) as -> by lia.
      cbn. lra. }
  split; [apply HB|]. split; [cbn; auto|]. split; [reflexivity|]. split; [apply HB|]. split; [cbn; auto|]. split; [reflexivity|].
  split.
  { exists (mkT 1 2 1 true (fun _ s _ => if s =? 1 then 1%R else 0%R)). split; [repeat split|]. cbn. lra. }
  split; [repeat split|]. cbn. lra.
Qed.

Print Assumptions C71_fitWF.
Print Assumptions C71_throws.
Print Assumptions C71_one_site_refuted.
