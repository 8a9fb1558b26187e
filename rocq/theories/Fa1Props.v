(** Property C73, continued: fitApplyMPO with NCenterSites=1. *)
From Coq Require Import ZArith List Bool Arith Lia Ring Field QArith QArith.Qcanon.
From Verif Require Import Util BigSum MpsModel MpsTensor MpsSpec MpsProofs LocalSem SweepsModel OrtSpec OrtProofs ApplySpec ApplyProofs FitSpec FitProofs FapSpec FapModel FapProofs FapProps.
Import ListNotations.
Local Open Scope nat_scope.
Local Open Scope outcome_scope.

Section Props.
(** The numbers. *)
Context {R : Type} (r0 r1 : R) (radd rmul rsub : R -> R -> R) (ropp : R -> R) (rdiv : R -> R -> R) (rinv : R -> R) (conj : R -> R).
Context (FT : field_theory r0 r1 radd rmul rsub ropp rdiv rinv eq).
Context (conj0 : conj r0 = r0) (conj1 : conj r1 = r1)
  (conj_add : forall x y, conj (radd x y) = radd (conj x) (conj y))
  (conj_mul : forall x y, conj (rmul x y) = rmul (conj x) (conj y))
  (conj_conj : forall x, conj (conj x) = x).
Let RT := F_R FT.
Add Field FTfa1p : FT.
Notation tensor := (@tensor R).
Notation amp := (amplitude r0 r1 radd rmul).
Notation dist2 := (dist2 r0 radd rmul rsub conj).
Notation travelled := (travelled r0 radd rmul rsub conj).
(** The operator K, the state x and the factor. *)
Context (N : nat) (HN : 2 <= N) (fac : R) (x : nat -> tensor) (K : nat -> kten R)
  (XP : proper (tensors x N)) (KP : kproper (tensors K N)).
(** An svd without truncation, and position(1). *)
Context (svd1 : nat -> nat -> bool -> tensor -> outcome tensor) (SV : forall sw j, svd1_ok r0 r1 radd rmul conj (svd1 sw j)).
Context (position1 : (nat -> tensor) -> outcome (nat -> tensor)) (PO : position1_ok r0 r1 radd rmul conj N position1).
Notation fit := (fit_apply_one r0 r1 radd rmul conj N fac x K svd1 position1).
Notation dims := (outs (tensors K N)).
(** fac K|x> *)
Notation goal := (fun c => rmul fac (applied r0 r1 radd rmul (tensors K N) (tensors x N) c)).
Notation state f := (amp (tensors f N)).

(** The result is a proper state on the sites of the operator, right-orthogonal after site 1; it is reached by one step for
    each site and direction of each sweep, and the squared distance to fac K|x> decreases by exactly the sum of the squared
    lengths of these steps. *)
Theorem C73_one_site : forall nsweep kx res, proper (tensors kx N) -> sites (tensors kx N) = dims ->
  fit nsweep kx = Ok res ->
  proper (tensors res N) /\ sites (tensors res N) = dims /\
  (forall j, 2 <= j <= N -> right_orth r0 r1 radd rmul conj (res j)) /\
  exists l, length l = nsweep * (2 * N) /\
    (forall c, Forall2 lt c dims -> last l (state kx) c = state res c) /\
    dist2 dims goal (state kx) = radd (dist2 dims goal (state res)) (travelled dims (state kx) l).
Proof.
  intros nsweep kx res P S E.
  destruct (fit_apply_one_ok r0 r1 radd rmul rsub ropp rdiv rinv conj FT conj0 conj1 conj_add conj_mul conj_conj N HN fac x K XP KP position1 PO svd1 SV nsweep kx res P S E)
    as (A & B & C & _ & l & L1 & L2 & L3).
  split; [apply link_iff; assumption|]. split.
  { unfold sites, outs, tensors. rewrite !map_map. apply map_ext_in. intros j Hj. apply in_seq in Hj. apply B. lia. }
  split; [exact C|]. exists l. rewrite dims_D. auto.
Qed.

(** So, when sums of squares |z|^2 are nonnegative, the fit is never further from fac K|x> than the initial guess. *)
Theorem C73_one_site_never_further : forall nonneg : R -> Prop, nonneg r0 -> (forall a b, nonneg a -> nonneg b -> nonneg (radd a b)) ->
  (forall z, nonneg (rmul (conj z) z)) ->
  forall nsweep kx res, proper (tensors kx N) -> sites (tensors kx N) = dims -> fit nsweep kx = Ok res ->
  nonneg (rsub (dist2 dims goal (state kx)) (dist2 dims goal (state res))).
Proof.
  intros nonneg N0 NA NS nsweep kx res P S E. destruct (C73_one_site nsweep kx res P S E) as (_ & _ & _ & l & _ & _ & ->).
  replace (rsub _ _) with (travelled dims (state kx) l) by ring.
  assert (NB : forall n f, (forall i, nonneg (f i)) -> nonneg (bsum r0 radd n f)) by (intros n f Hf; induction n; cbn; auto).
  assert (NC : forall ds f, (forall c, nonneg (f c)) -> nonneg (csum r0 radd ds f)).
  { induction ds as [|d ds IH]; intros f Hf; cbn [csum]; [apply Hf|]. apply NB. intros i. now apply IH. }
  generalize (state kx). clear - N0 NA NS NC. induction l as [|v l IH]; intros u; cbn [FapSpec.travelled]; [exact N0|].
  apply NA; [|apply IH]. apply NC. intros c. apply NS.
Qed.

(** After at least one sweep no state that differs from the result in the first tensor only is closer: its distance is
    larger by exactly its distance to the result. *)
Theorem C73_one_site_closest : forall nsweep kx res, proper (tensors kx N) -> sites (tensors kx N) = dims -> nsweep <> 0 ->
  fit nsweep kx = Ok res ->
  exists p rest, tensors res N = p :: rest /\ forall p', proper (p' :: rest) -> sites (p' :: rest) = dims ->
    dist2 dims goal (amp (p' :: rest)) =
    radd (dist2 dims goal (state res)) (dist2 dims (state res) (amp (p' :: rest))).
Proof.
  intros nsweep kx res P S Nz E.
  destruct (fit_apply_one_ok r0 r1 radd rmul rsub ropp rdiv rinv conj FT conj0 conj1 conj_add conj_mul conj_conj N HN fac x K XP KP position1 PO svd1 SV nsweep kx res P S E)
    as (A & B & C & Cl & _). specialize (Cl Nz).
  pose (rest := sg res 2 (N - 1)). exists (res 1), rest.
  assert (Cut : forall f : nat -> tensor, tensors f N = f 1 :: sg f 2 (N - 1)).
  { intros f. unfold tensors. change (map f (seq 1 N)) with (sg f 1 N). rewrite (sg_cut1 N HN f N 1 ltac:(lia)). reflexivity. }
  split; [apply Cut|]. intros p' P' S'. rewrite dims_D in *.
  assert (W : sg (upd res 1 p') 1 N = p' :: rest).
  { pose proof (Cut (upd res 1 p')) as Q. unfold tensors in Q. unfold sg at 1. rewrite Q.
    unfold upd at 1. cbn [Nat.eqb]. f_equal. apply sg_ext. intros j Hj. unfold upd.
    rewrite !(proj2 (Nat.eqb_neq _ _)) by lia. reflexivity. }
  rewrite <- W.
  assert (D1 : exists ds, D N K = ko (K 1) :: ds).
  { unfold D. rewrite (sg_cut1 N HN _ N 1 ltac:(lia)). eexists. reflexivity. }
  destruct D1 as [ds D1]. rewrite D1 in S'. cbn [sites map] in S'. injection S' as S1 _.
  destruct A as (A1 & A2 & A3). cbn in P'. destruct P' as (P1 & P3).
  apply Cl; [congruence|assumption|].
  unfold rest in P3. replace (N - 1) with (Datatypes.S (N - 2)) in P3 by lia. apply sg_linked in P3. destruct P3 as [P3 _]. rewrite <- P3. symmetry. apply A3. lia.
Qed.

(** If |z|^2 is definite, a guess that already is fac K|x> is returned unchanged. *)
Theorem C73_one_site_exact_guess : definite r0 radd rmul conj -> forall nsweep kx res, proper (tensors kx N) -> sites (tensors kx N) = dims ->
  (forall c, Forall2 lt c dims -> state kx c = goal c) -> fit nsweep kx = Ok res ->
  forall c, Forall2 lt c dims -> state res c = goal c.
Proof.
  intros DEF nsweep kx res P S G E. destruct (C73_one_site nsweep kx res P S E) as (_ & _ & _ & l & _ & L2 & L3).
  assert (Z : forall u v, exists m, dist2 dims u v = square_sum r0 radd rmul conj m /\ (Forall (fun z => z = r0) m -> forall c, Forall2 lt c dims -> v c = u c)).
  { intros u v. exists (map (fun c => rsub (u c) (v c)) (confs dims)). split.
    - unfold FitSpec.dist2. rewrite (csum_lsum r0 r1 radd rmul rsub ropp RT). induction (confs dims) as [|c cs IH]; cbn; [reflexivity|]. rewrite IH. f_equal. ring.
    - intros F c Hc. rewrite Forall_map, Forall_forall in F. specialize (F c).
      assert (I : In c (confs dims)).
      { clear - Hc. induction Hc as [|i p c ps Hi Hc IH]; cbn; [auto|]. apply in_flat_map. exists i. split; [apply in_seq; lia|]. now apply in_map. }
      specialize (F I). cbn beta in F. transitivity (radd (v c) (rsub (u c) (v c))); [rewrite F; ring|ring]. }
  assert (SA : forall m m', square_sum r0 radd rmul conj (m ++ m') = radd (square_sum r0 radd rmul conj m) (square_sum r0 radd rmul conj m')).
  { intros m m'. induction m as [|z m IH]; cbn; [ring|]. rewrite IH. ring. }
  assert (T : forall l u, exists m, travelled dims u l = square_sum r0 radd rmul conj m).
  { intros l'. induction l' as [|v l' IH]; intros u; [exists []; reflexivity|]. destruct (IH v) as [m M]. destruct (Z u v) as (m0 & M0 & _).
    exists (m0 ++ m). cbn [FapSpec.travelled]. now rewrite SA, M, M0. }
  assert (Z0 : dist2 dims goal (state kx) = r0).
  { unfold FitSpec.dist2. rewrite (csum_lsum r0 r1 radd rmul rsub ropp RT).
    assert (Q : forall cs, (forall c, In c cs -> Forall2 lt c dims) -> lsum r0 radd cs (fun c => rmul (conj (rsub (goal c) (state kx c))) (rsub (goal c) (state kx c))) = r0).
    { induction cs as [|c cs IH]; intros Hc; cbn [lsum]; [reflexivity|]. rewrite IH by (intros; apply Hc; now right). rewrite G by (apply Hc; now left). ring. }
    apply Q. intros c. apply in_confs. }
  destruct (Z goal (state res)) as (m & M & F). destruct (T l (state kx)) as [m' M']. rewrite Z0, M, M', <- SA in L3. symmetry in L3.
  apply DEF in L3. apply Forall_app in L3 as [L3 _]. apply F. exact L3.
Qed.

(** It returns if the decompositions it calls do. *)
Theorem C73_one_site_total : (forall f, exists g, position1 f = Ok g) -> (forall sw j d t, exists V, svd1 sw j d t = Ok V) ->
  forall nsweep kx, exists res, fit nsweep kx = Ok res.
Proof.
  intros TP TS nsweep kx. unfold fit_apply_one. destruct (TP (fun j => dagt conj (kx j))) as [kx1 E1]. rewrite E1. cbn [obind].
  assert (ST : forall sw b ha s, exists s', one_step r0 radd rmul conj N fac x K svd1 sw b ha s = Ok s').
  { intros sw b ha s. unfold one_step. destruct (ha =? 1)%Z; cbv zeta; [destruct (b + 1 <=? N)|destruct (1 <=? b - 1)]; cbn [obind]; eauto;
      (match goal with |- context [svd1 sw b ?d ?w] => destruct (TS sw b d w) as [V Ep]; rewrite Ep end); cbn [obind]; eauto. }
  assert (DN : forall sw m fuel s, m + 1 <= fuel -> exists s', one_loop r0 radd rmul conj N fac x K svd1 fuel sw (Z.of_nat (m + 1)) 2 s = Ok s').
  { intros sw. induction m as [|m IH]; intros fuel s Hf; (destruct fuel as [|fuel]; [lia|]); cbn [one_loop]; change (2 <=? 2)%Z with true; cbn iota;
      (match goal with |- context [one_step _ _ _ _ _ _ _ _ _ ?a ?b ?c ?d] => destruct (ST a b c d) as [s1 Es]; rewrite Es end); cbn [obind]; unfold sweepnext; change (2 =? 1)%Z with false; cbn iota.
    - change (Z.of_nat (0 + 1) + -1 =? 1 - 1)%Z with true. cbn iota. exists s1. destruct fuel; reflexivity.
    - replace (Z.of_nat (Datatypes.S m + 1) + -1 =? 1 - 1)%Z with false by (symmetry; apply Z.eqb_neq; lia). cbn iota.
      replace (Z.of_nat (Datatypes.S m + 1) + -1)%Z with (Z.of_nat (m + 1)) by lia. apply IH. lia. }
  assert (UP : forall sw m fuel b s, (b + m = N)%nat -> 1 <= b -> m + 1 + N <= fuel -> exists s', one_loop r0 radd rmul conj N fac x K svd1 fuel sw (Z.of_nat b) 1 s = Ok s').
  { intros sw. induction m as [|m IH]; intros fuel b s Hm Hb Hf; (destruct fuel as [|fuel]; [lia|]); cbn [one_loop]; change (1 <=? 2)%Z with true; cbn iota;
      (match goal with |- context [one_step _ _ _ _ _ _ _ _ _ ?a ?b ?c ?d] => destruct (ST a b c d) as [s1 Es]; rewrite Es end); cbn [obind]; unfold sweepnext; change (1 =? 1)%Z with true; cbn iota.
    - replace (Z.of_nat b + 1 =? Z.of_nat N + 2 - 1)%Z with true by (symmetry; apply Z.eqb_eq; lia). cbn iota.
      replace (Z.of_nat b + 1 - 1)%Z with (Z.of_nat ((b - 1) + 1)) by lia. change (1 + 1)%Z with 2%Z. apply DN. lia.
    - replace (Z.of_nat b + 1 =? Z.of_nat N + 2 - 1)%Z with false by (symmetry; apply Z.eqb_neq; lia). cbn iota.
      replace (Z.of_nat b + 1)%Z with (Z.of_nat (b + 1)) by lia. apply IH; lia. }
  assert (SW : forall left sw s, exists s', one_sweeps r0 radd rmul conj N fac x K svd1 left sw s = Ok s').
  { induction left as [|left IH]; intros sw s; cbn [one_sweeps]; [eauto|].
    destruct (UP sw (N - 1) (2 * N) 1 s) as [s1 Es]; [lia|lia|lia|]. change (Z.of_nat 1) with 1%Z in Es. rewrite Es. cbn [obind]. apply IH. }
  match goal with |- context [one_sweeps _ _ _ _ _ _ _ _ _ ?a ?b ?c] => destruct (SW a b c) as [s Es]; rewrite Es end. cbn [obind]. eauto.
Qed.
End Props.

(** * A case that meets the hypotheses *)
Section Ex.
Context {R : Type} (r0 r1 : R) (radd rmul rsub : R -> R -> R) (ropp : R -> R).
Context (RT : ring_theory r0 r1 radd rmul rsub ropp eq).
Add Ring RRfa1e : RT.
Notation tensor := (@tensor R).
Notation bsum := (bsum r0 radd).
Notation delta := (delta r0 r1).
(** V only joins two Indices. *)
Definition ex_svd1 (sw j : nat) (d : bool) (P : tensor) : outcome tensor :=
  if d then Ok (mkT (tl P) (tp P) (tl P * tp P) true (fun a s c => delta (a + tl P * s) c))
  else Ok (mkT (tr P * tp P) (tp P) (tr P) (tj P) (fun c s b => delta (b + tr P * s) c)).
Lemma ex_svd1_ok sw j : svd1_ok r0 r1 radd rmul (fun z => z) (ex_svd1 sw j).
Proof.
  intros P V. split; intros E; injection E as <-; cbn [tl tp tr te]; (split; [reflexivity|]); (split; [reflexivity|]); split.
  - intros c c' Hc Hc'. cbn [tl tp tr te] in *. rewrite (bsum_swap r0 r1 radd rmul rsub ropp RT). now apply (del_pair r0 r1 radd rmul rsub ropp RT).
  - exists (fun c b => te P (c mod tl P) (c / tl P) b). intros a s b Ha Hs Hb.
    rewrite (del_sum r0 r1 radd rmul rsub ropp RT) by nia. now rewrite pmod, pdiv by assumption.
  - intros c c' Hc Hc'. cbn [tl tp tr te] in *. rewrite (bsum_swap r0 r1 radd rmul rsub ropp RT). now apply (del_pair r0 r1 radd rmul rsub ropp RT).
  - exists (fun a c => te P a (c / tr P) (c mod tr P)). intros a s b Ha Hs Hb.
    transitivity (bsum (tr P * tp P) (fun c => rmul (delta (b + tr P * s) c) (te P a (c / tr P) (c mod tr P)))).
    + rewrite (del_sum r0 r1 radd rmul rsub ropp RT) by nia. now rewrite pmod, pdiv by assumption.
    + apply (bsum_ext r0 radd). intros c _. ring.
Qed.
End Ex.

(** The state, operator and guess of C73_nonvacuous. *)
Example C73_one_site_nonvacuous :
  let app := applied 0%Qc 1%Qc Qcplus Qcmult (tensors exK 3) (tensors exx 3) in
  let dist := dist2 0%Qc Qcplus Qcmult Qcminus (fun z => z) [2; 2; 2] in
  let state f := amplitude 0%Qc 1%Qc Qcplus Qcmult (tensors f 3) in
  app [0; 0; 1] = 1%Qc /\ app [1; 1; 0] = (1 + 1)%Qc /\
  exists res, fit_apply_one 0%Qc 1%Qc Qcplus Qcmult (fun z => z) 3 1%Qc exx exK (ex_svd1 0%Qc 1%Qc) (ex_pos 0%Qc 1%Qc Qcplus Qcmult) 2 exG = Ok res /\
    (dist (fun c => 1 * app c)%Qc (state exG) - dist (fun c => 1 * app c)%Qc (state res) >= 0)%Qc.
Proof.
  cbv zeta. split; [apply Qc_is_canon; vm_compute; reflexivity|]. split; [apply Qc_is_canon; vm_compute; reflexivity|].
  assert (XP : proper (tensors exx 3)) by (cbn; auto). assert (KP : kproper (tensors exK 3)) by (cbn; auto).
  destruct (C73_one_site_total 0%Qc 1%Qc Qcplus Qcmult (fun z => z) 3 ltac:(lia) 1%Qc exx exK (ex_svd1 0%Qc 1%Qc) (ex_pos 0%Qc 1%Qc Qcplus Qcmult)) with (nsweep := 2) (kx := exG) as [res E].
  - intros f. eexists. reflexivity.
  - intros sw j d t. destruct d; eexists; reflexivity.
  - exists res. split; [exact E|].
    apply (C73_one_site_never_further 0%Qc 1%Qc Qcplus Qcmult Qcminus Qcopp Qcdiv Qcinv (fun z => z) Qcft eq_refl eq_refl (fun _ _ => eq_refl) (fun _ _ => eq_refl) (fun _ => eq_refl)
      3 ltac:(lia) 1%Qc exx exK XP KP (ex_svd1 0%Qc 1%Qc) (ex_svd1_ok _ _ _ _ _ _ (F_R Qcft))
      (ex_pos 0%Qc 1%Qc Qcplus Qcmult) (ex_position _ _ _ _ _ _ (F_R Qcft)) (fun z => 0 <= z)%Qc) with (nsweep := 2); auto.
    + apply Qcle_refl.
    + intros a b Ha Hb. replace 0%Qc with (0 + 0)%Qc by ring. now apply Qcplus_le_compat.
    + intros z. change (0 <= Qred (this z * this z))%Q. rewrite Qred_correct. destruct z as [[n d] C]. unfold Qle. cbn. nia.
    + cbn. auto.
Qed.

Print Assumptions C73_one_site.
Print Assumptions C73_one_site_never_further.
Print Assumptions C73_one_site_closest.
Print Assumptions C73_one_site_exact_guess.
Print Assumptions C73_one_site_total.
