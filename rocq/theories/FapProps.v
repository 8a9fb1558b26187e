(** Property C73: fitApplyMPO (the two-site variational fit of K|x>) never moves away from K|x>, and ends at the best state
    for its first two tensors. *)
From Coq Require Import ZArith List Bool Arith Lia Ring Field QArith QArith.Qcanon.
From Verif Require Import Util BigSum MpsModel MpsTensor MpsSpec MpsProofs LocalSem SweepsModel OrtSpec OrtProofs ApplySpec ApplyProofs FitSpec FitProofs FapSpec FapModel FapProofs.
Import ListNotations.
Local Open Scope nat_scope.
Local Open Scope outcome_scope.

Section Props.
(** The numbers. *)
Context {R : Type} (r0 r1 : R) (radd rmul rsub : R -> R -> R) (ropp : R -> R) (rdiv : R -> R -> R) (rinv : R -> R) (conj : R -> R).
Context (FT : field_theory r0 r1 radd rmul rsub ropp rdiv rinv eq).
Context (conj0 : conj r0 = r0) (conj1 : conj r1 = r1)
  (conj_add : forall x y, conj (radd x y) = radd (conj x) (conj y))
  (conj_mul : forall x y, conj (rmul x y) = rmul (conj x) (conj y))
  (conj_conj : forall x, conj (conj x) = x).
Let RT := F_R FT.
Add Field FTfapp : FT.
Notation tensor := (@tensor R).
Notation wave := (@wave R).
Notation amp := (amplitude r0 r1 radd rmul).
Notation dist2 := (dist2 r0 radd rmul rsub conj).
Notation travelled := (travelled r0 radd rmul rsub conj).
(** The operator K, the state x and the factor. *)
Context (N : nat) (HN : 2 <= N) (fac : R) (x : nat -> tensor) (K : nat -> kten R)
  (XP : proper (tensors x N)) (KP : kproper (tensors K N)).
(** An svdBond without truncation, and position(1). *)
Context (split : nat -> nat -> bool -> wave -> outcome (tensor * tensor))
  (SE : forall sw b d, split_exact r0 radd rmul (split sw b d))
  (SL : forall sw b, splitl_ok r0 r1 radd rmul conj (split sw b true))
  (SR : forall sw b, splitr_ok r0 r1 radd rmul conj (split sw b false)).
Context (position1 : (nat -> tensor) -> outcome (nat -> tensor)) (PO : position1_ok r0 r1 radd rmul conj N position1).
Notation fit_apply := (fit_apply r0 r1 radd rmul conj N fac x K split position1).
Notation dims := (outs (tensors K N)).
(** fac K|x> *)
Notation goal := (fun c => rmul fac (applied r0 r1 radd rmul (tensors K N) (tensors x N) c)).
Notation state f := (amp (tensors f N)).

Lemma dims_D : dims = D N K.
Proof. unfold outs, tensors, D, sg. now rewrite map_map. Qed.

Lemma exact_one sw b d w p q : split sw b d w = Ok (p, q) ->
  tl p = wl w /\ tp p = wp1 w /\ tp q = wp2 w /\ tr q = wr w /\ tr p = tl q /\ exists k, k = r1 /\
  forall a s s' e, a < wl w -> s < wp1 w -> s' < wp2 w -> e < wr w -> bsum r0 radd (tr p) (fun c => rmul (te p a s c) (te q c s' e)) = rmul k (we w a s s' e).
Proof.
  intros E. destruct (SE _ _ _ _ _ _ E) as (A1 & A2 & A3 & A4 & A5 & A6). repeat (split; [assumption|]). exists r1. split; [reflexivity|].
  intros. rewrite A6 by assumption. ring.
Qed.

(** The result is a proper state on the sites of the operator, right-orthogonal after site 1; it is reached by one step for
    each bond and direction of each sweep, and the squared distance to fac K|x> decreases by exactly the sum of the squared
    lengths of these steps. *)
Theorem C73_fit_apply : forall nsweep kx res, proper (tensors kx N) -> sites (tensors kx N) = dims ->
  fit_apply nsweep kx = Ok res ->
  proper (tensors res N) /\ sites (tensors res N) = dims /\
  (forall j, 2 <= j <= N -> right_orth r0 r1 radd rmul conj (res j)) /\
  exists l, length l = nsweep * (2 * (N - 1)) /\
    (forall c, Forall2 lt c dims -> last l (state kx) c = state res c) /\
    dist2 dims goal (state kx) = radd (dist2 dims goal (state res)) (travelled dims (state kx) l).
Proof.
  intros nsweep kx res P S E.
  destruct (fit_apply_ok r0 r1 radd rmul rsub ropp rdiv rinv conj FT conj0 conj1 conj_add conj_mul conj_conj N HN fac x K XP KP split (fun _ k => k = r1) exact_one SL SR (fun _ _ H => H) position1 PO nsweep kx res P S E)
    as (A & B & C & _ & l & L1 & L2 & L3).
  split; [apply link_iff; assumption|]. split.
  { unfold sites, outs, tensors. rewrite !map_map. apply map_ext_in. intros j Hj. apply in_seq in Hj. apply B. lia. }
  split; [exact C|]. exists l. rewrite dims_D. auto.
Qed.

(** So, when sums of squares |z|^2 are nonnegative, the fit is never further from fac K|x> than the initial guess. *)
Theorem C73_never_further : forall nonneg : R -> Prop, nonneg r0 -> (forall a b, nonneg a -> nonneg b -> nonneg (radd a b)) ->
  (forall z, nonneg (rmul (conj z) z)) ->
  forall nsweep kx res, proper (tensors kx N) -> sites (tensors kx N) = dims -> fit_apply nsweep kx = Ok res ->
  nonneg (rsub (dist2 dims goal (state kx)) (dist2 dims goal (state res))).
Proof.
  intros nonneg N0 NA NS nsweep kx res P S E. destruct (C73_fit_apply nsweep kx res P S E) as (_ & _ & _ & l & _ & _ & ->).
  replace (rsub _ _) with (travelled dims (state kx) l) by ring.
  assert (NB : forall n f, (forall i, nonneg (f i)) -> nonneg (bsum r0 radd n f)) by (intros n f Hf; induction n; cbn; auto).
  assert (NC : forall ds f, (forall c, nonneg (f c)) -> nonneg (csum r0 radd ds f)).
  { induction ds as [|d ds IH]; intros f Hf; cbn [csum]; [apply Hf|]. apply NB. intros i. now apply IH. }
  generalize (state kx). clear - N0 NA NS NC. induction l as [|v l IH]; intros u; cbn [FapSpec.travelled]; [exact N0|].
  apply NA; [|apply IH]. apply NC. intros c. apply NS.
Qed.

(** After at least one sweep no state that differs from the result in the first two tensors only is closer: its distance is
    larger by exactly its distance to the result. *)
Theorem C73_closest : forall nsweep kx res, proper (tensors kx N) -> sites (tensors kx N) = dims -> nsweep <> 0 ->
  fit_apply nsweep kx = Ok res ->
  exists p q rest, tensors res N = p :: q :: rest /\ forall p' q', proper (p' :: q' :: rest) -> sites (p' :: q' :: rest) = dims ->
    dist2 dims goal (amp (p' :: q' :: rest)) =
    radd (dist2 dims goal (state res)) (dist2 dims (state res) (amp (p' :: q' :: rest))).
Proof.
  intros nsweep kx res P S Nz E.
  destruct (fit_apply_ok r0 r1 radd rmul rsub ropp rdiv rinv conj FT conj0 conj1 conj_add conj_mul conj_conj N HN fac x K XP KP split (fun _ k => k = r1) exact_one SL SR (fun _ _ H => H) position1 PO nsweep kx res P S E)
    as (A & B & C & Cl & _). specialize (Cl Nz).
  pose (rest := sg res 3 (N - 2)). exists (res 1), (res 2), rest.
  assert (Cut : forall f : nat -> tensor, tensors f N = f 1 :: f 2 :: sg f 3 (N - 2)).
  { intros f. unfold tensors. change (map f (seq 1 N)) with (sg f 1 N). rewrite (sg_cut f N 1 ltac:(lia)).
    change (sg f 1 (1 - 1)) with (@nil tensor). replace (N - 1 - 1) with (N - 2) by lia. reflexivity. }
  split; [apply Cut|]. intros p' q' P' S'. rewrite dims_D in *.
  assert (W : sg (upd (upd res 1 p') (1 + 1) q') 1 N = p' :: q' :: rest).
  { pose proof (Cut (upd (upd res 1 p') (1 + 1) q')) as Q. unfold tensors in Q. unfold sg at 1. rewrite Q.
    unfold upd at 1 2 3 4. cbn [Nat.eqb Nat.add]. do 2 f_equal. apply sg_ext. intros j Hj. unfold upd.
    rewrite !(proj2 (Nat.eqb_neq _ _)) by lia. reflexivity. }
  rewrite <- W.
  assert (D2 : exists ds, D N K = ko (K 1) :: ko (K 2) :: ds).
  { unfold D. rewrite (sg_cut _ N 1 ltac:(lia)). eexists. reflexivity. }
  destruct D2 as [ds D2]. rewrite D2 in S'. cbn [sites map] in S'. injection S' as S1 S2 _.
  destruct A as (A1 & A2 & A3). cbn in P'. destruct P' as (P1 & P2 & P3).
  apply Cl; cbn [Nat.add].
  - congruence.
  - rewrite B by lia. assumption.
  - congruence.
  - rewrite B by lia. assumption.
  - unfold rest in P3. destruct (Nat.eq_dec N 2) as [E2|].
    + rewrite E2 in P3. cbn in P3. rewrite P3, <- E2. congruence.
    + replace (N - 2) with (Datatypes.S (N - 3)) in P3 by lia. apply sg_linked in P3. destruct P3 as [P3 _]. rewrite <- P3. symmetry. apply A3. lia.
Qed.

(** If |z|^2 is definite, a guess that already is fac K|x> is returned unchanged. *)
Theorem C73_exact_guess : definite r0 radd rmul conj -> forall nsweep kx res, proper (tensors kx N) -> sites (tensors kx N) = dims ->
  (forall c, Forall2 lt c dims -> state kx c = goal c) -> fit_apply nsweep kx = Ok res ->
  forall c, Forall2 lt c dims -> state res c = goal c.
Proof.
  intros DEF nsweep kx res P S G E. destruct (C73_fit_apply nsweep kx res P S E) as (_ & _ & _ & l & _ & L2 & L3).
  assert (Z : forall u v, exists m, dist2 dims u v = square_sum r0 radd rmul conj m /\ (Forall (fun z => z = r0) m -> forall c, Forall2 lt c dims -> v c = u c)).
  { intros u v. exists (map (fun c => rsub (u c) (v c)) (confs dims)). split.
    - unfold FitSpec.dist2. rewrite (csum_lsum r0 r1 radd rmul rsub ropp RT). induction (confs dims) as [|c cs IH]; cbn; [reflexivity|]. rewrite IH. f_equal. ring.
    - intros F c Hc. rewrite Forall_map, Forall_forall in F. specialize (F c).
      assert (I : In c (confs dims)).
      { clear - Hc. induction Hc as [|i p c ps Hi Hc IH]; cbn; [auto|]. apply in_flat_map. exists i. split; [apply in_seq; lia|]. now apply in_map. }
      specialize (F I). cbn beta in F. transitivity (radd (v c) (rsub (u c) (v c))); [rewrite F; ring|ring]. }
  assert (SA : forall m m', square_sum r0 radd rmul conj (m ++ m') = radd (square_sum r0 radd rmul conj m) (square_sum r0 radd rmul conj m')).
  { intros m m'. induction m as [|z m IH]; cbn; [ring|]. rewrite IH. ring. }
  assert (T : forall l u, exists m, travelled dims u l = square_sum r0 radd rmul conj m).
  { intros l'. induction l' as [|v l' IH]; intros u; [exists []; reflexivity|]. destruct (IH v) as [m M]. destruct (Z u v) as (m0 & M0 & _).
    exists (m0 ++ m). cbn [FapSpec.travelled]. now rewrite SA, M, M0. }
  assert (Z0 : dist2 dims goal (state kx) = r0).
  { unfold FitSpec.dist2. rewrite (csum_lsum r0 r1 radd rmul rsub ropp RT).
    assert (Q : forall cs, (forall c, In c cs -> Forall2 lt c dims) -> lsum r0 radd cs (fun c => rmul (conj (rsub (goal c) (state kx c))) (rsub (goal c) (state kx c))) = r0).
    { induction cs as [|c cs IH]; intros Hc; cbn [lsum]; [reflexivity|]. rewrite IH by (intros; apply Hc; now right). rewrite G by (apply Hc; now left). ring. }
    apply Q. intros c. apply in_confs. }
  destruct (Z goal (state res)) as (m & M & F). destruct (T l (state kx)) as [m' M']. rewrite Z0, M, M', <- SA in L3. symmetry in L3.
  apply DEF in L3. apply Forall_app in L3 as [L3 _]. apply F. exact L3.
Qed.

(** It returns if the decompositions it calls do. *)
Theorem C73_total : (forall f, exists g, position1 f = Ok g) -> (forall sw b d w, exists r, split sw b d w = Ok r) ->
  forall nsweep kx, exists res, fit_apply nsweep kx = Ok res.
Proof.
  intros TP TS nsweep kx. unfold FapModel.fit_apply. destruct (TP (fun j => dagt conj (kx j))) as [kx1 E1]. rewrite E1. cbn [obind].
  assert (ST : forall sw b ha s, exists s', bond_step r0 radd rmul conj fac x K split sw b ha s = Ok s').
  { intros sw b ha s. unfold bond_step. match goal with |- context [split sw b ?d ?w] => destruct (TS sw b d w) as [[p q] Ep]; rewrite Ep end.
    cbn [obind]. destruct (ha =? 1)%Z; eauto. }
  assert (DN : forall sw m fuel s, m + 1 <= fuel -> exists s', bond_loop r0 radd rmul conj N fac x K split fuel sw (Z.of_nat (m + 1)) 2 s = Ok s').
  { intros sw. induction m as [|m IH]; intros fuel s Hf; (destruct fuel as [|fuel]; [lia|]); cbn [bond_loop]; change (2 <=? 2)%Z with true; cbn iota;
      (match goal with |- context [bond_step _ _ _ _ _ _ _ _ ?a ?b ?c ?d] => destruct (ST a b c d) as [s1 Es]; rewrite Es end); cbn [obind]; unfold sweepnext; change (2 =? 1)%Z with false; cbn iota.
    - change (Z.of_nat (0 + 1) + -1 =? 1 - 1)%Z with true. cbn iota. exists s1. destruct fuel; reflexivity.
    - replace (Z.of_nat (Datatypes.S m + 1) + -1 =? 1 - 1)%Z with false by (symmetry; apply Z.eqb_neq; lia). cbn iota.
      replace (Z.of_nat (Datatypes.S m + 1) + -1)%Z with (Z.of_nat (m + 1)) by lia. apply IH. lia. }
  assert (UP : forall sw m fuel b s, (b + m + 1 = N)%nat -> 1 <= b -> m + 1 + (N - 1) <= fuel -> exists s', bond_loop r0 radd rmul conj N fac x K split fuel sw (Z.of_nat b) 1 s = Ok s').
  { intros sw. induction m as [|m IH]; intros fuel b s Hm Hb Hf; (destruct fuel as [|fuel]; [lia|]); cbn [bond_loop]; change (1 <=? 2)%Z with true; cbn iota;
      (match goal with |- context [bond_step _ _ _ _ _ _ _ _ ?a ?b ?c ?d] => destruct (ST a b c d) as [s1 Es]; rewrite Es end); cbn [obind]; unfold sweepnext; change (1 =? 1)%Z with true; cbn iota.
    - replace (Z.of_nat b + 1 =? Z.of_nat N + 2 - 2)%Z with true by (symmetry; apply Z.eqb_eq; lia). cbn iota.
      replace (Z.of_nat b + 1 - 1)%Z with (Z.of_nat ((b - 1) + 1)) by lia. change (1 + 1)%Z with 2%Z. apply DN. lia.
    - replace (Z.of_nat b + 1 =? Z.of_nat N + 2 - 2)%Z with false by (symmetry; apply Z.eqb_neq; lia). cbn iota.
      replace (Z.of_nat b + 1)%Z with (Z.of_nat (b + 1)) by lia. apply IH; lia. }
  assert (SW : forall left sw s, exists s', sweeps_loop r0 radd rmul conj N fac x K split left sw s = Ok s').
  { induction left as [|left IH]; intros sw s; cbn [sweeps_loop]; [eauto|].
    destruct (UP sw (N - 2) (2 * N) 1 s) as [s1 Es]; [lia|lia|lia|]. change (Z.of_nat 1) with 1%Z in Es. rewrite Es. cbn [obind]. apply IH. }
  match goal with |- context [sweeps_loop _ _ _ _ _ _ _ _ _ ?a ?b ?c] => destruct (SW a b c) as [s Es]; rewrite Es end. cbn [obind]. eauto.
Qed.

(** * Normalize=true *)
Context (iszero : R -> bool) (ISZ : forall z, iszero z = true <-> z = r0).
(** norm(w) is real and, unless it is 0, its square is the sum of the squared elements. *)
Context (nrm : wave -> R) (NR : forall w, conj (nrm w) = nrm w) (NS : forall w, nrm w <> r0 -> rmul (nrm w) (nrm w) = wsq r0 radd rmul conj w).
Notation fit_apply_args := (fit_apply_args r0 r1 radd rmul rdiv conj iszero nrm).
Notation overlap := (overlap r0 radd rmul conj).
Lemma conj_one_div z : z <> r0 -> conj z = z -> conj (rdiv r1 z) = rdiv r1 z.
Proof.
  intros Hz Cz. assert (X : rmul (conj (rdiv r1 z)) z = r1).
  { rewrite <- Cz at 2. rewrite <- conj_mul. replace (rmul (rdiv r1 z) z) with r1 by (field; assumption). exact conj1. }
  transitivity (rdiv (rmul (conj (rdiv r1 z)) z) z); [field; assumption|]. now rewrite X.
Qed.
Lemma normalized_ok sw b d w p q : normalized rdiv iszero nrm split sw b d w = Ok (p, q) ->
  tl p = wl w /\ tp p = wp1 w /\ tp q = wp2 w /\ tr q = wr w /\ tr p = tl q /\ exists k, (nrm w <> r0 /\ k = rdiv r1 (nrm w)) /\
  forall a s s' e, a < wl w -> s < wp1 w -> s' < wp2 w -> e < wr w -> bsum r0 radd (tr p) (fun c => rmul (te p a s c) (te q c s' e)) = rmul k (we w a s s' e).
Proof.
  unfold normalized. destruct (iszero (nrm w)) eqn:Z; [discriminate|]. intros E.
  assert (Nz : nrm w <> r0) by (intros H; apply ISZ in H; congruence).
  destruct (SE _ _ _ _ _ _ E) as (A1 & A2 & A3 & A4 & A5 & A6). cbn [wl wp1 wp2 wr we] in *. repeat (split; [assumption|]). exists (rdiv r1 (nrm w)). split; [auto|].
  intros. rewrite A6 by assumption. field. assumption.
Qed.

(** With Normalize, after at least one sweep the result is a normalised state (right-orthogonal after site 1), and a
    multiple n of it is the orthogonal projection of fac K|x> on the states that differ from it in the first two tensors
    only: such a state overlaps fac K|x> exactly n times as much as it overlaps the result. *)
Theorem C73_normalize : forall nsweep kx res, proper (tensors kx N) -> sites (tensors kx N) = dims -> nsweep <> 0 ->
  fit_apply_args true N fac x K split position1 nsweep kx = Ok res ->
  proper (tensors res N) /\ sites (tensors res N) = dims /\
  (forall j, 2 <= j <= N -> right_orth r0 r1 radd rmul conj (res j)) /\
  overlap dims (state res) (state res) = r1 /\
  exists n p q rest, n <> r0 /\ conj n = n /\ tensors res N = p :: q :: rest /\
    forall p' q', proper (p' :: q' :: rest) -> sites (p' :: q' :: rest) = dims ->
      overlap dims (amp (p' :: q' :: rest)) goal = rmul n (overlap dims (amp (p' :: q' :: rest)) (state res)).
Proof.
  intros nsweep kx res P S Nz E. unfold FapModel.fit_apply_args in E.
  assert (SLn : forall sw b, splitl_ok r0 r1 radd rmul conj (normalized rdiv iszero nrm split sw b true)).
  { intros sw b w p q H. unfold normalized in H. destruct (iszero (nrm w)); [discriminate|]. exact (SL _ _ _ _ _ H). }
  assert (SRn : forall sw b, splitr_ok r0 r1 radd rmul conj (normalized rdiv iszero nrm split sw b false)).
  { intros sw b w p q H. unfold normalized in H. destruct (iszero (nrm w)); [discriminate|]. exact (SR _ _ _ _ _ H). }
  destruct (fit_apply_last r0 r1 radd rmul rsub ropp rdiv rinv conj FT conj0 conj1 conj_add conj_mul conj_conj N HN fac x K XP KP (normalized rdiv iszero nrm split)
    (fun w k => nrm w <> r0 /\ k = rdiv r1 (nrm w)) normalized_ok SLn SRn position1 PO nsweep kx res P S E) as (A & B & C & Cl).
  destruct (Cl Nz) as (w & k & (Nw & ->) & Nm & Ov). rewrite (conj_one_div _ Nw (NR w)) in Nm, Ov.
  split; [apply link_iff; assumption|]. split.
  { unfold sites, outs, tensors. rewrite !map_map. apply map_ext_in. intros j Hj. apply in_seq in Hj. apply B. lia. }
  split; [exact C|]. rewrite dims_D. split; [rewrite Nm, <- NS by assumption; field; assumption|].
  pose (rest := sg res 3 (N - 2)). exists (nrm w), (res 1), (res 2), rest.
  assert (Cut : forall f : nat -> tensor, tensors f N = f 1 :: f 2 :: sg f 3 (N - 2)).
  { intros f. unfold tensors. change (map f (seq 1 N)) with (sg f 1 N). rewrite (sg_cut f N 1 ltac:(lia)).
    change (sg f 1 (1 - 1)) with (@nil tensor). replace (N - 1 - 1) with (N - 2) by lia. reflexivity. }
  split; [exact Nw|]. split; [apply NR|]. split; [apply Cut|]. intros p' q' P' S'.
  assert (W : sg (upd (upd res 1 p') 2 q') 1 N = p' :: q' :: rest).
  { pose proof (Cut (upd (upd res 1 p') 2 q')) as Q. unfold tensors in Q. unfold sg at 1. rewrite Q.
    unfold upd at 1 2 3 4. cbn [Nat.eqb Nat.add]. do 2 f_equal. apply sg_ext. intros j Hj. unfold upd.
    rewrite !(proj2 (Nat.eqb_neq _ _)) by lia. reflexivity. }
  rewrite <- W.
  assert (D2 : exists ds, D N K = ko (K 1) :: ko (K 2) :: ds).
  { unfold D. rewrite (sg_cut _ N 1 ltac:(lia)). eexists. reflexivity. }
  destruct D2 as [ds D2]. rewrite D2 in S'. cbn [sites map] in S'. injection S' as S1 S2 _.
  destruct A as (A1 & A2 & A3). cbn in P'. destruct P' as (P1 & P2 & P3).
  rewrite Ov.
  - unfold target. field. assumption.
  - congruence.
  - rewrite B by lia. assumption.
  - congruence.
  - rewrite B by lia. assumption.
  - unfold rest in P3. destruct (Nat.eq_dec N 2) as [E2|].
    + rewrite E2 in P3. cbn in P3. rewrite P3, <- E2. congruence.
    + replace (N - 2) with (Datatypes.S (N - 3)) in P3 by lia. apply sg_linked in P3. destruct P3 as [P3 _]. rewrite <- P3. symmetry. apply A3. lia.
Qed.
(** Normalize=false is the case of the theorems above. *)
Remark no_normalize : forall nsweep kx, fit_apply_args false N fac x K split position1 nsweep kx = fit_apply nsweep kx.
Proof. reflexivity. Qed.
End Props.

(** * A case that meets the hypotheses *)
Section Ex.
Context {R : Type} (r0 r1 : R) (radd rmul rsub : R -> R -> R) (ropp : R -> R).
Context (RT : ring_theory r0 r1 radd rmul rsub ropp eq).
Add Ring RRfape : RT.
Notation tensor := (@tensor R).
Notation wave := (@wave R).
Notation bsum := (bsum r0 radd).
Notation delta := (delta r0 r1).
Notation conj := (fun z : R => z).
(** An exact factorisation that always exists: one factor only joins two Indices. *)
Definition ex_split (sw b : nat) (d : bool) (w : wave) : outcome (tensor * tensor) :=
  if d then Ok (mkT (wl w) (wp1 w) (wl w * wp1 w) true (fun a s c => delta (a + wl w * s) c),
                mkT (wl w * wp1 w) (wp2 w) (wr w) (wj w) (fun c s' b => we w (c mod wl w) (c / wl w) s' b))
  else Ok (mkT (wl w) (wp1 w) (wr w * wp2 w) true (fun a s c => we w a s (c / wr w) (c mod wr w)),
           mkT (wr w * wp2 w) (wp2 w) (wr w) (wj w) (fun c s' b => delta (b + wr w * s') c)).
(** position(1) of three sites. *)
Definition ex_pos (f : nat -> tensor) : outcome (nat -> tensor) :=
  let p2 := tp (f 2) in let p3 := tp (f 3) in
  Ok (fun j => if j =? 1 then mkT 1 (tp (f 1)) (p2 * p3) true (fun _ s a => amplitude r0 r1 radd rmul (tensors f 3) [s; a mod p2; a / p2])
    else if j =? 2 then mkT (p2 * p3) p2 p3 true (fun a s b => delta (s + p2 * b) a)
    else mkT p3 p3 1 false (fun a s _ => delta s a)).

Lemma del_sum n i (f : nat -> R) : i < n -> bsum n (fun c => rmul (delta i c) (f c)) = f i.
Proof. apply (bsum_delta r0 r1 radd rmul rsub ropp RT). Qed.
Lemma del_pair m n c c' : c < m * n -> c' < m * n ->
  bsum n (fun s => bsum m (fun a => rmul (delta (a + m * s) c) (delta (a + m * s) c'))) = delta c c'.
Proof.
  intros H H'. rewrite <- (bsum_prod r0 r1 radd rmul rsub ropp RT m n (fun i => rmul (delta i c) (delta i c'))).
  transitivity (bsum (m * n) (fun i => rmul (delta c i) (delta i c'))); [|now rewrite del_sum].
  apply (bsum_ext r0 radd). intros i _. f_equal. unfold BigSum.delta. now rewrite Nat.eqb_sym.
Qed.
Lemma ex_exact sw b d : split_exact r0 radd rmul (ex_split sw b d).
Proof.
  intros w p q E. destruct d; injection E as <- <-; cbn [tl tp tr te]; (repeat match goal with |- _ /\ _ => split end); auto; intros a s s' e Ha Hs Hs' He.
  - rewrite del_sum by nia. now rewrite pmod, pdiv by assumption.
  - transitivity (bsum (wr w * wp2 w) (fun c => rmul (delta (e + wr w * s') c) (we w a s (c / wr w) (c mod wr w)))).
    + apply (bsum_ext r0 radd). intros c _. ring.
    + rewrite del_sum by nia. now rewrite pmod, pdiv by assumption.
Qed.
Lemma ex_left sw b : splitl_ok r0 r1 radd rmul conj (ex_split sw b true).
Proof.
  intros w p q E. injection E as <- <-. split; [|split; reflexivity]. intros c c' Hc Hc'. cbn [tl tp tr te] in *.
  rewrite (bsum_swap r0 r1 radd rmul rsub ropp RT). now apply del_pair.
Qed.
Lemma ex_right sw b : splitr_ok r0 r1 radd rmul conj (ex_split sw b false).
Proof.
  intros w p q E. injection E as <- <-. split; [|split; reflexivity]. intros c c' Hc Hc'. cbn [tl tp tr te] in *.
  rewrite (bsum_swap r0 r1 radd rmul rsub ropp RT). now apply del_pair.
Qed.
Lemma ex_position : position1_ok r0 r1 radd rmul conj 3 ex_pos.
Proof.
  intros f g _ E. injection E as <-. cbn [tensors seq map Nat.eqb]. split; [cbn; auto|]. split; [reflexivity|]. split.
  - intros c Hc. cbn [sites map] in Hc.
    inversion Hc as [|s1 ? c1 ? H1 Hc1]; subst. inversion Hc1 as [|s2 ? c2 ? H2 Hc2]; subst. inversion Hc2 as [|s3 ? c3 ? H3 Hc3]; subst. inversion Hc3; subst.
    unfold amplitude at 1. cbn [MpsSpec.chain tr te].
    transitivity (bsum (tp (f 2) * tp (f 3)) (fun a => rmul (delta (s2 + tp (f 2) * s3) a) (amplitude r0 r1 radd rmul [f 1; f 2; f 3] [s1; a mod tp (f 2); a / tp (f 2)]))).
    + apply (bsum_ext r0 radd). intros a Ha.
      transitivity (rmul (amplitude r0 r1 radd rmul (tensors f 3) [s1; a mod tp (f 2); a / tp (f 2)])
        (bsum (tp (f 3)) (fun e => rmul (delta s3 e) (delta (s2 + tp (f 2) * e) a)))).
      * f_equal. apply (bsum_ext r0 radd). intros e He. cbn [BigSum.bsum]. unfold BigSum.delta. cbn. ring.
      * rewrite del_sum by assumption. cbn [tensors seq map]. ring.
    + rewrite del_sum by nia. rewrite pmod, pdiv by assumption. reflexivity.
  - intros j Hj. destruct (Nat.eqb_spec j 1); [lia|]. destruct (Nat.eqb_spec j 2).
    + intros c c' Hc Hc'. cbn [tl tp tr te] in *. now apply del_pair.
    + intros c c' Hc Hc'. cbn [tl tp tr te] in *. rewrite (bsum_1 r0 r1 radd rmul rsub ropp RT).
      transitivity (bsum (tp (f 3)) (fun i => rmul (delta c i) (delta i c'))); [|now rewrite del_sum].
      apply (bsum_ext r0 radd). intros i _. f_equal. unfold BigSum.delta. now rewrite Nat.eqb_sym.
Qed.
End Ex.

(** Three sites of dimension 2, rational numbers.  x = |000> + 2|111>, K adds 1 on each site: sum_j X_j with a link of
    dimension 2; the guess is |000>.  K|x> is not the guess, and two sweeps return. *)
Definition exx (j : nat) : @tensor Qc := mkT (if j =? 1 then 1 else 2) 2 (if j =? 3 then 1 else 2) (j <? 3) (fun a s b =>
  if ((j =? 1) || (a =? s)) && ((j =? 3) || (b =? s)) then (if (j =? 3) && (s =? 1) then 1 + 1 else 1)%Qc else 0%Qc).
Definition exK (j : nat) : kten Qc := mkK (if j =? 1 then 1 else 2) 2 2 (if j =? 3 then 1 else 2) (fun w s s' v =>
  let w := if j =? 1 then 0 else w in let v := if j =? 3 then 1 else v in
  if (w =? v) && (s =? s') then 1%Qc else if (w =? 0) && (v =? 1) && negb (s =? s') then 1%Qc else 0%Qc).
Definition exG (j : nat) : @tensor Qc := mkT 1 2 1 (j <? 3) (fun _ s _ => if s =? 0 then 1%Qc else 0%Qc).
Example C73_nonvacuous :
  let app := applied 0%Qc 1%Qc Qcplus Qcmult (tensors exK 3) (tensors exx 3) in
  let dist := dist2 0%Qc Qcplus Qcmult Qcminus (fun z => z) [2; 2; 2] in
  let state f := amplitude 0%Qc 1%Qc Qcplus Qcmult (tensors f 3) in
  app [0; 0; 1] = 1%Qc /\ app [1; 1; 0] = (1 + 1)%Qc /\ app [0; 0; 0] = 0%Qc /\
  exists res, fit_apply 0%Qc 1%Qc Qcplus Qcmult (fun z => z) 3 1%Qc exx exK (ex_split 0%Qc 1%Qc) (ex_pos 0%Qc 1%Qc Qcplus Qcmult) 2 exG = Ok res /\
    (dist (fun c => 1 * app c)%Qc (state exG) - dist (fun c => 1 * app c)%Qc (state res) >= 0)%Qc.
Proof.
  cbv zeta. split; [apply Qc_is_canon; vm_compute; reflexivity|]. split; [apply Qc_is_canon; vm_compute; reflexivity|].
  split; [apply Qc_is_canon; vm_compute; reflexivity|].
  assert (XP : proper (tensors exx 3)) by (cbn; auto). assert (KP : kproper (tensors exK 3)) by (cbn; auto).
  destruct (C73_total 0%Qc 1%Qc Qcplus Qcmult (fun z => z) 3 ltac:(lia) 1%Qc exx exK (ex_split 0%Qc 1%Qc) (ex_pos 0%Qc 1%Qc Qcplus Qcmult)) with (nsweep := 2) (kx := exG) as [res E].
  - intros f. eexists. reflexivity.
  - intros sw b d w. destruct d; eexists; reflexivity.
  - exists res. split; [exact E|].
    apply (C73_never_further 0%Qc 1%Qc Qcplus Qcmult Qcminus Qcopp Qcdiv Qcinv (fun z => z) Qcft eq_refl eq_refl (fun _ _ => eq_refl) (fun _ _ => eq_refl) (fun _ => eq_refl)
      3 ltac:(lia) 1%Qc exx exK XP KP (ex_split 0%Qc 1%Qc) (ex_exact _ _ _ _ _ _ (F_R Qcft)) (ex_left _ _ _ _ _ _ (F_R Qcft)) (ex_right _ _ _ _ _ _ (F_R Qcft))
      (ex_pos 0%Qc 1%Qc Qcplus Qcmult) (ex_position _ _ _ _ _ _ (F_R Qcft)) (fun z => 0 <= z)%Qc) with (nsweep := 2); auto.
    + apply Qcle_refl.
    + intros a b Ha Hb. replace 0%Qc with (0 + 0)%Qc by ring. now apply Qcplus_le_compat.
    + intros z. change (0 <= Qred (this z * this z))%Q. rewrite Qred_correct. destruct z as [[n d] C]. unfold Qle. cbn. nia.
    + cbn. auto.
Qed.

(** The same with Normalize and K = X_2 + 2 X_3, for which |K|x>| = 5. *)
Definition exK2 (j : nat) : kten Qc := mkK (if j =? 1 then 1 else 2) 2 2 (if j =? 3 then 1 else 2) (fun w s s' v =>
  let w := if j =? 1 then 0 else w in let v := if j =? 3 then 1 else v in
  if (w =? v) && (s =? s') then 1%Qc else if (w =? 0) && (v =? 1) && negb (s =? s') then (if j =? 1 then 0 else if j =? 2 then 1 else 1 + 1)%Qc else 0%Qc).
Definition ex_zero (z : Qc) : bool := if Qc_eq_dec z 0 then true else false.
Definition ex_nrm (w : @wave Qc) : Qc :=
  let five := (1 + (1 + 1) * (1 + 1))%Qc in
  if Qc_eq_dec (wsq 0%Qc Qcplus Qcmult (fun z => z) w) (five * five)%Qc then five else 0%Qc.
Example C73_normalize_nonvacuous :
  let app := applied 0%Qc 1%Qc Qcplus Qcmult (tensors exK2 3) (tensors exx 3) in
  let state f := amplitude 0%Qc 1%Qc Qcplus Qcmult (tensors f 3) in
  app [0; 0; 1] = (1 + 1)%Qc /\ app [0; 1; 0] = 1%Qc /\ app [1; 0; 1] = (1 + 1)%Qc /\
  exists res, fit_apply_args 0%Qc 1%Qc Qcplus Qcmult Qcdiv (fun z => z) ex_zero ex_nrm true 3 1%Qc exx exK2 (ex_split 0%Qc 1%Qc) (ex_pos 0%Qc 1%Qc Qcplus Qcmult) 1 exG = Ok res /\
    overlap 0%Qc Qcplus Qcmult (fun z => z) [2; 2; 2] (state res) (state res) = 1%Qc.
Proof.
  cbv zeta. split; [apply Qc_is_canon; vm_compute; reflexivity|]. split; [apply Qc_is_canon; vm_compute; reflexivity|].
  split; [apply Qc_is_canon; vm_compute; reflexivity|].
  assert (XP : proper (tensors exx 3)) by (cbn; auto). assert (KP : kproper (tensors exK2 3)) by (cbn; auto).
  set (o := fit_apply_args _ _ _ _ _ _ _ _ _ _ _ _ _ _ _ _ _).
  assert (T : match o with Ok _ => true | _ => false end = true) by (vm_compute; reflexivity).
  destruct o as [res| |] eqn:E; try discriminate T. exists res. split; [reflexivity|]. unfold o in E.
  apply (C73_normalize 0%Qc 1%Qc Qcplus Qcmult Qcminus Qcopp Qcdiv Qcinv (fun z => z) Qcft eq_refl eq_refl (fun _ _ => eq_refl) (fun _ _ => eq_refl) (fun _ => eq_refl)
      3 ltac:(lia) 1%Qc exx exK2 XP KP (ex_split 0%Qc 1%Qc) (ex_exact _ _ _ _ _ _ (F_R Qcft)) (ex_left _ _ _ _ _ _ (F_R Qcft)) (ex_right _ _ _ _ _ _ (F_R Qcft))
      (ex_pos 0%Qc 1%Qc Qcplus Qcmult) (ex_position _ _ _ _ _ _ (F_R Qcft)) ex_zero) with (nrm := ex_nrm) (nsweep := 1) (kx := exG); auto.
  - intros z. unfold ex_zero. destruct (Qc_eq_dec z 0); split; intros; congruence.
  - intros w. unfold ex_nrm. destruct (Qc_eq_dec _ _) as [->|]; [reflexivity|congruence].
  - cbn. auto.
Qed.

Print Assumptions C73_fit_apply.
Print Assumptions C73_never_further.
Print Assumptions C73_closest.
Print Assumptions C73_exact_guess.
Print Assumptions C73_total.
Print Assumptions C73_normalize.
