(** The elements of the tensor that contract computes. *)
From Coq Require Import List ZArith Lia Bool Arith Permutation Ring.
From Verif Require Import Util RangeModel RangeSpec RangeProofs TensorModel TensorSpec TensorProofs SemProofs ContractModel ContractProofs.
Import ListNotations.

Local Arguments Nat.sub : simpl never.
Local Arguments Nat.div : simpl never.
Local Arguments Nat.modulo : simpl never.

Section Sem.
Context {R : Type} (r0 r1 : R) (radd rmul : R -> R -> R) (is0 : R -> bool).
Context (SR : semi_ring_theory r0 r1 radd rmul (@eq R)).
Context (is0_spec : forall x, is0 x = true -> x = r0).
Add Ring RR2 : SR.
Variable d : Z -> nat.

Notation elt := (elt r0 d).
Notation sum_over := (sum_over r0 radd Z.eqb d).

Lemma full_buf (l : labels) (junk : nat -> R) : full d l (map junk (seq 0 (dim (range_init (map d l))))).
Proof.
  unfold full. rewrite map_length, seq_length, dim_size. unfold range_init. rewrite map_ext_range_init. apply size_fold.
Qed.

Lemma full_size l (A : list R) : full d l A -> length A = size (map d l).
Proof. unfold full. intros ->. symmetry. apply size_fold. Qed.

Lemma size_perm (l l' : labels) : Permutation l l' -> size (map d l) = size (map d l').
Proof. intros HP; induction HP; simpl; nia. Qed.

Lemma full_perm l l' (A : list R) : Permutation l l' -> full d l A -> full d l' A.
Proof. unfold full. rewrite <- !size_fold. intros HP ->. now apply size_perm. Qed.

Lemma elt_app (a b : labels) (D : list R) s : elt (a ++ b) D s =
  nth (enc (map d a) (map s a) + size (map d a) * enc (map d b) (map s b)) D r0.
Proof. unfold TensorSpec.elt. rewrite colmajor_enc, !map_app, enc_app by now rewrite !map_length. reflexivity. Qed.

(** one operand as a matrix *)
Lemma copy_relabel P l l' (A to : list R) : NoDup l' -> is_perm (length l') P -> l = through P 0%Z l' ->
  (forall x, In x l' -> 0 < d x) -> full d l A -> full d l' to ->
  exists vr A', permuteRange (range_init (map d l)) P = Ok vr /\ tassign vr A (range_init (map d l')) to = Ok A' /\
    length A' = length to /\ forall s, inrange d l' s -> elt l' A' s = elt l A s.
Proof.
  intros HN HP Hl Hpos FA FT.
  destruct (permuteRange_relabel d P l l' 0%Z HP Hl) as (vr & EV & _).
  destruct (transform_relabel Z.eqb d Zeqb_spec (fun b _ : R => b) r0 r0 P l l' 0%Z A to vr) as (A' & E & HL & HE); auto.
  exists vr, A'. auto.
Qed.

Variables (ai bi ci : labels) (A B C : list R) (alpha beta : R) (junk : nat -> R).
Hypothesis NA : NoDup ai.
Hypothesis NB : NoDup bi.
Hypothesis NC : NoDup ci.
Hypothesis HC : forall x, In x ci <-> (In x ai /\ ~ In x bi) \/ (In x bi /\ ~ In x ai).
Hypothesis PA : forall x, In x ai -> 0 < d x.
Hypothesis PB : forall x, In x bi -> 0 < d x.
Hypothesis FA : full d ai A.
Hypothesis FB : full d bi B.
Hypothesis FC : full d ci C.

Definition einstein (s : Z -> nat) : R := sum_over (con ci ai) (fun t => rmul (elt ai A t) (elt bi B t)) s.

Lemma PCpos x : In x ci -> 0 < d x.
Proof. rewrite HC. intros [[H _]|[H _]]; auto. Qed.

Lemma einstein_lc lc s : Permutation lc (con ci ai) ->
  einstein s = sum_over lc (fun t => rmul (elt ai A t) (elt bi B t)) s.
Proof.
  intros HP. unfold einstein. symmetry.
  apply (sum_over_perm r0 r1 radd rmul SR Z.eqb d Zeqb_spec); auto.
  - intros t t' Ht. f_equal; now apply elt_respects.
  - eapply Permutation_NoDup; [symmetry; exact HP|]. now apply NoDup_filter.
Qed.

(** matrix product over the labels lc *)
Lemma gemm_einstein lc ua ub tA tB dA dB tC D :
  Permutation lc (con ci ai) -> Permutation ua (unc ci ai) -> Permutation ub (unc ci bi) ->
  let m := size (map d ua) in let n := size (map d ub) in let k := size (map d lc) in
  length dA = m * k -> length dB = k * n -> length D = m * n ->
  (forall s, inrange d ai s -> nth (mpos tA m k (enc (map d ua) (map s ua)) (enc (map d lc) (map s lc))) dA r0 = elt ai A s) ->
  (forall s, inrange d bi s -> nth (mpos tB k n (enc (map d lc) (map s lc)) (enc (map d ub) (map s ub))) dB r0 = elt bi B s) ->
  exists D', gemm r0 radd rmul (mrange tA m k) dA (mrange tB k n) dB (mrange tC m n) D alpha beta = Ok D' /\
    length D' = length D /\
    forall s, inrange d ci s ->
      let p := mpos tC m n (enc (map d ua) (map s ua)) (enc (map d ub) (map s ub)) in
      nth p D' r0 = radd (rmul alpha (einstein s)) (rmul beta (nth p D r0)).
Proof.
  intros Hlc Hua Hub m n k LA LB LD HA HB.
  assert (Ila : forall x, In x lc -> In x ai /\ In x bi /\ ~ In x ci).
  { intros x Hx. eapply Permutation_in in Hx; [|exact Hlc]. pose proof (proj1 (con_AB ci d ai bi HC x) Hx) as Hx'.
    unfold con in *. apply filter_In in Hx as [H1 H2]. apply filter_In in Hx' as [H3 _]. apply fc_In in H2. auto. }
  assert (Iua : forall x, In x ua <-> In x ai /\ In x ci).
  { intros x. split; intros Hx.
    - eapply Permutation_in in Hx; [|exact Hua]. unfold unc in Hx. apply filter_In in Hx as [H1 H2]. now apply inC_In in H2.
    - eapply Permutation_in; [symmetry; exact Hua|]. unfold unc. apply filter_In. rewrite inC_In. auto. }
  assert (Iub : forall x, In x ub <-> In x bi /\ In x ci).
  { intros x. split; intros Hx.
    - eapply Permutation_in in Hx; [|exact Hub]. unfold unc in Hx. apply filter_In in Hx as [H1 H2]. now apply inC_In in H2.
    - eapply Permutation_in; [symmetry; exact Hub|]. unfold unc. apply filter_In. rewrite inC_In. auto. }
  assert (Nlc : NoDup lc) by (eapply Permutation_NoDup; [symmetry; exact Hlc|]; now apply NoDup_filter).
  assert (Plc : forall x, In x lc -> 0 < d x) by (intros x Hx; apply PA; now apply Ila).
  assert (Pm : 0 < m).
  { apply size_pos. intros e He. apply in_map_iff in He as (x & <- & Hx). apply PA. now apply Iua. }
  assert (Pn : 0 < n).
  { apply size_pos. intros e He. apply in_map_iff in He as (x & <- & Hx). apply PB. now apply Iub. }
  assert (Pk : 0 < k).
  { apply size_pos. intros e He. apply in_map_iff in He as (x & <- & Hx). auto. }
  destruct (gemm_spec r0 r1 radd rmul SR tA tB tC m n k alpha dA dB beta D) as (D' & E & HL & HE); auto.
  exists D'. split; [exact E|]. split; [exact HL|]. intros s Hs. cbv zeta.
  rewrite HE.
  2:{ apply enc_lt. apply inrange_valid. intros x Hx. apply Hs. now apply Iua. }
  2:{ apply enc_lt. apply inrange_valid. intros x Hx. apply Hs. now apply Iub. }
  f_equal. f_equal. rewrite (einstein_lc lc) by auto.
  rewrite <- (sum_over_assign r0 r1 radd rmul SR Z.eqb d) by auto.
  apply (sumn_ext r0 radd). intros l Hl.
  set (t := assign Z.eqb lc (decode (map d lc) l) s).
  assert (T1 : map t lc = decode (map d lc) l).
  { apply (assign_map Z.eqb d Zeqb_spec); auto. rewrite decode_length, map_length. reflexivity. }
  assert (T2 : forall x, ~ In x lc -> t x = s x) by (intros; now apply (assign_other Z.eqb d Zeqb_spec)).
  assert (Tlc : enc (map d lc) (map t lc) = l) by (rewrite T1; now apply enc_decode).
  assert (Vlc : inrange d lc t).
  { apply inrange_valid. rewrite T1. now apply decode_valid. }
  assert (Tua : map t ua = map s ua).
  { apply map_ext_in. intros x Hx. apply T2. intros K. apply Ila in K. apply Iua in Hx. tauto. }
  assert (Tub : map t ub = map s ub).
  { apply map_ext_in. intros x Hx. apply T2. intros K. apply Ila in K. apply Iub in Hx. tauto. }
  assert (Tin : forall x, In x ai \/ In x bi -> t x < d x).
  { intros x Hx. destruct (in_dec Z.eq_dec x lc) as [K|K]; [now apply Vlc|]. rewrite T2 by auto. apply Hs.
    destruct (in_dec Z.eq_dec x ci) as [K'|K']; auto. exfalso. apply K.
    eapply Permutation_in; [symmetry; exact Hlc|]. destruct Hx as [Hx|Hx].
    - unfold con. apply filter_In. split; auto. now apply fc_In.
    - apply (con_AB ci d ai bi HC). unfold con. apply filter_In. split; auto. now apply fc_In. }
  specialize (HA t ltac:(intros x Hx; apply Tin; auto)). specialize (HB t ltac:(intros x Hx; apply Tin; auto)).
  rewrite Tua, Tlc in HA. rewrite Tub, Tlc in HB. now rewrite HA, HB.
Qed.

Theorem contract_props_spec : ai <> [] -> bi <> [] -> beta = r0 \/ unc ci ai ++ unc ci bi = ci ->
  exists p C', compute (range_init (map d ai)) (range_init (map d bi)) ai bi ci = Ok p /\
    contract_props r0 radd rmul p (range_init (map d ai)) A (range_init (map d bi)) B (range_init (map d ci)) C alpha beta junk = Ok C' /\
    length C' = length C /\
    forall s, inrange d ci s -> elt ci C' s = radd (rmul alpha (einstein s)) (rmul beta (elt ci C s)).
Proof.
  intros Ane Bne Hbeta.
  destruct (compute_spec ci NC d ai bi NA NB HC Ane Bne) as (p & lc & ua & ub & EP & Hlc & Hua & Hub & GA & GB & Dl & Dm & Dr & GC1 & GC2 & GC3).
  exists p. unfold contract_props. rewrite Dl, Dm, Dr.
  set (m := size (map d ua)). set (n := size (map d ub)). set (k := size (map d lc)).
  assert (PermA : Permutation ai (lc ++ ua)) by (rewrite Hlc, Hua; symmetry; apply split_perm).
  assert (PermB : Permutation bi (lc ++ ub)).
  { rewrite Hlc, Hub, (con_perm ci d ai bi NA NB HC). symmetry; apply split_perm. }
  (* A *)
  assert (StA : exists tA dA, (if permuteA p then
      let! vA := permuteRange (range_init (map d ai)) (ContractModel.PA p) in
      let! t := tassign vA A (newArange p) (map junk (seq 0 (dim (newArange p)))) in
      Ok (mtranspose (mat_range k m), t)
    else
      let! tr := contracted (fAtoC p) 0 in
      if (tr : bool) then Ok (mtranspose (mat_range k m), A)
      else Ok (mat_range m k, A)) = Ok (mrange tA m k, dA) /\ length dA = m * k /\
      (forall s, inrange d ai s -> nth (mpos tA m k (enc (map d ua) (map s ua)) (enc (map d lc) (map s lc))) dA r0 = elt ai A s)).
  { destruct GA as [GA1 GA2]. destruct (permuteA p).
    - destruct (GA1 eq_refl) as (HP & HT & ->).
      destruct (copy_relabel (ContractModel.PA p) ai (lc ++ ua) A (map junk (seq 0 (dim (range_init (map d (lc ++ ua)))))))
        as (vr & A' & E1 & E2 & HL & HE); auto.
      + eapply Permutation_NoDup; eauto.
      + intros x Hx. apply PA. eapply Permutation_in; [symmetry; exact PermA|auto].
      + apply full_buf.
      + exists true, A'. rewrite E1. cbn [obind]. rewrite E2. cbn [obind]. split; [reflexivity|]. split.
        * rewrite HL, map_length, seq_length, dim_size. unfold range_init. rewrite map_ext_range_init, map_app, size_app. fold k m. lia.
        * intros s Hs. rewrite <- HE, elt_app; [reflexivity|]. intros x Hx. apply Hs. eapply Permutation_in; [symmetry; exact PermA|auto].
    - destruct (GA2 eq_refl) as (tr & -> & HT). cbn [obind]. pose proof (full_size ai A FA) as LA.
      destruct tr; [exists true, A|exists false, A]; (split; [reflexivity|]); (split; [rewrite LA, HT, map_app, size_app; fold k m; lia|]);
        intros s Hs; rewrite HT at 1; rewrite elt_app; reflexivity. }
  destruct StA as (tA & dA & -> & LA & HA). cbn [obind].
  (* B *)
  assert (StB : exists tB dB, (if permuteB p then
      let! vB := permuteRange (range_init (map d bi)) (ContractModel.PB p) in
      let! t := tassign vB B (newBrange p) (map junk (seq 0 (dim (newBrange p)))) in
      Ok (mat_range k n, t)
    else
      let! tr := contracted (fBtoC p) 0 in
      if (tr : bool) then Ok (mat_range k n, B)
      else Ok (mtranspose (mat_range n k), B)) = Ok (mrange tB k n, dB) /\ length dB = k * n /\
      (forall s, inrange d bi s -> nth (mpos tB k n (enc (map d lc) (map s lc)) (enc (map d ub) (map s ub))) dB r0 = elt bi B s)).
  { destruct GB as [GB1 GB2]. destruct (permuteB p).
    - destruct (GB1 eq_refl) as (HP & HT & ->).
      destruct (copy_relabel (ContractModel.PB p) bi (lc ++ ub) B (map junk (seq 0 (dim (range_init (map d (lc ++ ub)))))))
        as (vr & B' & E1 & E2 & HL & HE); auto.
      + eapply Permutation_NoDup; eauto.
      + intros x Hx. apply PB. eapply Permutation_in; [symmetry; exact PermB|auto].
      + apply full_buf.
      + exists false, B'. rewrite E1. cbn [obind]. rewrite E2. cbn [obind]. split; [reflexivity|]. split.
        * rewrite HL, map_length, seq_length, dim_size. unfold range_init. rewrite map_ext_range_init, map_app, size_app. fold k n. lia.
        * intros s Hs. rewrite <- HE, elt_app; [reflexivity|]. intros x Hx. apply Hs. eapply Permutation_in; [symmetry; exact PermB|auto].
    - destruct (GB2 eq_refl) as (tr & -> & HT). cbn [obind]. pose proof (full_size bi B FB) as LB.
      destruct tr; [exists false, B|exists true, B]; (split; [reflexivity|]); (split; [rewrite LB, HT, map_app, size_app; fold k n; lia|]);
        intros s Hs; rewrite HT at 1; rewrite elt_app; reflexivity. }
  destruct StB as (tB & dB & -> & LB & HB). cbn [obind].
  assert (Rn : forall t r c, rn (mrange t r c) = r) by (intros [] r c; reflexivity).
  assert (Cn : forall t r c, cn (mrange t r c) = c) by (intros [] r c; reflexivity).
  rewrite !Rn, !Cn.
  change (mat_range m n) with (mrange false m n). change (mtranspose (mat_range n m)) with (mrange true m n).
  assert (PermC : Permutation (ua ++ ub) ci) by (rewrite Hua, Hub; now apply unc_perm).
  destruct (permuteC p) eqn:EPC.
  - destruct Hbeta as [Hb|Hn]; [|specialize (GC3 Hn); congruence].
    destruct (GC1 eq_refl) as (-> & HPP & HPT).
    set (D := map junk (seq 0 (dim (range_init (map d (ua ++ ub)))))).
    assert (FD : full d (ua ++ ub) D) by apply full_buf.
    destruct (gemm_einstein lc ua ub tA tB dA dB false D) as (D' & E & HL & HE); auto.
    { rewrite (full_size _ _ FD), map_app, size_app. reflexivity. }
    fold m n k in E. rewrite E. cbn [obind].
    destruct (copy_relabel (PC p) (ua ++ ub) ci D' C) as (vr & C' & E1 & E2 & HL' & HE'); auto.
    { intros; now apply PCpos. }
    { unfold full. rewrite HL. exact FD. }
    rewrite E1. cbn [obind]. rewrite E2. exists C'. split; [auto|]. split; [auto|]. split; [exact HL'|]. intros s Hs. rewrite HE' by auto.
    rewrite elt_app. specialize (HE s Hs). cbv zeta in HE. unfold mpos in HE. rewrite HE, Hb. ring.
  - specialize (GC2 eq_refl). destruct (ctrans p).
    + destruct (gemm_einstein lc ua ub tA tB dA dB true C) as (C' & E & HL & HE); auto.
      { rewrite (full_size _ _ FC), GC2, map_app, size_app. apply Nat.mul_comm. }
      fold m n k in E. rewrite E. exists C'. split; [auto|]. split; [auto|]. split; [exact HL|]. intros s Hs.
      specialize (HE s Hs). cbv zeta in HE. unfold mpos in HE.
      replace (elt ci C' s) with (elt (ub ++ ua) C' s) by now rewrite GC2 at 1.
      replace (elt ci C s) with (elt (ub ++ ua) C s) by now rewrite GC2 at 1.
      rewrite !elt_app. exact HE.
    + destruct (gemm_einstein lc ua ub tA tB dA dB false C) as (C' & E & HL & HE); auto.
      { rewrite (full_size _ _ FC), GC2, map_app, size_app. reflexivity. }
      fold m n k in E. rewrite E. exists C'. split; [auto|]. split; [auto|]. split; [exact HL|]. intros s Hs.
      specialize (HE s Hs). cbv zeta in HE. unfold mpos in HE.
      replace (elt ci C' s) with (elt (ua ++ ub) C' s) by now rewrite GC2 at 1.
      replace (elt ci C s) with (elt (ua ++ ub) C s) by now rewrite GC2 at 1.
      rewrite !elt_app. exact HE.
Qed.

Lemma con_nil_r : bi = [] -> con ci ai = [].
Proof.
  intros ->. unfold con. apply filter_nil. intros x Hx. destruct (fc ci x) eqn:E; auto.
  exfalso. apply fc_In in E. apply E, HC. simpl. tauto.
Qed.

Lemma scalar_spec a (l : labels) (D : list R) : NoDup l -> (forall x, In x ci <-> In x l) -> full d l D ->
  exists C', contractScalar radd rmul is0 a (range_init (map d l)) D l (range_init (map d ci)) C ci alpha beta = Ok C' /\
    length C' = length C /\
    forall s, inrange d ci s -> elt ci C' s = radd (rmul alpha (rmul a (elt l D s))) (rmul beta (elt ci C s)).
Proof.
  intros Nl Hl Fl. assert (HP : Permutation l ci) by (apply NoDup_Permutation; auto; intros; symmetry; apply Hl).
  destruct (calcPerm_through l ci Nl HP) as (P & E & HPm & HT).
  unfold contractScalar, calcPerm. rewrite E. cbn [obind].
  destruct (permuteRange_relabel d P l ci 0%Z HPm HT) as (vr & EV & _). rewrite EV. cbn [obind].
  destruct (is0 beta) eqn:EB.
  - destruct (transform_relabel Z.eqb d Zeqb_spec (fun b (_ : R) => rmul (rmul alpha a) b) r0 r0 P l ci 0%Z D C vr) as (C' & E' & HL & HE); auto.
    { intros; now apply PCpos. }
    exists C'. split; [exact E'|]. split; [exact HL|]. intros s Hs. rewrite HE by auto. rewrite (is0_spec _ EB). ring.
  - destruct (transform_relabel Z.eqb d Zeqb_spec (fun b c : R => radd (rmul (rmul alpha a) b) (rmul beta c)) r0 r0 P l ci 0%Z D C vr) as (C' & E' & HL & HE); auto.
    { intros; now apply PCpos. }
    exists C'. split; [exact E'|]. split; [exact HL|]. intros s Hs. rewrite HE by auto. ring.
Qed.

Theorem contract_spec : ai = [] \/ bi = [] \/ beta = r0 \/ unc ci ai ++ unc ci bi = ci ->
  exists C', contract r0 radd rmul is0 (range_init (map d ai)) A ai (range_init (map d bi)) B bi (range_init (map d ci)) C ci alpha beta junk = Ok C' /\
    length C' = length C /\
    forall s, inrange d ci s -> elt ci C' s = radd (rmul alpha (einstein s)) (rmul beta (elt ci C s)).
Proof.
  intros Hbeta. destruct (list_eq_dec Z.eq_dec ai []) as [Ea|Ea]; [|destruct (list_eq_dec Z.eq_dec bi []) as [Eb|Eb]].
  - assert (G : exists C', (let! a := oget A 0 in contractScalar radd rmul is0 a (range_init (map d bi)) B bi (range_init (map d ci)) C ci alpha beta) = Ok C' /\
      length C' = length C /\
      forall s, inrange d ci s -> elt ci C' s = radd (rmul alpha (einstein s)) (rmul beta (elt ci C s))).
    { pose proof (full_size _ _ FA) as LA. rewrite Ea in LA. simpl in LA. rewrite (oget_ok r0) by lia. cbn [obind].
      destruct (scalar_spec (nth 0 A r0) bi B NB) as (C' & E & HL & HE); auto.
      { intros x. rewrite HC, Ea. simpl. tauto. }
      exists C'. split; [exact E|]. split; [exact HL|]. intros s Hs. rewrite HE by auto.
      unfold einstein. rewrite Ea. reflexivity. }
    revert G. unfold contract. generalize (range_init (map d ai)). rewrite Ea. auto.
  - assert (G : exists C', (let! b := oget B 0 in contractScalar radd rmul is0 b (range_init (map d ai)) A ai (range_init (map d ci)) C ci alpha beta) = Ok C' /\
      length C' = length C /\
      forall s, inrange d ci s -> elt ci C' s = radd (rmul alpha (einstein s)) (rmul beta (elt ci C s))).
    { pose proof (full_size _ _ FB) as LB. rewrite Eb in LB. simpl in LB. rewrite (oget_ok r0) by lia. cbn [obind].
      destruct (scalar_spec (nth 0 B r0) ai A NA) as (C' & E & HL & HE); auto.
      { intros x. rewrite HC, Eb. simpl. tauto. }
      exists C'. split; [exact E|]. split; [exact HL|]. intros s Hs. rewrite HE by auto.
      unfold einstein. rewrite con_nil_r by auto. cbn [TensorSpec.sum_over]. rewrite Eb.
      unfold TensorSpec.elt at 4. simpl. ring. }
    revert G. unfold contract. destruct ai as [|a0 ai']; [contradiction|]. rewrite Eb. auto.
  - destruct contract_props_spec as (p & C' & E1 & E2 & HL & HE); auto; [tauto|].
    exists C'. split; [|auto]. rewrite <- E2. unfold contract. rewrite E1.
    destruct ai; [contradiction|]. destruct bi; [contradiction|]. reflexivity.
Qed.
End Sem.
