(** Contraction at the level of indices, adding to what the result holds (beta). *)
From Coq Require Import List ZArith Lia Bool Arith Permutation Ring.
From Verif Require Import Util RangeModel RangeSpec RangeProofs TensorModel TensorSpec TensorProofs SemProofs ContractModel ContractProofs ContractSem LabelProofs.
Import ListNotations.
Local Arguments Nat.sub : simpl never.

Lemma filter_map_comm {A B} (g : A -> B) (p : B -> bool) (q : A -> bool) : forall l, (forall x, In x l -> p (g x) = q x) ->
  filter p (map g l) = map g (filter q l).
Proof.
  induction l as [|x l IH]; intros H; cbn [map filter]; auto. rewrite H by (left; auto). rewrite IH by (intros; apply H; right; auto).
  destruct (q x); reflexivity.
Qed.

Section Kernel.
Context {R : Type} (r0 r1 : R) (radd rmul : R -> R -> R) (is0 : R -> bool).
Context (SR : semi_ring_theory r0 r1 radd rmul (@eq R)).
Context (is0_spec : forall x, is0 x = true -> x = r0).
Add Ring RRqk : SR.
Context {I : Type} (ieq : I -> I -> bool).
Hypothesis ieq_spec : forall a b, ieq a b = true <-> a = b.

Theorem contract_beta_spec (idim : I -> nat) L (A : list R) Rr (B : list R) (C : list R) beta junk :
  NoDup L -> NoDup Rr -> (forall x, In x L \/ In x Rr -> 0 < idim x) -> full idim L A -> full idim Rr B ->
  let N := only ieq L Rr ++ only ieq Rr L in full idim N C -> let g := glab ieq L Rr in
  exists C', contract r0 radd rmul is0 (range_init (map idim L)) A (map g L) (range_init (map idim Rr)) B (map g Rr)
      (range_init (map idim N)) C (map g N) r1 beta junk = Ok C' /\ full idim N C' /\
    forall s, inrange idim N s ->
      elt r0 idim N C' s = radd (sum_over r0 radd ieq idim (common ieq L Rr) (fun t => rmul (elt r0 idim L A t) (elt r0 idim Rr B t)) s)
                                (rmul beta (elt r0 idim N C s)).
Proof.
  intros NL NR Hpos FA FB N FC g. set (UU := L ++ Rr).
  assert (Ginj : forall x y, In x UU -> In y UU -> g x = g y -> x = y).
  { intros x y Hx Hy. apply in_app_iff in Hx, Hy. now apply (glab_inj ieq ieq_spec). }
  assert (IL : incl L UU) by (intros x Hx; apply in_app_iff; auto).
  assert (IR : incl Rr UU) by (intros x Hx; apply in_app_iff; auto).
  assert (INn : forall x, In x N <-> (In x L /\ ~ In x Rr) \/ (In x Rr /\ ~ In x L)).
  { intros x. unfold N. rewrite in_app_iff, !(in_only ieq ieq_spec). tauto. }
  assert (IN : incl N UU) by (intros x Hx; apply INn in Hx; apply in_app_iff; tauto).
  set (d := ldim idim g UU).
  assert (Ndup : forall l, incl l UU -> NoDup l -> NoDup (map g l)).
  { induction l as [|x l IH]; intros HI HN; simpl; [constructor|]. inversion HN; subst. constructor.
    - intros K. apply in_map_iff in K as (y & E & Hy). apply Ginj in E; [subst; contradiction| |]; apply HI; simpl; auto.
    - apply IH; auto. intros y Hy. apply HI. simpl; auto. }
  assert (NN : NoDup N).
  { unfold N. apply NoDup_app_intro; [now apply NoDup_filter|now apply NoDup_filter|].
    intros x H1 H2. apply (in_only ieq ieq_spec) in H1, H2. tauto. }
  assert (Gin : forall l x, incl l UU -> In x UU -> (In (g x) (map g l) <-> In x l)).
  { intros l x Hl Hx. split; [|now apply in_map]. intros K. apply in_map_iff in K as (y & E & Hy).
    apply Ginj in E; auto; congruence. }
  assert (HCi : forall z, In z (map g N) <-> (In z (map g L) /\ ~ In z (map g Rr)) \/ (In z (map g Rr) /\ ~ In z (map g L))).
  { intros z. split.
    - intros K. apply in_map_iff in K as (x & <- & Hx). rewrite !Gin by auto. now apply INn.
    - intros [[K1 K2]|[K1 K2]]; apply in_map_iff in K1 as (x & <- & Hx); rewrite Gin in K2 by auto; apply in_map, INn; tauto. }
  assert (EL : range_init (map idim L) = range_init (map d (map g L))) by (unfold d; now rewrite (map_ldim idim g UU Ginj)).
  assert (ER : range_init (map idim Rr) = range_init (map d (map g Rr))) by (unfold d; now rewrite (map_ldim idim g UU Ginj)).
  assert (EN : range_init (map idim N) = range_init (map d (map g N))) by (unfold d; now rewrite (map_ldim idim g UU Ginj)).
  rewrite EL, ER, EN.
  assert (ful : forall l (D : list R), incl l UU -> full idim l D <-> full d (map g l) D).
  { intros l D Hl. unfold full, d. now rewrite (map_ldim idim g UU Ginj). }
  assert (dpos : forall l, incl l UU -> forall z, In z (map g l) -> 0 < d z).
  { intros l Hl z K. apply in_map_iff in K as (x & <- & Hx). unfold d, ldim. rewrite (lookup_spec g UU Ginj) by auto.
    apply Hpos. apply in_app_iff. now apply Hl. }
  assert (FCx : forall x, In x UU -> (fc (map g N) (g x) = true <-> ~ In x N)).
  { intros x Hx. rewrite fc_In, Gin by auto. tauto. }
  assert (ICx : forall x, In x UU -> (inC (map g N) (g x) = true <-> In x N)).
  { intros x Hx. rewrite inC_In, Gin by auto. tauto. }
  assert (UL : unc (map g N) (map g L) = map g (only ieq L Rr)).
  { unfold unc, only. apply filter_map_comm. intros x Hx. destruct (mem ieq x Rr) eqn:EM.
    - apply (mem_In' ieq ieq_spec) in EM. cbn [negb]. destruct (inC (map g N) (g x)) eqn:F; auto. apply ICx in F; auto. apply INn in F. tauto.
    - apply (mem_not ieq ieq_spec) in EM. cbn [negb]. apply ICx; auto. apply INn. tauto. }
  assert (UR : unc (map g N) (map g Rr) = map g (only ieq Rr L)).
  { unfold unc, only. apply filter_map_comm. intros x Hx. destruct (mem ieq x L) eqn:EM.
    - apply (mem_In' ieq ieq_spec) in EM. cbn [negb]. destruct (inC (map g N) (g x)) eqn:F; auto. apply ICx in F; auto. apply INn in F. tauto.
    - apply (mem_not ieq ieq_spec) in EM. cbn [negb]. apply ICx; auto. apply INn. tauto. }
  destruct (contract_spec r0 r1 radd rmul is0 SR is0_spec d (map g L) (map g Rr) (map g N) A B C r1 beta junk) as (C' & E & HL & HE); auto.
  { now apply dpos. } { now apply dpos. } { now apply ful. } { now apply ful. } { now apply ful. }
  { right. right. right. rewrite UL, UR, <- map_app. reflexivity. }
  exists C'. split; [exact E|]. split.
  - apply ful; auto. apply ful in FC; auto. unfold full in *. rewrite HL. exact FC.
  - intros s Hs. set (s' := lookup g UU s 0).
    assert (As : agree g UU s s') by (apply agree_lookup; auto).
    rewrite <- (elt_transport r0 idim g UU Ginj N C' s s') by auto. fold d. rewrite HE.
    2:{ intros z K. apply in_map_iff in K as (x & <- & Hx). unfold d, ldim. rewrite (lookup_spec g UU Ginj) by auto.
        rewrite As by auto. now apply Hs. }
    assert (ES : einstein r0 radd rmul d (map g L) (map g Rr) (map g N) A B s' =
                 sum_over r0 radd ieq idim (common ieq L Rr) (fun t => rmul (elt r0 idim L A t) (elt r0 idim Rr B t)) s).
    { unfold einstein.
      assert (EC : con (map g N) (map g L) = map g (common ieq L Rr)).
      { unfold con, common. apply filter_map_comm. intros x Hx. destruct (mem ieq x Rr) eqn:EM.
        - apply FCx; auto. rewrite INn. apply (mem_In' ieq ieq_spec) in EM. tauto.
        - destruct (fc (map g N) (g x)) eqn:F; auto. apply FCx in F; auto. exfalso. apply F. apply INn. apply (mem_not ieq ieq_spec) in EM. tauto. }
      rewrite EC. unfold d. apply (sum_transport r0 radd ieq idim ieq_spec g UU Ginj); auto.
      - intros x Hx. apply (in_common ieq ieq_spec) in Hx. apply IL. tauto.
      - intros t t' Ht. f_equal; apply (elt_transport r0 idim g UU Ginj); auto. }
    rewrite ES. unfold d. rewrite (elt_transport r0 idim g UU Ginj N C s s') by auto. ring.
Qed.
End Kernel.
