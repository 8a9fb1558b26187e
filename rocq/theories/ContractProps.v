(** C14, C15: contraction of dense tensors.  The vocabulary (elt, full, inrange, sum_over, common,
    only) is in TensorSpec.v; the model is ContractModel.v and DenseModel.v.

    Numbers are the elements of any commutative semiring; [is0] is the comparison beta == 0. *)
From Coq Require Import List ZArith Lia Bool Arith Permutation Ring.
From Verif Require Import Util RangeModel RangeSpec RangeProofs TensorModel TensorSpec TensorProofs SemProofs
  ContractModel ContractProofs ContractSem LabelProofs DenseModel DenseProofs.
Import ListNotations.

Section Props.
Context {R : Type} (r0 r1 : R) (radd rmul : R -> R -> R) (is0 : R -> bool).
Context (SR : semi_ring_theory r0 r1 radd rmul (@eq R)).
Context (is0_spec : forall x, is0 x = true -> x = r0).
Add Ring RR5 : SR.
Context {I : Type} (ieq : I -> I -> bool) (idim : I -> nat).
Hypothesis ieq_spec : forall a b, ieq a b = true <-> a = b.
Notation elt := (elt r0 idim).
Notation sum_over := (sum_over r0 radd ieq idim).
Notation times := (times r0 r1 radd rmul is0 ieq idim).

(** A well-formed dense tensor: distinct indices, extents at least 1, one element per choice of
    index values. *)
Definition tensor (is : list I) (A : list R) : Prop :=
  NoDup is /\ (forall x, In x is -> 0 < idim x) /\ full idim is A.

(** C14.  The labelled kernel: for any placement of the labels, C' = alpha*A*B + beta*C, where the
    product sums over the labels that A and B share.  [junk] is the arbitrary content of fresh
    memory.  beta must be 0 or C must have the uncontracted labels of A in their order, then those
    of B (the order contractIS gives), see C14_beta_refuted. *)
Theorem C14_contract_kernel (d : Z -> nat) (ai bi ci : list Z) (A B C : list R) alpha beta junk :
  NoDup ai -> NoDup bi -> NoDup ci ->
  (forall x, In x ci <-> (In x ai /\ ~ In x bi) \/ (In x bi /\ ~ In x ai)) ->
  (forall x, In x ai \/ In x bi -> 0 < d x) ->
  full d ai A -> full d bi B -> full d ci C ->
  beta = r0 \/ ci = only Z.eqb ai bi ++ only Z.eqb bi ai ->
  exists C', contract r0 radd rmul is0 (range_init (map d ai)) A ai (range_init (map d bi)) B bi
                      (range_init (map d ci)) C ci alpha beta junk = Ok C' /\
    full d ci C' /\
    forall s, inrange d ci s ->
      TensorSpec.elt r0 d ci C' s =
      radd (rmul alpha (TensorSpec.sum_over r0 radd Z.eqb d (common Z.eqb ai bi)
                          (fun t => rmul (TensorSpec.elt r0 d ai A t) (TensorSpec.elt r0 d bi B t)) s))
           (rmul beta (TensorSpec.elt r0 d ci C s)).
Proof.
  intros NA NB NC HC Hpos FA FB FC Hb.
  assert (EU : forall l l', (forall x, In x l -> (In x ci <-> ~ In x l')) -> unc ci l = only Z.eqb l l').
  { intros l l' H. unfold unc, only. apply filter_ext_in. intros x Hx. specialize (H x Hx).
    destruct (inC ci x) eqn:E.
    - apply inC_In in E. symmetry. apply negb_true_iff. apply (mem_not Z.eqb Zeqb_spec). tauto.
    - symmetry. apply negb_false_iff. apply (mem_In' Z.eqb Zeqb_spec).
      assert (~ In x ci) by (rewrite <- inC_In; congruence). destruct (in_dec Z.eq_dec x l'); tauto. }
  assert (EA : unc ci ai = only Z.eqb ai bi) by (apply EU; intros x Hx; rewrite HC; tauto).
  assert (EB : unc ci bi = only Z.eqb bi ai) by (apply EU; intros x Hx; rewrite HC; tauto).
  assert (EC : con ci ai = common Z.eqb ai bi).
  { unfold con, common. apply filter_ext_in. intros x Hx.
    destruct (mem Z.eqb x bi) eqn:E.
    - apply (mem_In' Z.eqb Zeqb_spec) in E. apply fc_In. rewrite HC. tauto.
    - apply (mem_not Z.eqb Zeqb_spec) in E. destruct (fc ci x) eqn:F; auto. apply fc_In in F. rewrite HC in F. tauto. }
  destruct (contract_spec r0 r1 radd rmul is0 SR is0_spec d ai bi ci A B C alpha beta junk) as (C' & E & HL & HE); auto.
  { destruct Hb as [Hb|Hb]; auto. right. right. right. rewrite EA, EB. auto. }
  exists C'. split; [exact E|]. split; [unfold full in *; congruence|].
  intros s Hs. rewrite HE by auto. unfold einstein. rewrite EC. reflexivity.
Qed.

(** C14.  operator*: the product has the indices that exactly one operand has, and its elements
    are the Einstein sums over the shared indices. *)
Theorem C14_product (L : list I) (A : list R) (M : list I) (B : list R) junk :
  tensor L A -> tensor M B ->
  exists N C, times L A M B junk = Ok (N, C) /\ tensor N C /\
    (forall x, In x N <-> (In x L /\ ~ In x M) \/ (In x M /\ ~ In x L)) /\
    forall s, inrange idim N s ->
      elt N C s = sum_over (common ieq L M) (fun t => rmul (elt L A t) (elt M B t)) s.
Proof.
  intros (NL & PL & FL) (NM & PM & FM).
  destruct (times_spec r0 r1 radd rmul is0 SR is0_spec ieq idim ieq_spec L A M B junk) as (N & C & E & EN & F & H); auto.
  { intros x [Hx|Hx]; auto. }
  assert (HN : forall x, In x N <-> (In x L /\ ~ In x M) \/ (In x M /\ ~ In x L)).
  { intros x. rewrite EN, in_app_iff, !(in_only ieq ieq_spec). tauto. }
  exists N, C. split; [exact E|]. split; [|split; [exact HN|exact H]]. split; [|split; [|exact F]].
  - rewrite EN. apply NoDup_app_intro; [now apply NoDup_filter|now apply NoDup_filter|].
    intros x H1 H2. apply (in_only ieq ieq_spec) in H1, H2. tauto.
  - intros x Hx. apply HN in Hx as [[Hx _]|[Hx _]]; auto.
Qed.

(** C14.  The elements do not depend on uninitialised memory. *)
Theorem C14_product_deterministic (L : list I) (A : list R) (M : list I) (B : list R) junk junk' :
  tensor L A -> tensor M B -> times L A M B junk = times L A M B junk'.
Proof.
  intros TA TB. destruct (C14_product L A M B junk TA TB) as (N & C & E & (NN & PN & FN) & HN & HE).
  destruct (C14_product L A M B junk' TA TB) as (N' & C' & E' & (NN' & PN' & FN') & HN' & HE').
  destruct TA as (NL & PL & FL), TB as (NM & PM & FM).
  destruct (times_spec r0 r1 radd rmul is0 SR is0_spec ieq idim ieq_spec L A M B junk) as (N1 & C1 & E1 & EN1 & _); auto.
  { intros x [Hx|Hx]; auto. }
  destruct (times_spec r0 r1 radd rmul is0 SR is0_spec ieq idim ieq_spec L A M B junk') as (N2 & C2 & E2 & EN2 & _); auto.
  { intros x [Hx|Hx]; auto. }
  assert (EN : N = N') by congruence. subst N'. rewrite E, E'. do 2 f_equal.
  apply (nth_ext _ _ r0 r0); [unfold full in *; congruence|]. intros k Hk.
  assert (Hk' : k < size (map idim N)) by (rewrite size_fold; unfold full in FN; lia).
  destruct (tuple_assign ieq idim ieq_spec N (decode (map idim N) k) NN) as (s & Hs).
  { rewrite decode_length, map_length. reflexivity. }
  assert (Hin : inrange idim N s) by (apply inrange_valid; rewrite Hs; now apply decode_valid).
  specialize (HE s Hin). specialize (HE' s Hin). rewrite <- HE' in HE. unfold TensorSpec.elt in HE.
  rewrite Hs, colmajor_enc, enc_decode in HE by auto. exact HE.
Qed.

(** C15.  A*B and B*A have the same indices and the same elements. *)
Theorem C15_commute (L : list I) (A : list R) (M : list I) (B : list R) junk junk' :
  tensor L A -> tensor M B ->
  exists N C N' C', times L A M B junk = Ok (N, C) /\ times M B L A junk' = Ok (N', C') /\
    Permutation N N' /\ forall s, inrange idim N s -> elt N C s = elt N' C' s.
Proof.
  intros TA TB. destruct (C14_product L A M B junk TA TB) as (N & C & E & (NN & PN & FN) & HN & HE).
  destruct (C14_product M B L A junk' TB TA) as (N' & C' & E' & (NN' & PN' & FN') & HN' & HE').
  assert (HP : Permutation N N') by (apply NoDup_Permutation; auto; intros x; rewrite HN, HN'; tauto).
  exists N, C, N', C'. split; [exact E|]. split; [exact E'|]. split; [exact HP|]. intros s Hs.
  rewrite HE by auto. rewrite HE' by (intros x Hx; apply Hs; eapply Permutation_in; [symmetry; exact HP|auto]).
  rewrite (sum_over_perm r0 r1 radd rmul SR ieq idim ieq_spec (common ieq M L) (common ieq L M)).
  - apply sum_over_ext. intros t. ring.
  - intros t t' Ht. f_equal; now apply elt_respects.
  - apply NoDup_Permutation; [apply NoDup_filter, TB|apply NoDup_filter, TA|].
    intros x. rewrite !(in_common ieq ieq_spec). tauto.
  - apply NoDup_filter, TB.
Qed.

(** C15.  A product with a tensor that has no indices is the product with its one element, on
    either side. *)
Theorem C15_scalar_product (L : list I) (A : list R) (z : R) junk :
  tensor L A ->
  exists C C', times L A [] [z] junk = Ok (L, C) /\ times [] [z] L A junk = Ok (L, C') /\ C = C' /\
    forall s, inrange idim L s -> elt L C s = rmul z (elt L A s).
Proof.
  intros TA. assert (Tz : tensor [] [z]) by (split; [constructor|split; [intros x []|reflexivity]]).
  assert (E1 : times L A [] [z] junk = Ok (L, mult_dense rmul z A)).
  { destruct L; [|reflexivity]. destruct TA as (_ & _ & F). unfold full in F. simpl in F.
    destruct A as [|a [|b A]]; try discriminate. simpl. do 2 f_equal. unfold mult_dense. simpl. f_equal. ring. }
  assert (E2 : times [] [z] L A junk = Ok (L, mult_dense rmul z A)) by (destruct L; reflexivity).
  exists (mult_dense rmul z A), (mult_dense rmul z A). repeat split; auto.
  intros s Hs. unfold TensorSpec.elt. rewrite (nth_mult r0 r1 radd rmul SR). ring.
Qed.

Lemma sum_over_ext_in xs : forall F G s,
  (forall t, (forall y, ~ In y xs -> t y = s y) -> (forall y, In y xs -> t y < idim y) -> F t = G t) ->
  sum_over xs F s = sum_over xs G s.
Proof.
  induction xs as [|x xs IH]; intros F G s H.
  - apply H; intros; auto. contradiction.
  - cbn [TensorSpec.sum_over]. apply (sumn_ext r0 radd). intros v Hv. apply IH. intros t H1 H2. apply H.
    + intros y Hy. simpl in Hy. rewrite H1 by tauto. unfold override.
      destruct (ieq x y) eqn:E; auto. apply ieq_spec in E. tauto.
    + intros y [<-|Hy]; auto. destruct (in_dec (ieq_dec ieq ieq_spec) x xs) as [K|K]; auto.
      rewrite H1 by auto. unfold override. now rewrite (proj2 (ieq_spec x x)).
Qed.

(** C15.  (A + alpha*A')*B = A*B + alpha*(A'*B). *)
Theorem C15_distributes (L : list I) (A : list R) (L' : list I) (A' : list R) (M : list I) (B : list R) alpha junk :
  tensor L A -> tensor L' A' -> Permutation L' L -> tensor M B ->
  exists S N C N1 C1 N2 C2 C3,
    daxpy radd rmul ieq idim L A L' A' alpha = Ok S /\ times L S M B junk = Ok (N, C) /\
    times L A M B junk = Ok (N1, C1) /\ times L' A' M B junk = Ok (N2, C2) /\
    daxpy radd rmul ieq idim N1 C1 N2 C2 alpha = Ok C3 /\ N = N1 /\ C = C3.
Proof.
  intros TA TA' HP TB.
  destruct (daxpy_spec ieq idim ieq_spec r0 radd rmul L A L' A' alpha) as (S & ES & FS & HS); try apply TA; auto.
  { apply TA'. } { apply TA'. }
  assert (TS : tensor L S) by (split; [apply TA|split; [apply TA|exact FS]]).
  destruct (C14_product L S M B junk TS TB) as (N & C & E & TN & HN & HE).
  destruct (C14_product L A M B junk TA TB) as (N1 & C1 & E1 & TN1 & HN1 & HE1).
  destruct (C14_product L' A' M B junk TA' TB) as (N2 & C2 & E2 & TN2 & HN2 & HE2).
  assert (HLL : forall x, In x L' <-> In x L) by (intros x; split; apply Permutation_in; [auto|now symmetry]).
  assert (EN : N = N1).
  { destruct (times_spec r0 r1 radd rmul is0 SR is0_spec ieq idim ieq_spec L S M B junk) as (Na & Ca & Ea & EaN & _); try apply TS; try apply TB.
    { intros x [Hx|Hx]; [now apply TA|now apply TB]. }
    destruct (times_spec r0 r1 radd rmul is0 SR is0_spec ieq idim ieq_spec L A M B junk) as (Nb & Cb & Eb & EbN & _); try apply TA; try apply TB.
    { intros x [Hx|Hx]; [now apply TA|now apply TB]. }
    congruence. }
  subst N1.
  destruct (daxpy_spec ieq idim ieq_spec r0 radd rmul N C1 N2 C2 alpha) as (C3 & EC & FC & HC); try apply TN; try apply TN1; try apply TN2.
  { apply NoDup_Permutation; [apply TN2|apply TN|]. intros x. rewrite HN2, HN, HLL. tauto. }
  exists S, N, C, N, C1, N2, C2, C3. repeat (split; [assumption|]). split; [reflexivity|].
  apply (nth_ext _ _ r0 r0); [destruct TN as (_ & _ & F); unfold full in *; congruence|]. intros k Hk.
  assert (Hk' : k < size (map idim N)) by (rewrite size_fold; destruct TN as (_ & _ & F); unfold full in F; lia).
  destruct (tuple_assign ieq idim ieq_spec N (decode (map idim N) k) (proj1 TN)) as (s & Hs).
  { rewrite decode_length, map_length. reflexivity. }
  assert (Hin : inrange idim N s) by (apply inrange_valid; rewrite Hs; now apply decode_valid).
  assert (G : elt N C s = elt N C3 s).
  { rewrite HC by auto. rewrite HE, HE1 by auto.
    rewrite HE2 by (intros x Hx; apply Hin; apply HN; apply HN2 in Hx; rewrite HLL in Hx; exact Hx).
    rewrite (sum_over_perm r0 r1 radd rmul SR ieq idim ieq_spec (common ieq L' M) (common ieq L M)).
    - rewrite <- (sum_over_mul_l r0 r1 radd rmul SR), <- (sum_over_add r0 r1 radd rmul SR). apply sum_over_ext_in. intros t H1 H2.
      rewrite HS; [ring|]. intros x Hx. destruct (in_dec (ieq_dec ieq ieq_spec) x (common ieq L M)) as [K|K]; auto.
      rewrite H1 by auto. apply Hin, HN. left. split; auto. intros Q. apply K. now apply (in_common ieq ieq_spec).
    - intros t t' Ht. f_equal; now apply elt_respects.
    - apply NoDup_Permutation; [apply NoDup_filter, TA'|apply NoDup_filter, TA|].
      intros x. rewrite !(in_common ieq ieq_spec), HLL. tauto.
    - apply NoDup_filter, TA'. }
  unfold TensorSpec.elt in G. rewrite Hs, colmajor_enc, enc_decode in G by auto. exact G.
Qed.

Lemma sum_over_mul_indep ys h : (forall t t', (forall y, ~ In y ys -> t y = t' y) -> h t = h t') ->
  forall f s, sum_over ys (fun t => rmul (f t) (h t)) s = rmul (sum_over ys f s) (h s).
Proof.
  induction ys as [|y ys IH]; intros H f s; auto. cbn [TensorSpec.sum_over].
  transitivity (sum_below r0 radd (idim y) (fun v => rmul (h s) (sum_over ys f (override ieq s y v)))).
  - apply (sumn_ext r0 radd). intros v Hv. rewrite IH.
    + rewrite (H (override ieq s y v) s); [ring|]. intros z Hz. unfold override.
      destruct (ieq y z) eqn:E; auto. apply ieq_spec in E. subst. exfalso. apply Hz. simpl; auto.
    + intros t t' Ht. apply H. intros z Hz. apply Ht. simpl in Hz. tauto.
  - rewrite (sumn_mul_l r0 r1 radd rmul SR). change (sumn r0 radd) with (sum_below r0 radd). ring.
Qed.

(** C15.  (A*B)*C and A*(B*C) have the same indices and elements, when no index is shared by all
    three tensors (then the two sides contract different indices). *)
Theorem C15_associative (L : list I) (A : list R) (M : list I) (B : list R) (K : list I) (C : list R) junk :
  tensor L A -> tensor M B -> tensor K C -> (forall x, In x L -> In x M -> In x K -> False) ->
  exists N1 D1 N2 D2 N3 D3 N4 D4,
    times L A M B junk = Ok (N1, D1) /\ times N1 D1 K C junk = Ok (N2, D2) /\
    times M B K C junk = Ok (N3, D3) /\ times L A N3 D3 junk = Ok (N4, D4) /\
    Permutation N2 N4 /\ forall s, inrange idim N2 s -> elt N2 D2 s = elt N4 D4 s.
Proof.
  intros TA TB TC HT.
  destruct (C14_product L A M B junk TA TB) as (N1 & D1 & E1 & T1 & H1 & V1).
  destruct (C14_product N1 D1 K C junk T1 TC) as (N2 & D2 & E2 & T2 & H2 & V2).
  destruct (C14_product M B K C junk TB TC) as (N3 & D3 & E3 & T3 & H3 & V3).
  destruct (C14_product L A N3 D3 junk TA T3) as (N4 & D4 & E4 & T4 & H4 & V4).
  pose proof (fun x => in_dec (ieq_dec ieq ieq_spec) x L) as DL.
  pose proof (fun x => in_dec (ieq_dec ieq ieq_spec) x M) as DM.
  pose proof (fun x => in_dec (ieq_dec ieq ieq_spec) x K) as DK.
  assert (HP : Permutation N2 N4).
  { apply NoDup_Permutation; [apply T2|apply T4|]. intros x. rewrite H2, H4, H1, H3.
    specialize (HT x). destruct (DL x), (DM x), (DK x); tauto. }
  exists N1, D1, N2, D2, N3, D3, N4, D4. repeat (split; [assumption|]). intros s Hs.
  set (abc := fun t => rmul (rmul (elt L A t) (elt M B t)) (elt K C t)).
  assert (Rabc : respects abc).
  { intros t t' Ht. unfold abc. f_equal; [f_equal|]; now apply elt_respects. }
  assert (G1 : elt N2 D2 s = sum_over (common ieq N1 K ++ common ieq L M) abc s).
  { rewrite V2 by auto. rewrite sum_over_app. apply sum_over_ext_in. intros t Ho Hr.
    rewrite V1.
    - unfold abc. symmetry. apply (sum_over_mul_indep (common ieq L M) (elt K C) ).
      intros u u' Hu. apply elt_ext. intros x Hx. apply Hu. intros Q. apply (in_common ieq ieq_spec) in Q as [Q1 Q2]. eauto.
    - intros x Hx. destruct (in_dec (ieq_dec ieq ieq_spec) x (common ieq N1 K)) as [Q|Q]; auto.
      rewrite Ho by auto. apply Hs, H2. left. split; auto. intros Q'. apply Q. now apply (in_common ieq ieq_spec). }
  assert (G2 : elt N4 D4 s = sum_over (common ieq L N3 ++ common ieq M K) abc s).
  { rewrite V4 by (intros x Hx; apply Hs; eapply Permutation_in; [symmetry; exact HP|auto]).
    rewrite sum_over_app. apply sum_over_ext_in. intros t Ho Hr.
    rewrite V3.
    - transitivity (rmul (sum_over (common ieq M K) (fun t => rmul (elt M B t) (elt K C t)) t) (elt L A t)); [ring|].
      rewrite <- (sum_over_mul_indep (common ieq M K) (elt L A)).
      + apply sum_over_ext. intros u. unfold abc. ring.
      + intros u u' Hu. apply elt_ext. intros x Hx. apply Hu. intros Q. apply (in_common ieq ieq_spec) in Q as [Q1 Q2]. eauto.
    - intros x Hx. destruct (in_dec (ieq_dec ieq ieq_spec) x (common ieq L N3)) as [Q|Q]; auto.
      rewrite Ho by auto. apply Hs. apply (Permutation_in (l := N4)); [now symmetry|]. apply H4. right. split; auto.
      intros Q'. apply Q. now apply (in_common ieq ieq_spec). }
  rewrite G1, G2. apply (sum_over_perm r0 r1 radd rmul SR ieq idim ieq_spec); auto.
  - apply NoDup_Permutation.
    + apply NoDup_app_intro; [apply NoDup_filter, T1|apply NoDup_filter, TA|].
      intros x Q1 Q2. apply (in_common ieq ieq_spec) in Q1, Q2. rewrite H1 in Q1. tauto.
    + apply NoDup_app_intro; [apply NoDup_filter, TA|apply NoDup_filter, TB|].
      intros x Q1 Q2. apply (in_common ieq ieq_spec) in Q1, Q2. rewrite H3 in Q1. tauto.
    + intros x. rewrite !in_app_iff, !(in_common ieq ieq_spec), H1, H3.
      specialize (HT x). destruct (DL x), (DM x), (DK x); tauto.
  - apply NoDup_app_intro; [apply NoDup_filter, T1|apply NoDup_filter, TA|].
    intros x Q1 Q2. apply (in_common ieq ieq_spec) in Q1, Q2. rewrite H1 in Q1. tauto.
Qed.
End Props.

(** ** concrete cases *)
Definition Zsr : semi_ring_theory 0%Z 1%Z Z.add Z.mul (@eq Z).
Proof. constructor; intros; ring. Qed.
Definition Zis0 (x : Z) := (x =? 0)%Z.

(** A 2x3 matrix with indices 1,2 times a 3x2x2 tensor with indices 2,5,7 stored as (5,2,7). *)
Definition exdim (i : nat) : nat := match i with 2 => 3 | _ => 2 end.
Example C14_nonvacuous :
  exists N C, times 0%Z 1%Z Z.add Z.mul Zis0 Nat.eqb exdim [1; 2] [1; 2; 3; 4; 5; 6]%Z
                [5; 2; 7] [1; 0; 2; 1; 0; 1; 3; 2; 1; 0; 1; 1]%Z (fun _ => 99%Z) = Ok (N, C) /\
    N = [1; 5; 7] /\ C = [7; 10; 8; 10; 11; 16; 7; 10]%Z.
Proof. eexists _, _. split; [vm_compute; reflexivity|split; reflexivity]. Qed.
Example C14_kernel_nonvacuous : tensor exdim [1; 2] [1; 2; 3; 4; 5; 6]%Z /\ Zis0 0 = true.
Proof. split; [|reflexivity]. split; [repeat constructor; simpl; intuition lia|]. split; [intros x [<-|[<-|[]]]; simpl; lia|reflexivity]. Qed.
Example C15_nonvacuous :
  times 0%Z 1%Z Z.add Z.mul Zis0 Nat.eqb exdim [1; 2] [1; 2; 3; 4; 5; 6]%Z [2; 3] [1; 0; 2; 1; 0; 1]%Z (fun _ => 9%Z) = Ok ([1; 3], [11; 14; 6; 8]%Z) /\
  times 0%Z 1%Z Z.add Z.mul Zis0 Nat.eqb exdim [2; 3] [1; 0; 2; 1; 0; 1]%Z [1; 2] [1; 2; 3; 4; 5; 6]%Z (fun _ => 9%Z) = Ok ([3; 1], [11; 6; 14; 8]%Z).
Proof. split; vm_compute; reflexivity. Qed.

(** Finding: with beta <> 0 and a result order that makes contract permute C, the old contents of C
    are not added; the uninitialised buffer is read instead (contract.cc:800-823). *)
Theorem C14_beta_refuted :
  exists (d : Z -> nat) ai bi ci (A B C : list Z) junk C',
    NoDup ai /\ NoDup bi /\ NoDup ci /\
    (forall x, In x ci <-> (In x ai /\ ~ In x bi) \/ (In x bi /\ ~ In x ai)) /\
    full d ai A /\ full d bi B /\ full d ci C /\
    contract 0%Z Z.add Z.mul Zis0 (range_init (map d ai)) A ai (range_init (map d bi)) B bi
             (range_init (map d ci)) C ci 1%Z 1%Z junk = Ok C' /\
    exists s, inrange d ci s /\
      TensorSpec.elt 0%Z d ci C' s <>
      (TensorSpec.sum_over 0%Z Z.add Z.eqb d (common Z.eqb ai bi)
         (fun t => TensorSpec.elt 0%Z d ai A t * TensorSpec.elt 0%Z d bi B t) s + TensorSpec.elt 0%Z d ci C s)%Z.
Proof.
  exists (fun _ => 2), [1; 2; -1]%Z, [-1; 3]%Z, [1; 3; 2]%Z, (repeat 0%Z 8), (repeat 0%Z 4), (repeat 5%Z 8), (fun _ => 77%Z).
  eexists. split; [repeat constructor; simpl; intuition lia|].
  split; [repeat constructor; simpl; intuition lia|]. split; [repeat constructor; simpl; intuition lia|].
  split; [intros x; simpl; lia|].
  split; [reflexivity|]. split; [reflexivity|]. split; [reflexivity|].
  split; [vm_compute; reflexivity|].
  exists (fun _ => 0). split; [intros x Hx; simpl; lia|]. vm_compute. discriminate.
Qed.

Print Assumptions C14_contract_kernel.
Print Assumptions C14_product.
Print Assumptions C14_product_deterministic.
Print Assumptions C14_beta_refuted.
Print Assumptions C15_commute.
Print Assumptions C15_scalar_product.
Print Assumptions C15_distributes.
Print Assumptions C15_associative.
