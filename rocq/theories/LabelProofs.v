(** What computeLabels and contractIS do, and contraction at the level of indices. *)
From Coq Require Import List ZArith Lia Bool Arith Permutation Ring.
From Verif Require Import Util RangeModel RangeSpec RangeProofs TensorModel TensorSpec TensorProofs SemProofs ContractModel ContractProofs ContractSem.
Import ListNotations.

Local Arguments Nat.sub : simpl never.

Section Labels.
Context {I : Type} (ieq : I -> I -> bool).
Hypothesis ieq_spec : forall a b, ieq a b = true <-> a = b.

Lemma mem_In' x l : mem ieq x l = true <-> In x l.
Proof.
  unfold mem. rewrite existsb_exists. split.
  - intros (y & Hy & E). apply ieq_spec in E. now subst.
  - intros H. exists x. split; auto. now apply ieq_spec.
Qed.
Lemma mem_not x l : mem ieq x l = false <-> ~ In x l.
Proof. rewrite <- mem_In'. destruct (mem ieq x l); split; congruence. Qed.

Lemma in_common L Rr x : In x (common ieq L Rr) <-> In x L /\ In x Rr.
Proof. unfold common. rewrite filter_In, mem_In'. tauto. Qed.
Lemma in_only L Rr x : In x (only ieq L Rr) <-> In x L /\ ~ In x Rr.
Proof. unfold only. rewrite filter_In, negb_true_iff, mem_not. tauto. Qed.

Definition idx (l : list I) (x : I) : nat := match find_pos ieq x l with Some k => k | None => 0 end.

Lemma idx_in l x : In x l -> forall dI, idx l x < length l /\ nth (idx l x) l dI = x.
Proof.
  intros H dI. unfold idx. destruct (find_pos ieq x l) as [k|] eqn:E.
  - apply (find_pos_some ieq ieq_spec x l k dI E).
  - apply (find_pos_none ieq ieq_spec) in E. contradiction.
Qed.
Lemma idx_inj l x y : In x l -> In y l -> idx l x = idx l y -> x = y.
Proof.
  intros Hx Hy E. destruct (idx_in l x Hx x) as [_ <-]. destruct (idx_in l y Hy x) as [_ <-]. now rewrite E.
Qed.
Lemma idx_cons_same x l : idx (x :: l) x = 0.
Proof. unfold idx. simpl. now rewrite (proj2 (ieq_spec x x)). Qed.
Lemma idx_cons_other x y l : x <> y -> In y l -> idx (x :: l) y = S (idx l y).
Proof.
  intros H Hy. unfold idx. simpl. destruct (ieq y x) eqn:E; [apply ieq_spec in E; congruence|].
  destruct (find_pos ieq y l) eqn:E'; auto. apply (find_pos_none ieq ieq_spec) in E'. contradiction.
Qed.
Lemma idx_app_l l l' x : In x l -> idx (l ++ l') x = idx l x.
Proof.
  induction l as [|y l IH]; intros H; [contradiction|]. cbn [app].
  destruct (ieq y x) eqn:E.
  - apply ieq_spec in E. subst. now rewrite !idx_cons_same.
  - assert (y <> x) by (intros ->; rewrite (proj2 (ieq_spec x x) eq_refl) in E; discriminate).
    destruct H as [H|H]; [contradiction|]. rewrite !idx_cons_other by (auto; apply in_app_iff; auto). now rewrite IH.
Qed.
Lemma idx_app_r l l' x : ~ In x l -> In x l' -> idx (l ++ l') x = length l + idx l' x.
Proof.
  induction l as [|y l IH]; intros H H'; auto. cbn [app length]. simpl in H.
  rewrite idx_cons_other by (try apply in_app_iff; tauto). rewrite IH by tauto. reflexivity.
Qed.

Section Two.
Variables (L Rr : list I).
Hypothesis NL : NoDup L.
Hypothesis NR : NoDup Rr.
Let C := common ieq L Rr.
Let U := only ieq L Rr.
Let V := only ieq Rr L.
Definition neglab (x : I) : Z := (- (1 + Z.of_nat (idx C x)))%Z.
Definition lab0 (other : list I) (x : I) : Z := if mem ieq x other then neglab x else 0%Z.

Lemma upd_map_one {B} (f : I -> B) (v : B) (l : list I) (j : nat) (x : I) : NoDup l -> j < length l -> nth j l x = x ->
  upd j v (map f l) = map (fun y => if ieq x y then v else f y) l.
Proof.
  revert j. induction l as [|y l IH]; intros [|j] HN HL E; simpl in *; try lia.
  - subst y. inversion HN; subst. rewrite (proj2 (ieq_spec x x)) by auto. f_equal. apply map_ext_in.
    intros z Hz. destruct (ieq x z) eqn:E; auto. apply ieq_spec in E. now subst.
  - inversion HN; subst. assert (In x l) by (rewrite <- E; apply nth_In; lia).
    destruct (ieq x y) eqn:F; [apply ieq_spec in F; subst; contradiction|]. f_equal. apply IH; auto. lia.
Qed.

Lemma label_cont_spec : forall Lis' pre, L = pre ++ Lis' ->
  label_cont ieq Lis' Rr (length pre) (length (common ieq pre Rr))
    (map (lab0 Rr) pre ++ repeat 0%Z (length Lis'))
    (map (fun y => if mem ieq y pre then neglab y else 0%Z) Rr) =
  Ok (length C, map (lab0 Rr) L, map (lab0 L) Rr).
Proof.
  induction Lis' as [|x Lis' IH]; intros pre E; cbn [label_cont repeat length].
  - rewrite app_nil_r in E. rewrite <- E. rewrite app_nil_r. reflexivity.
  - assert (E' : L = (pre ++ [x]) ++ Lis') by (rewrite <- app_assoc; exact E).
    specialize (IH (pre ++ [x]) E'). rewrite app_length in IH. cbn [length] in IH. rewrite Nat.add_1_r in IH.
    assert (EC : common ieq (pre ++ [x]) Rr = common ieq pre Rr ++ (if mem ieq x Rr then [x] else [])).
    { unfold common. rewrite filter_app. simpl. reflexivity. }
    assert (Hx : ~ In x pre).
    { rewrite E in NL. apply NoDup_remove_2 in NL. rewrite in_app_iff in NL. tauto. }
    destruct (find_pos ieq x Rr) as [j|] eqn:EF.
    + destruct (find_pos_some ieq ieq_spec x Rr j x EF) as [J1 J2].
      assert (HxR : In x Rr) by (rewrite <- J2; now apply nth_In).
      assert (EN : (- (1 + Z.of_nat (length (common ieq pre Rr))))%Z = neglab x).
      { unfold neglab. do 3 f_equal. unfold C. rewrite E. unfold common. rewrite filter_app. cbn [filter].
        rewrite (proj2 (mem_In' x Rr)) by auto.
        rewrite idx_app_r; [rewrite idx_cons_same; lia| |simpl; auto].
        intros K. apply filter_In in K. tauto. }
      rewrite EN.
      rewrite oupd_ok by (rewrite app_length, map_length; simpl; lia). cbn [obind].
      rewrite oupd_ok by (now rewrite map_length). cbn [obind].
      assert (E1 : upd (length pre) (neglab x) (map (lab0 Rr) pre ++ 0%Z :: repeat 0%Z (length Lis')) =
                   map (lab0 Rr) (pre ++ [x]) ++ repeat 0%Z (length Lis')).
      { rewrite <- (map_length (lab0 Rr) pre) at 1. rewrite upd_middle, map_app. cbn [map].
        unfold lab0 at 3. rewrite (proj2 (mem_In' x Rr)) by auto. now rewrite <- app_assoc. }
      assert (E2 : upd j (neglab x) (map (fun y => if mem ieq y pre then neglab y else 0%Z) Rr) =
                   map (fun y => if mem ieq y (pre ++ [x]) then neglab y else 0%Z) Rr).
      { rewrite (upd_map_one _ _ Rr j x) by auto. apply map_ext. intros y.
        unfold mem. rewrite existsb_app. simpl. rewrite orb_false_r.
        destruct (ieq x y) eqn:F.
        - apply ieq_spec in F. subst y. rewrite (proj2 (ieq_spec x x)) by auto. now rewrite orb_true_r.
        - destruct (ieq y x) eqn:F'; [apply ieq_spec in F'; subst; rewrite (proj2 (ieq_spec x x)) in F by auto; discriminate|].
          now rewrite orb_false_r. }
      rewrite E1, E2. rewrite EC in IH. rewrite (proj2 (mem_In' x Rr)) in IH by auto.
      rewrite app_length in IH. cbn [length] in IH. rewrite Nat.add_1_r in IH. exact IH.
    + apply (find_pos_none ieq ieq_spec) in EF. apply mem_not in EF. rewrite EC, EF, app_nil_r in IH.
      rewrite <- IH. f_equal.
      * rewrite map_app. cbn [map]. unfold lab0 at 3. rewrite EF. now rewrite <- app_assoc.
      * apply map_ext_in. intros y Hy. unfold mem. rewrite existsb_app. simpl. rewrite orb_false_r.
        destruct (ieq y x) eqn:F; [|now rewrite orb_false_r].
        apply ieq_spec in F. subst y. apply mem_In' in Hy. congruence.
Qed.

Lemma label_unc_spec (h : I -> Z) : forall l uu, NoDup l ->
  let z := filter (fun x => (h x =? 0)%Z) l in
  label_unc (map h l) uu = (uu + length z,
     map (fun x => if (h x =? 0)%Z then Z.of_nat (S (uu + idx z x)) else h x) l).
Proof.
  induction l as [|x l IH]; intros uu HN z.
  - simpl. f_equal. lia.
  - inversion HN as [|? ? Hx HN']; subst. cbn [map label_unc].
    destruct (h x =? 0)%Z eqn:E.
    + rewrite (IH (S uu) HN'). unfold z. cbn [filter]. rewrite E. cbn [length]. f_equal; [lia|].
      f_equal.
      * rewrite idx_cons_same. f_equal. lia.
      * apply map_ext_in. intros y Hy. destruct (h y =? 0)%Z eqn:F; auto.
        rewrite idx_cons_other; [f_equal; lia| |apply filter_In; auto]. intros ->. contradiction.
    + rewrite (IH uu HN'). unfold z. cbn [filter]. rewrite E. f_equal. 
Qed.

(** The label of an index. *)
Definition glab (x : I) : Z :=
  if mem ieq x L then
    if mem ieq x Rr then neglab x else Z.of_nat (S (length C + idx U x))
  else Z.of_nat (S (length C + length U + idx V x)).

Lemma neglab_neg x : (neglab x < 0)%Z.
Proof. unfold neglab. lia. Qed.

Lemma lab0_zero o x : (lab0 o x =? 0)%Z = negb (mem ieq x o).
Proof. unfold lab0. destruct (mem ieq x o); simpl; auto. pose proof (neglab_neg x). now apply Z.eqb_neq; lia. Qed.

Lemma computeLabels_spec : computeLabels ieq L Rr = Ok (map glab L, map glab Rr).
Proof.
  unfold computeLabels. pose proof (label_cont_spec L [] eq_refl) as E. cbn [map app length] in E.
  change (length (common ieq [] Rr)) with 0 in E.
  assert (EZ : map (fun y => if mem ieq y [] then neglab y else 0%Z) Rr = repeat 0%Z (length Rr)).
  { generalize Rr as r. induction r as [|z r IHr]; simpl; auto. now f_equal. }
  rewrite EZ in E. rewrite E. cbn [obind]. rewrite (label_unc_spec (lab0 Rr) L) by auto. rewrite (label_unc_spec (lab0 L) Rr) by auto.
  assert (EU : filter (fun x => (lab0 Rr x =? 0)%Z) L = U).
  { unfold U, only. apply filter_ext. intros x. apply lab0_zero. }
  assert (EV : filter (fun x => (lab0 L x =? 0)%Z) Rr = V).
  { unfold V, only. apply filter_ext. intros x. apply lab0_zero. }
  rewrite EU, EV. f_equal. f_equal.
  - apply map_ext_in. intros x Hx. rewrite lab0_zero. unfold glab. rewrite (proj2 (mem_In' x L)) by auto.
    unfold lab0. destruct (mem ieq x Rr); reflexivity.
  - apply map_ext_in. intros x Hx. rewrite lab0_zero. unfold glab, lab0. destruct (mem ieq x L); simpl; auto.
    rewrite (proj2 (mem_In' x Rr)) by auto. reflexivity.
Qed.

Lemma glab_pos x : In x L \/ In x Rr -> (0 <? glab x)%Z = negb (mem ieq x L && mem ieq x Rr).
Proof.
  intros _. unfold glab. destruct (mem ieq x L), (mem ieq x Rr); cbn [andb negb]; try (apply Z.ltb_lt; lia).
  apply Z.ltb_ge. pose proof (neglab_neg x). lia.
Qed.

Lemma glab_inj x y : In x L \/ In x Rr -> In y L \/ In y Rr -> glab x = glab y -> x = y.
Proof.
  assert (HC : forall z, mem ieq z L = true -> mem ieq z Rr = true -> In z C).
  { intros z H1 H2. apply in_common. split; now apply mem_In'. }
  assert (HU : forall z, mem ieq z L = true -> mem ieq z Rr = false -> In z U).
  { intros z H1 H2. apply in_only. split; [now apply mem_In'|now apply mem_not]. }
  assert (HV : forall z, mem ieq z L = false -> (In z L \/ In z Rr) -> In z V).
  { intros z H1 H2. apply mem_not in H1. apply in_only. tauto. }
  intros Hx Hy. unfold glab. pose proof (neglab_neg x). pose proof (neglab_neg y).
  destruct (mem ieq x L) eqn:E1, (mem ieq x Rr) eqn:E2, (mem ieq y L) eqn:E3, (mem ieq y Rr) eqn:E4; intros E;
    try (exfalso; lia);
    try (pose proof (proj1 (idx_in U x (HU x E1 E2) x)));
    try (pose proof (proj1 (idx_in U y (HU y E3 E4) y))); try (exfalso; lia).
  - apply (idx_inj C); auto. unfold neglab in E. lia.
  - apply (idx_inj U); auto. lia.
  - apply (idx_inj V); auto. lia.
  - apply (idx_inj V); auto. lia.
  - apply (idx_inj V); auto. lia.
  - apply (idx_inj V); auto. lia.
Qed.

Lemma uncontracted_spec l : (forall x, In x l -> In x L \/ In x Rr) ->
  uncontracted l (map glab l) = map (fun x => (x, glab x)) (filter (fun x => negb (mem ieq x L && mem ieq x Rr)) l).
Proof.
  induction l as [|x l IH]; intros H; simpl; auto. rewrite glab_pos by (apply H; simpl; auto).
  rewrite IH by (intros; apply H; simpl; auto).
  destruct (negb _); reflexivity.
Qed.

Lemma contractIS_spec : contractIS L (map glab L) Rr (map glab Rr) = (U ++ V, map glab (U ++ V)).
Proof.
  unfold contractIS. rewrite !uncontracted_spec by auto.
  assert (E1 : filter (fun x => negb (mem ieq x L && mem ieq x Rr)) L = U).
  { apply filter_ext_in. intros x Hx. now rewrite (proj2 (mem_In' x L)). }
  assert (E2 : filter (fun x => negb (mem ieq x L && mem ieq x Rr)) Rr = V).
  { apply filter_ext_in. intros x Hx. rewrite (proj2 (mem_In' x Rr)) by auto. now rewrite andb_true_r. }
  rewrite E1, E2, <- map_app, !map_map. simpl. now rewrite map_id.
Qed.
End Two.
End Labels.

(** ** transporting a sum along an injective relabelling *)
Section Transport.
Context {R : Type} (r0 r1 : R) (radd rmul : R -> R -> R).
Context {I : Type} (ieq : I -> I -> bool) (idim : I -> nat).
Hypothesis ieq_spec : forall a b, ieq a b = true <-> a = b.
Variables (g : I -> Z) (UU : list I).
Hypothesis g_inj : forall x y, In x UU -> In y UU -> g x = g y -> x = y.

(** the inverse labelling and the extents of labels *)
Definition lookup {T} (f : I -> T) (def : T) (z : Z) : T :=
  match find (fun x => (g x =? z)%Z) UU with Some x => f x | None => def end.

Lemma lookup_spec {T} (f : I -> T) def x : In x UU -> lookup f def (g x) = f x.
Proof.
  intros H. unfold lookup. destruct (find (fun y => (g y =? g x)%Z) UU) as [y|] eqn:E.
  - apply find_some in E as [H1 H2]. apply Z.eqb_eq in H2. now rewrite (g_inj y x).
  - pose proof (find_none _ _ E x H) as K. simpl in K. rewrite Z.eqb_refl in K. discriminate.
Qed.

Definition ldim := lookup idim 0.
Lemma map_ldim l : incl l UU -> map ldim (map g l) = map idim l.
Proof. intros H. rewrite map_map. apply map_ext_in. intros x Hx. now apply lookup_spec, H. Qed.

Definition agree (s : I -> nat) (s' : Z -> nat) : Prop := forall x, In x UU -> s' (g x) = s x.
Lemma agree_lookup s : agree s (lookup s 0).
Proof. intros x Hx. now apply lookup_spec. Qed.

Lemma elt_transport l (A : list R) s s' : incl l UU -> agree s s' -> elt r0 ldim (map g l) A s' = elt r0 idim l A s.
Proof.
  intros H Hs. unfold elt. rewrite map_ldim by auto. f_equal. f_equal. rewrite map_map. apply map_ext_in.
  intros x Hx. now apply Hs, H.
Qed.

Lemma sum_transport xs : forall F G s s', incl xs UU ->
  (forall t t', agree t t' -> F t' = G t) -> agree s s' ->
  sum_over r0 radd Z.eqb ldim (map g xs) F s' = sum_over r0 radd ieq idim xs G s.
Proof.
  induction xs as [|x xs IH]; intros F G s s' H HF Hs; simpl; auto.
  assert (Hx : In x UU) by (apply H; simpl; auto).
  replace (ldim (g x)) with (idim x) by (symmetry; now apply lookup_spec).
  apply (sumn_ext r0 radd). intros v _. apply IH; auto.
  - intros y Hy. apply H. simpl; auto.
  - intros y Hy. unfold override. destruct (Z.eqb_spec (g x) (g y)) as [E|E].
    + apply g_inj in E; auto. subst. now rewrite (proj2 (ieq_spec y y)).
    + destruct (ieq x y) eqn:F'; [apply ieq_spec in F'; subst; contradiction|]. auto.
Qed.
End Transport.

(** ** contraction of dense tensors by index *)
Section DenseSem.
Context {R : Type} (r0 r1 : R) (radd rmul : R -> R -> R) (is0 : R -> bool).
Context (SR : semi_ring_theory r0 r1 radd rmul (@eq R)).
Context (is0_spec : forall x, is0 x = true -> x = r0).
Add Ring RR3 : SR.
Context {I : Type} (ieq : I -> I -> bool) (idim : I -> nat).
Hypothesis ieq_spec : forall a b, ieq a b = true <-> a = b.

Theorem contract_dense_spec L (A : list R) Rr (B : list R) junk :
  NoDup L -> NoDup Rr -> (forall x, In x L \/ In x Rr -> 0 < idim x) -> full idim L A -> full idim Rr B ->
  let N := only ieq L Rr ++ only ieq Rr L in
  exists C', contract_dense r0 r1 radd rmul is0 ieq idim L A Rr B junk = Ok (N, C') /\ full idim N C' /\
    forall s, inrange idim N s ->
      elt r0 idim N C' s = sum_over r0 radd ieq idim (common ieq L Rr) (fun t => rmul (elt r0 idim L A t) (elt r0 idim Rr B t)) s.
Proof.
  intros NL NR Hpos FA FB N. unfold contract_dense.
  rewrite (computeLabels_spec ieq ieq_spec L Rr NL NR). cbn [obind].
  rewrite (contractIS_spec ieq ieq_spec L Rr). fold N.
  set (g := glab ieq L Rr). set (UU := L ++ Rr).
  assert (Ginj : forall x y, In x UU -> In y UU -> g x = g y -> x = y).
  { intros x y Hx Hy. apply in_app_iff in Hx, Hy. now apply (glab_inj ieq ieq_spec). }
  assert (IL : incl L UU) by (intros x Hx; apply in_app_iff; auto).
  assert (IR : incl Rr UU) by (intros x Hx; apply in_app_iff; auto).
  assert (INn : forall x, In x N <-> (In x L /\ ~ In x Rr) \/ (In x Rr /\ ~ In x L)).
  { intros x. unfold N. rewrite in_app_iff, !(in_only ieq ieq_spec). tauto. }
  assert (IN : incl N UU) by (intros x Hx; apply INn in Hx; apply in_app_iff; tauto).
  set (d := ldim idim g UU).
  assert (Ndup : forall l, incl l UU -> NoDup l -> NoDup (map g l)).
  { induction l as [|x l IH]; intros HI HN; simpl; [constructor|]. inversion HN; subst. constructor.
    - intros K. apply in_map_iff in K as (y & E & Hy). apply Ginj in E; [subst; contradiction| |]; apply HI; simpl; auto.
    - apply IH; auto. intros y Hy. apply HI. simpl; auto. }
  assert (NN : NoDup N).
  { unfold N. apply NoDup_app_intro; [now apply NoDup_filter|now apply NoDup_filter|].
    intros x H1 H2. apply (in_only ieq ieq_spec) in H1, H2. tauto. }
  assert (Gin : forall l x, incl l UU -> In x UU -> (In (g x) (map g l) <-> In x l)).
  { intros l x Hl Hx. split; [|now apply in_map]. intros K. apply in_map_iff in K as (y & E & Hy).
    apply Ginj in E; auto; congruence. }
  assert (HCi : forall z, In z (map g N) <-> (In z (map g L) /\ ~ In z (map g Rr)) \/ (In z (map g Rr) /\ ~ In z (map g L))).
  { intros z. split.
    - intros K. apply in_map_iff in K as (x & <- & Hx). rewrite !Gin by auto. now apply INn.
    - intros [[K1 K2]|[K1 K2]]; apply in_map_iff in K1 as (x & <- & Hx); rewrite Gin in K2 by auto; apply in_map, INn; tauto. }
  assert (EL : irange idim L = range_init (map d (map g L))) by (unfold irange, d; now rewrite (map_ldim idim g UU Ginj)).
  assert (ER : irange idim Rr = range_init (map d (map g Rr))) by (unfold irange, d; now rewrite (map_ldim idim g UU Ginj)).
  assert (EN : irange idim N = range_init (map d (map g N))) by (unfold irange, d; now rewrite (map_ldim idim g UU Ginj)).
  rewrite EL, ER, EN.
  assert (ful : forall l (D : list R), incl l UU -> full idim l D <-> full d (map g l) D).
  { intros l D Hl. unfold full, d. now rewrite (map_ldim idim g UU Ginj). }
  assert (dpos : forall l, incl l UU -> forall z, In z (map g l) -> 0 < d z).
  { intros l Hl z K. apply in_map_iff in K as (x & <- & Hx). unfold d, ldim. rewrite (lookup_spec g UU Ginj) by auto.
    apply Hpos. apply in_app_iff. now apply Hl. }
  destruct (contract_spec r0 r1 radd rmul is0 SR is0_spec d (map g L) (map g Rr) (map g N) A B
     (map junk (seq 0 (dim (range_init (map d (map g N)))))) r1 r0 junk) as (C' & E & HL & HE); auto.
  { now apply dpos. } { now apply dpos. } { now apply ful. } { now apply ful. } { apply full_buf. }
  rewrite E. cbn [obind]. exists C'. split; [reflexivity|]. split.
  - apply ful; auto. unfold full. rewrite HL. apply full_buf.
  - intros s Hs. set (s' := lookup g UU s 0).
    assert (As : agree g UU s s') by (apply agree_lookup; auto).
    rewrite <- (elt_transport r0 idim g UU Ginj N C' s s') by auto. fold d. rewrite HE.
    2:{ intros z K. apply in_map_iff in K as (x & <- & Hx). unfold d, ldim. rewrite (lookup_spec g UU Ginj) by auto.
        rewrite As by auto. now apply Hs. }
    assert (ES : einstein r0 radd rmul d (map g L) (map g Rr) (map g N) A B s' =
                 sum_over r0 radd ieq idim (common ieq L Rr) (fun t => rmul (elt r0 idim L A t) (elt r0 idim Rr B t)) s).
    { unfold einstein.
      assert (EC : con (map g N) (map g L) = map g (common ieq L Rr)).
      { unfold con, common. clear E HE FA FB EL.
        assert (K : forall l, incl l L -> filter (fc (map g N)) (map g l) = map g (filter (fun x => mem ieq x Rr) l)).
        { induction l as [|x l IH]; intros Hl; simpl; auto.
          assert (Hx : In x L) by (apply Hl; simpl; auto).
          rewrite IH by (intros y Hy; apply Hl; simpl; auto).
          assert (F : fc (map g N) (g x) = mem ieq x Rr).
          { destruct (mem ieq x Rr) eqn:EM.
            - apply fc_In. rewrite Gin by auto. rewrite INn. apply (mem_In' ieq ieq_spec) in EM. tauto.
            - destruct (fc (map g N) (g x)) eqn:F; auto. apply fc_In in F. exfalso. apply F.
              apply Gin; auto. apply INn. apply (mem_not ieq ieq_spec) in EM. tauto. }
          rewrite F. destruct (mem ieq x Rr); reflexivity. }
        apply K. intros x Hx; auto. }
      rewrite EC. unfold d. apply (sum_transport r0 radd ieq idim ieq_spec g UU Ginj); auto.
      - intros x Hx. apply (in_common ieq ieq_spec) in Hx. apply IL. tauto.
      - intros t t' Ht. f_equal; apply (elt_transport r0 idim g UU Ginj); auto. }
    rewrite ES. ring.
Qed.

Lemma nth_mult z (D : list R) i : nth i (mult_dense rmul z D) r0 = rmul (nth i D r0) z.
Proof.
  unfold mult_dense. destruct (Nat.lt_ge_cases i (length D)) as [H|H].
  - rewrite (nth_indep _ r0 (rmul r0 z)) by now rewrite map_length. apply (map_nth (fun x => rmul x z)).
  - rewrite !nth_overflow by (rewrite ?map_length; auto). ring.
Qed.

(** operator*= *)
Theorem times_spec L (A : list R) Rr (B : list R) junk :
  NoDup L -> NoDup Rr -> (forall x, In x L \/ In x Rr -> 0 < idim x) -> full idim L A -> full idim Rr B ->
  exists N C', times r0 r1 radd rmul is0 ieq idim L A Rr B junk = Ok (N, C') /\
    N = only ieq L Rr ++ only ieq Rr L /\ full idim N C' /\
    forall s, inrange idim N s ->
      elt r0 idim N C' s = sum_over r0 radd ieq idim (common ieq L Rr) (fun t => rmul (elt r0 idim L A t) (elt r0 idim Rr B t)) s.
Proof.
  intros NL NR Hpos FA FB. 
  assert (Only_nil : forall l, only ieq l [] = l).
  { intros l. unfold only. apply filter_all. auto. }
  assert (Common_nil : forall l, common ieq l [] = []).
  { intros l. unfold common. apply filter_nil. auto. }
  unfold times. destruct L as [|x L].
  - unfold full in FA. simpl in FA. rewrite (oget_ok r0) by lia. cbn [obind].
    exists Rr, (mult_dense rmul (nth 0 A r0) B). split; [reflexivity|]. split; [now rewrite Only_nil|].
    split; [unfold full, mult_dense; now rewrite map_length|].
    intros s Hs. cbn [common filter sum_over]. unfold elt at 1. rewrite nth_mult. unfold elt. simpl. ring.
  - destruct Rr as [|y Rr].
    + unfold full in FB. simpl in FB. rewrite (oget_ok r0) by lia. cbn [obind].
      exists (x :: L), (mult_dense rmul (nth 0 B r0) A). split; [reflexivity|].
      split; [rewrite Only_nil; cbn [only filter]; now rewrite app_nil_r|].
      split; [unfold full, mult_dense; now rewrite map_length|].
      intros s Hs. rewrite Common_nil. cbn [sum_over]. unfold elt at 1. rewrite nth_mult. unfold elt. simpl. ring.
    + destruct (contract_dense_spec (x :: L) A (y :: Rr) B junk NL NR Hpos FA FB) as (C' & E & F & H).
      eexists _, C'. split; [exact E|]. auto.
Qed.
End DenseSem.
