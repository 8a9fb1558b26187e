(** Lemmas on element access, addition, permutation and the non-contracting product. *)
From Coq Require Import List ZArith Lia Bool Arith Permutation Ring.
From Verif Require Import Util RangeModel RangeSpec RangeProofs TensorModel TensorSpec TensorProofs SemProofs
  ContractModel ContractProofs ContractSem LabelProofs DenseModel.
Import ListNotations.

Local Arguments Nat.sub : simpl never.

Section Dense.
Context {I : Type} (ieq : I -> I -> bool) (idim : I -> nat).
Hypothesis ieq_spec : forall a b, ieq a b = true <-> a = b.

Lemma ieq_dec (a b : I) : {a = b} + {a <> b}.
Proof. destruct (ieq a b) eqn:E; [left; now apply ieq_spec|right; intros K; apply ieq_spec in K; congruence]. Qed.

(** ** calcPerm on index lists *)
Lemma calcPerm_through' (dI : I) s1 s2 : NoDup s1 -> Permutation s1 s2 ->
  exists P, calcPerm ieq s1 s2 = Ok P /\ is_perm (length s2) P /\ s1 = through P dI s2.
Proof.
  intros HN HP. assert (HN2 : NoDup s2) by (eapply Permutation_NoDup; eauto).
  pose proof (Permutation_length HP) as HL.
  destruct (calcPerm_loop_spec ieq ieq_spec dI s1 HN s2 0 (perm_id (length s1))) as (P & E & L & HA & _); auto.
  { intros x Hx. eapply Permutation_in; [symmetry; exact HP|auto]. }
  { apply seq_length. }
  assert (HB : forall i, i < length s1 -> nth i P 0 < length s2 /\ nth (nth i P 0) s2 dI = nth i s1 dI).
  { intros i Hi. destruct (HA i Hi) as (j & J1 & J2 & J3).
    - eapply Permutation_in; [exact HP|]. now apply nth_In.
    - rewrite J2. simpl. auto. }
  exists P. split; [exact E|]. split.
  - split; [lia|]. split.
    + intros i Hi. apply HB. lia.
    + intros i j Hi Hj Eij. apply (NoDup_nth s1 dI); auto; try lia.
      rewrite <- (proj2 (HB i ltac:(lia))), <- (proj2 (HB j ltac:(lia))). now rewrite Eij.
  - apply (nth_ext _ _ dI dI); [rewrite through_length; lia|].
    intros i Hi. rewrite nth_through by lia. symmetry. now apply HB.
Qed.

(** ** element access *)
Fixpoint ovr (ivs : list (I * Z)) (f : I -> Z) : I -> Z :=
  match ivs with
  | [] => f
  | (x, v) :: ivs' => ovr ivs' (fun y => if ieq x y then (v - 1)%Z else f y)
  end.

Lemma permute_map_spec is : NoDup is -> forall ivs f, incl (map fst ivs) is ->
  permute_map ieq is ivs (map f is) = Ok (map (ovr ivs f) is).
Proof.
  intros HN. induction ivs as [|[x v] ivs IH]; intros f H; simpl; auto.
  destruct (find_pos ieq x is) as [k|] eqn:E.
  - destruct (find_pos_some ieq ieq_spec x is k x E) as [K1 K2].
    rewrite oupd_ok by now rewrite map_length. cbn [obind].
    rewrite (upd_map_one ieq ieq_spec f (v - 1)%Z is k x) by auto. apply IH. intros y Hy. apply H. simpl; auto.
  - apply (find_pos_none ieq ieq_spec) in E. exfalso. apply E, H. simpl; auto.
Qed.

Lemma permute_map_err is : forall ivs r, length r = length is -> ~ incl (map fst ivs) is -> permute_map ieq is ivs r = Err.
Proof.
  induction ivs as [|[x v] ivs IH]; intros r HL H; simpl.
  - exfalso. apply H. intros y [].
  - destruct (find_pos ieq x is) as [k|] eqn:E; auto.
    destruct (find_pos_some ieq ieq_spec x is k x E) as [K1 K2]. rewrite oupd_ok by lia. cbn [obind].
    apply IH; [now rewrite upd_length|]. intros K. apply H. intros y [<-|Hy]; [simpl; rewrite <- K2; now apply nth_In|auto].
Qed.

Lemma ovr_spec (g : I -> Z) : forall ivs f y, (forall x v, In (x, v) ivs -> (v - 1)%Z = g x) ->
  ovr ivs f y = g y \/ (~ In y (map fst ivs) /\ ovr ivs f y = f y).
Proof.
  induction ivs as [|[x v] ivs IH]; intros f y H; simpl; auto.
  destruct (IH (fun y => if ieq x y then (v - 1)%Z else f y) y) as [K|[K1 K2]]; auto.
  { intros; apply H; simpl; auto. }
  destruct (ieq x y) eqn:E.
  - left. rewrite K2. apply ieq_spec in E. subst. apply H. simpl; auto.
  - right. split; auto. intros [->|K]; auto. rewrite (proj2 (ieq_spec y y)) in E; congruence.
Qed.

Lemma any_map {T} (f0 : T) (is : list I) : NoDup is -> forall r : list T, length r = length is -> exists f, map f is = r.
Proof.
  induction is as [|x is IH]; intros HN [|v r] HL; simpl in *; try lia.
  - exists (fun _ => f0). auto.
  - inversion HN; subst. destruct (IH H2 r ltac:(lia)) as (f & Hf).
    exists (fun y => if ieq x y then v else f y). rewrite (proj2 (ieq_spec x x)) by auto. f_equal.
    rewrite <- Hf. apply map_ext_in. intros y Hy. destruct (ieq x y) eqn:E; auto. apply ieq_spec in E. subst. contradiction.
Qed.

Lemma offset_z_nat r : forall t, length t = length r -> offset_z r (map Z.of_nat t) = Ok (Z.of_nat (dot r t)).
Proof.
  induction r as [|x r IH]; intros [|i t] H; simpl in *; try lia; auto. rewrite IH by lia. cbn [obind]. f_equal. lia.
Qed.

Lemma access_spec (R : Type) (is : list I) ivs (s : I -> nat) r :
  NoDup is -> Permutation (map fst ivs) is -> (forall x v, In (x, v) ivs -> v = Z.of_nat (S (s x))) ->
  length r = length is ->
  permute_map ieq is ivs r = Ok (map Z.of_nat (map s is)).
Proof.
  intros HN HP Hv HL. destruct (any_map 0%Z is HN r HL) as (f & <-).
  rewrite permute_map_spec; auto.
  - f_equal. rewrite map_map. apply map_ext_in. intros x Hx.
    destruct (ovr_spec (fun x => Z.of_nat (s x)) ivs f x) as [K|[K1 K2]]; auto.
    + intros y v Hy. rewrite (Hv y v Hy). lia.
    + exfalso. apply K1. eapply Permutation_in; [symmetry; exact HP|auto].
  - intros x Hx. eapply Permutation_in; eauto.
Qed.

Section Num.
Context {R : Type} (r0 : R).

Lemma elt_pos is (s : I -> nat) : inrange idim is s ->
  offset_z (irange idim is) (map Z.of_nat (map s is)) = Ok (Z.of_nat (colmajor (map idim is) (map s is))) /\
  colmajor (map idim is) (map s is) < fold_right Nat.mul 1 (map idim is).
Proof.
  intros Hs. split.
  - rewrite offset_z_nat by (unfold irange, range_init; now rewrite with_strides_length, !map_length).
    unfold irange. rewrite dot_range_init by (now rewrite !map_length). reflexivity.
  - rewrite colmajor_enc, <- size_fold. apply enc_lt. now apply inrange_valid.
Qed.

Lemma telt_spec is (d : list R) ivs s junk : NoDup is -> full idim is d ->
  Permutation (map fst ivs) is -> (forall x v, In (x, v) ivs -> v = Z.of_nat (S (s x))) -> inrange idim is s ->
  telt ieq idim is d ivs junk = Ok (elt r0 idim is d s).
Proof.
  intros HN FD HP Hv Hs. unfold telt.
  assert (HLen : length ivs = length is) by (rewrite <- (Permutation_length HP); now rewrite map_length).
  rewrite HLen, Nat.eqb_refl. cbn [negb].
  rewrite (access_spec R is ivs s) by (auto; now rewrite map_length, seq_length).
  cbn [obind]. destruct (elt_pos is s Hs) as [E1 E2]. rewrite E1. cbn [obind].
  unfold zget. replace (Z.of_nat _ <? 0)%Z with false by (symmetry; apply Z.ltb_ge; lia).
  rewrite Nat2Z.id. rewrite (oget_ok r0); auto. unfold full in FD. lia.
Qed.

Lemma tset_spec is (d : list R) ivs s v : NoDup is -> full idim is d ->
  Permutation (map fst ivs) is -> (forall x v, In (x, v) ivs -> v = Z.of_nat (S (s x))) -> inrange idim is s ->
  tset ieq idim is d ivs v = Ok (upd (colmajor (map idim is) (map s is)) v d).
Proof.
  intros HN FD HP Hv Hs. unfold tset.
  assert (HLen : length ivs = length is) by (rewrite <- (Permutation_length HP); now rewrite map_length).
  rewrite HLen, Nat.eqb_refl. cbn [negb].
  rewrite (access_spec R is ivs s) by (auto; now rewrite repeat_length).
  cbn [obind]. destruct (elt_pos is s Hs) as [E1 E2]. rewrite E1. cbn [obind].
  unfold zupd. replace (Z.of_nat _ <? 0)%Z with false by (symmetry; apply Z.ltb_ge; lia).
  rewrite Nat2Z.id. apply oupd_ok. unfold full in FD. lia.
Qed.

Lemma elt_upd is (d : list R) s s' v : full idim is d -> inrange idim is s -> inrange idim is s' ->
  elt r0 idim is (upd (colmajor (map idim is) (map s is)) v d) s' =
  if list_eq_dec Nat.eq_dec (map s is) (map s' is) then v else elt r0 idim is d s'.
Proof.
  intros FD Hs Hs'. unfold elt. destruct (list_eq_dec Nat.eq_dec (map s is) (map s' is)) as [E|E].
  - rewrite <- E. apply nth_upd_eq. unfold full in FD. destruct (elt_pos is s Hs). lia.
  - apply nth_upd_neq. rewrite !colmajor_enc. intros K. apply E.
    apply (enc_inj (map idim is)); auto; now apply inrange_valid.
Qed.
End Num.

(** ** addition and permutation *)
Section Ring.
Context {R : Type} (r0 r1 : R) (radd rmul : R -> R -> R).
Context (SR : semi_ring_theory r0 r1 radd rmul (@eq R)).
Add Ring RR4 : SR.

Lemma axpy_length alpha : forall d2 d1 : list R, length (axpy radd rmul alpha d2 d1) = length d1.
Proof. induction d2 as [|y d2 IH]; intros [|x d1]; simpl; auto. Qed.

Lemma axpy_nth alpha : forall (d2 d1 : list R) i, length d2 = length d1 -> i < length d1 ->
  nth i (axpy radd rmul alpha d2 d1) r0 = radd (nth i d1 r0) (rmul alpha (nth i d2 r0)).
Proof.
  induction d2 as [|y d2 IH]; intros [|x d1] i HL Hi; simpl in *; try lia. destruct i; auto. apply IH; lia.
Qed.

Lemma daxpy_spec L (A : list R) Rr (B : list R) alpha :
  NoDup Rr -> Permutation Rr L -> (forall x, In x L -> 0 < idim x) -> full idim L A -> full idim Rr B ->
  exists A', daxpy radd rmul ieq idim L A Rr B alpha = Ok A' /\ full idim L A' /\
    forall s, inrange idim L s -> elt r0 idim L A' s = radd (elt r0 idim L A s) (rmul alpha (elt r0 idim Rr B s)).
Proof.
  intros NR HP Hpos FA FB. unfold daxpy. rewrite (Permutation_length HP), Nat.eqb_refl. cbn [negb].
  destruct Rr as [|x0 Rr0] eqn:ER.
  - apply Permutation_nil in HP. subst L. cbn [calcPerm calcPerm_loop obind isTrivial].
    exists (axpy radd rmul alpha B A). split; [reflexivity|]. split; [unfold full; now rewrite axpy_length|].
    intros s Hs. unfold elt. apply axpy_nth; unfold full in *; simpl in *; lia.
  - rewrite <- ER in *. destruct (calcPerm_through' x0 Rr L NR HP) as (P & E & HPm & HT). rewrite E. cbn [obind].
    destruct (isTrivial P) eqn:ET.
    + assert (ERL : Rr = L).
      { unfold isTrivial in ET. apply isTrivial_from_spec in ET. rewrite HT, ET.
        rewrite (proj1 HPm). unfold through. apply map_nth_seq. }
      exists (axpy radd rmul alpha B A). split; [reflexivity|]. split; [unfold full; now rewrite axpy_length|].
      intros s Hs. destruct (elt_pos L s Hs) as [_ K]. unfold elt. rewrite ERL. apply axpy_nth; unfold full in *; [rewrite ERL in FB; lia|lia].
    + destruct (permuteRange_relabel idim P Rr L x0 HPm HT) as (vr & EV & _).
      unfold irange. rewrite EV. cbn [obind].
      assert (NL : NoDup L) by (eapply Permutation_NoDup; eauto).
      destruct (transform_relabel ieq idim ieq_spec (fun v2 v1 : R => radd v1 (rmul alpha v2)) r0 r0 P Rr L x0 B A vr)
        as (A' & E' & HL & HE); auto.
      exists A'. split; [exact E'|]. split; [unfold full in *; congruence|exact HE].
Qed.

Lemma daxpy_err L (A : list R) Rr (B : list R) alpha : ~ (length L = length Rr /\ incl L Rr) ->
  daxpy radd rmul ieq idim L A Rr B alpha = Err.
Proof.
  intros H. unfold daxpy. destruct (Nat.eqb_spec (length L) (length Rr)) as [E|E]; [|reflexivity]. cbn [negb].
  unfold calcPerm. rewrite (calcPerm_loop_err ieq ieq_spec); auto. apply seq_length.
Qed.

Lemma tpermute_spec Ais (A : list R) iset : NoDup Ais -> Permutation Ais iset ->
  (forall x, In x Ais -> 0 < idim x) -> full idim Ais A ->
  exists B, tpermute ieq idim Ais A iset = Ok (iset, B) /\ full idim iset B /\
    forall s, inrange idim iset s -> elt r0 idim iset B s = elt r0 idim Ais A s.
Proof.
  intros NA HP Hpos FA. unfold tpermute. rewrite (Permutation_length HP), Nat.eqb_refl. cbn [negb].
  destruct Ais as [|x0 A0] eqn:EA.
  - apply Permutation_nil in HP. subst iset. cbn [calcPerm calcPerm_loop obind isTrivial].
    exists A. split; [reflexivity|]. auto.
  - rewrite <- EA in *. destruct (calcPerm_through' x0 Ais iset NA HP) as (P & E & HPm & HT). rewrite E. cbn [obind].
    assert (Hpos' : forall x, In x iset -> 0 < idim x) by (intros x Hx; apply Hpos; eapply Permutation_in; [symmetry; exact HP|auto]).
    assert (NI : NoDup iset) by (eapply Permutation_NoDup; eauto).
    destruct (isTrivial P) eqn:ET.
    + assert (ERL : Ais = iset).
      { unfold isTrivial in ET. apply isTrivial_from_spec in ET. rewrite HT, ET.
        rewrite (proj1 HPm). unfold through. apply map_nth_seq. }
      exists A. rewrite <- ERL. auto.
    + assert (EB : permute_inds P Ais = Ok iset).
      { unfold permute_inds. rewrite EA at 1.
        destruct (permute_loop_through x0 (length iset) P Ais (repeat x0 (length Ais)) HPm) as (to & E1 & HL1 & HT1).
        - now apply Permutation_length.
        - rewrite repeat_length. now apply Permutation_length.
        - rewrite E1. f_equal. apply (through_inj x0 (length iset) P); auto. congruence. }
      rewrite EB. cbn [obind].
      destruct (permuteRange_relabel idim P Ais iset x0 HPm HT) as (vr & EV & _).
      unfold irange. rewrite EV. cbn [obind].
      assert (FT : full idim iset A).
      { unfold full in *. rewrite FA.   clear - HP. induction HP; simpl; [auto|now rewrite IHHP|rewrite !Nat.mul_assoc; f_equal; apply Nat.mul_comm|congruence]. }
      destruct (transform_relabel ieq idim ieq_spec (fun b _ : R => b) r0 r0 P Ais iset x0 A A vr)
        as (B & E' & HL & HE); auto.
      unfold tassign. rewrite E'. cbn [obind]. exists B. split; [reflexivity|]. split; [unfold full in *; congruence|exact HE].
Qed.

Lemma tpermute_err Ais (A : list R) iset : ~ (length Ais = length iset /\ incl iset Ais) ->
  tpermute ieq idim Ais A iset = Err.
Proof.
  intros H. unfold tpermute. destruct (Nat.eqb_spec (length Ais) (length iset)) as [E|E]; [|reflexivity]. cbn [negb].
  unfold calcPerm. rewrite (calcPerm_loop_err ieq ieq_spec); auto. apply seq_length.
Qed.
End Ring.
End Dense.

(** ** the non-contracting product *)
Section NC.
Context {R : Type} (r0 : R) (rmul : R -> R -> R).

Lemma shift_0 t : shift 0 t = t.
Proof. unfold shift. rewrite <- map_id. apply map_ext. intros; lia. Qed.

Lemma set_ptrs_spec own : NoDup own -> forall cl k f, NoDup cl ->
  set_ptrs cl k own (map f own) =
  Ok (map (fun y => match find_index cl y with Some j => Some (k + j) | None => f y end) own).
Proof.
  intros HN. induction cl as [|c cl IH]; intros k f HNc; simpl; auto. inversion HNc as [|? ? Hc HN']; subst.
  destruct (find_index own c) as [na|] eqn:E.
  - destruct (find_pos_some Z.eqb Zeqb_spec c own na c E) as [K1 K2].
    rewrite oupd_ok by now rewrite map_length. cbn [obind].
    rewrite (upd_map_one Z.eqb Zeqb_spec f (Some k) own na c) by auto. rewrite IH by auto. f_equal.
    apply map_ext. intros y. unfold find_index. cbn [find_pos].
    destruct (Z.eqb_spec y c) as [->|Ey].
    + assert (Z : find_pos Z.eqb c cl = None) by (apply (find_pos_none Z.eqb Zeqb_spec); auto). rewrite Z, Z.eqb_refl. now rewrite Nat.add_0_r.
    + destruct (find_pos Z.eqb y cl); simpl; [f_equal; lia|]. destruct (Z.eqb_spec c y); congruence.
  - rewrite IH by auto. f_equal. apply map_ext_in. intros y Hy. unfold find_index. cbn [find_pos].
    apply (find_pos_none Z.eqb Zeqb_spec) in E.
    destruct (Z.eqb_spec y c) as [->|Ey]; [contradiction|].
    destruct (find_pos Z.eqb y cl); simpl; auto.
Qed.

Lemma deref_spec ci (s : Z -> nat) own : NoDup ci -> incl own ci ->
  deref (map (fun y => match find_index ci y with Some j => Some (0 + j) | None => None end) own) (map s ci) = Ok (map s own).
Proof.
  intros HN. induction own as [|x own IH]; intros HI; cbn [map deref]; auto.
  destruct (find_index ci x) as [j|] eqn:E.
  - destruct (find_pos_some Z.eqb Zeqb_spec x ci j 0%Z E) as [K1 K2]. rewrite (Nat.add_0_l j).
    rewrite (oget_ok (s 0%Z)) by now rewrite map_length. cbn [obind]. rewrite map_nth, K2.
    rewrite IH; [reflexivity|]. intros y Hy. apply HI. simpl; auto.
  - apply (find_pos_none Z.eqb Zeqb_spec) in E. exfalso. apply E, HI. simpl; auto.
Qed.

Lemma ncprod_loop_spec (F : nat -> R) pa pb rA A rB B :
  forall n k (ind : nat -> list nat) C, k + n <= length C ->
  (forall j, k <= j < k + n -> exists ia ib oa ob, deref pa (ind j) = Ok ia /\ deref pb (ind j) = Ok ib /\
     offset 0 rA ia = Ok oa /\ offset 0 rB ib = Ok ob /\ oa < length A /\ ob < length B /\ F j = rmul (nth oa A r0) (nth ob B r0)) ->
  exists C', ncprod_loop rmul (map (fun j => (ind j, j)) (seq k n)) pa pb rA A rB B C = Ok C' /\ length C' = length C /\
    forall j, nth j C' r0 = if (k <=? j) && (j <? k + n) then F j else nth j C r0.
Proof.
  induction n as [|n IH]; intros k ind C HL HF; cbn [seq map ncprod_loop].
  - exists C. split; auto. split; auto. intros j. destruct (Nat.leb_spec k j), (Nat.ltb_spec j (k + 0)); simpl; auto; lia.
  - destruct (HF k ltac:(lia)) as (ia & ib & oa & ob & -> & -> & E1 & E2 & L1 & L2 & EF). cbn [obind]. rewrite E1. cbn [obind]. rewrite E2.
    cbn [obind]. rewrite (oget_ok r0 A) by auto. cbn [obind]. rewrite (oget_ok r0 B) by auto. cbn [obind].
    rewrite oupd_ok by lia. cbn [obind].
    destruct (IH (S k) ind (upd k (rmul (nth oa A r0) (nth ob B r0)) C)) as (C' & E & HL' & H').
    { rewrite upd_length. lia. }
    { intros j Hj. apply HF. lia. }
    exists C'. split; [exact E|]. split; [rewrite upd_length in HL'; exact HL'|]. intros j. rewrite H'.
    destruct (Nat.eq_dec j k) as [->|Ej].
    + replace (S k <=? k) with false by (symmetry; apply Nat.leb_gt; lia).
      rewrite Nat.leb_refl. replace (k <? k + S n) with true by (symmetry; apply Nat.ltb_lt; lia). cbn [andb].
      rewrite nth_upd_eq by lia. auto.
    + rewrite nth_upd_neq by auto.
      destruct (Nat.leb_spec (S k) j), (Nat.leb_spec k j), (Nat.ltb_spec j (S k + n)), (Nat.ltb_spec j (k + S n)); simpl; auto; lia.
Qed.

Variable d : Z -> nat.
Lemma ncprod_impl_spec (ai bi ci : labels) (A B C : list R) :
  NoDup ai -> NoDup bi -> NoDup ci -> incl ai ci -> incl bi ci -> ci <> [] ->
  (forall x, In x ci -> 0 < d x) -> full d ai A -> full d bi B -> full d ci C ->
  exists C', ncprod_impl rmul (range_init (map d ai)) A ai (range_init (map d bi)) B bi (range_init (map d ci)) C ci = Ok C' /\
    full d ci C' /\ forall s, inrange d ci s -> elt r0 d ci C' s = rmul (elt r0 d ai A s) (elt r0 d bi B s).
Proof.
  intros NA NB NC IA IB Hne Hpos FA FB FC. unfold ncprod_impl.
  assert (LA : repeat None (length (range_init (map d ai))) = map (fun _ => @None nat) ai).
  { unfold range_init. rewrite with_strides_length, map_length. clear. induction ai; simpl; auto. now f_equal. }
  assert (LB : repeat None (length (range_init (map d bi))) = map (fun _ => @None nat) bi).
  { unfold range_init. rewrite with_strides_length, map_length. clear. induction bi; simpl; auto. now f_equal. }
  rewrite LA, LB, !set_ptrs_spec by auto. cbn [obind].
  set (e := map d ci). set (rC := range_init e).
  assert (EE : map ext rC = e) by apply map_ext_range_init.
  assert (Epos : forall x, In x e -> 0 < x) by (intros x Hx; apply in_map_iff in Hx as (y & <- & Hy); auto).
  assert (SP : 0 < size e) by now apply size_pos.
  assert (rne : rC <> []).
  { unfold rC, e. destruct ci; [contradiction|]. discriminate. }
  pose proof (riter_loop_spec 0 rC rne (size e) 0) as EL. cbv zeta in EL. rewrite EE in EL.
  rewrite decode_zero in EL by auto. rewrite dot_repeat0, shift_repeat0 in EL.
  rewrite dim_size, EE. unfold riter_begin.
  assert (LR : length rC = length e) by (unfold rC, range_init; apply with_strides_length).
  rewrite LR, EL by lia. cbn [obind].
  assert (EM : map (fun j => (shift 0 (decode e j), dot rC (decode e j))) (seq 0 (size e)) =
               map (fun j => (decode e j, j)) (seq 0 (size e))).
  { apply map_ext_in. intros j Hj. apply in_seq in Hj. f_equal.
    - apply shift_0.
    - unfold rC. rewrite dot_range_init by apply decode_length. apply enc_decode. lia. }
  rewrite EM.
  assert (LC : length C = size e) by (apply (full_size d); auto).
  destruct (ncprod_loop_spec (fun j => let s := assign Z.eqb ci (decode e j) (fun _ => 0) in rmul (elt r0 d ai A s) (elt r0 d bi B s))
     (map (fun y => match find_index ci y with Some j => Some (0 + j) | None => None end) ai)
     (map (fun y => match find_index ci y with Some j => Some (0 + j) | None => None end) bi)
     (range_init (map d ai)) A (range_init (map d bi)) B (size e) 0 (decode e) C) as (C' & E & HL & HE).
  - lia.
  - intros j Hj. set (s := assign Z.eqb ci (decode e j) (fun _ => 0)).
    assert (Es : map s ci = decode e j).
    { apply (assign_map Z.eqb d Zeqb_spec); auto. unfold e. rewrite decode_length, map_length. reflexivity. }
    assert (Hs : inrange d ci s) by (apply inrange_valid; rewrite Es; apply decode_valid; lia).
    exists (map s ai), (map s bi), (enc (map d ai) (map s ai)), (enc (map d bi) (map s bi)).
    rewrite <- Es, !deref_spec by auto. split; auto. split; auto.
    assert (HO : forall l, offset 0 (range_init (map d l)) (map s l) = Ok (enc (map d l) (map s l))).
    { intros l. pose proof (offset_dot 0 (range_init (map d l)) (map s l)) as O. rewrite shift_0 in O. rewrite O by (unfold range_init; rewrite with_strides_length, !map_length; lia).
      now rewrite dot_range_init by now rewrite !map_length. }
    split; [apply HO|]. split; [apply HO|].
    split; [rewrite (full_size d ai A FA); apply enc_lt, inrange_valid; intros x Hx; apply Hs; auto|].
    split; [rewrite (full_size d bi B FB); apply enc_lt, inrange_valid; intros x Hx; apply Hs; auto|].
    cbv zeta. unfold elt. now rewrite !colmajor_enc.
  - rewrite E. exists C'. split; [reflexivity|]. split; [unfold full in *; congruence|]. intros s Hs.
    unfold elt at 1. rewrite HE. rewrite colmajor_enc. fold e.
    assert (K : enc e (map s ci) < size e) by (apply enc_lt, inrange_valid; auto).
    replace (0 <=? enc e (map s ci)) with true by (symmetry; apply Nat.leb_le; lia).
    replace (enc e (map s ci) <? 0 + size e) with true by (symmetry; apply Nat.ltb_lt; lia). cbn [andb].
    rewrite decode_enc by (apply inrange_valid; auto).
    assert (Ag : forall x, In x ci -> assign Z.eqb ci (map s ci) (fun _ => 0) x = s x).
    { apply ext_in_map. rewrite (assign_map Z.eqb d Zeqb_spec); auto. now rewrite map_length. }
    cbv zeta. f_equal; apply elt_ext; intros x Hx; apply Ag; auto.
Qed.
End NC.

Section Slash.
Context {R : Type} (r0 : R) (rmul : R -> R -> R).
Context {I : Type} (ieq : I -> I -> bool) (idim : I -> nat).
Hypothesis ieq_spec : forall a b, ieq a b = true <-> a = b.

Lemma merged_spec L Rr l : incl l L ->
  merged l (map (glab ieq L Rr) l) = map (fun x => (x, glab ieq L Rr x)) (filter (fun x => mem ieq x Rr) l).
Proof.
  induction l as [|x l IH]; intros H; simpl; auto.
  rewrite IH by (intros y Hy; apply H; simpl; auto).
  assert (Hx : In x L) by (apply H; simpl; auto).
  assert (E : (glab ieq L Rr x <? 0)%Z = mem ieq x Rr).
  { unfold glab. rewrite (proj2 (mem_In' ieq ieq_spec x L)) by auto. destruct (mem ieq x Rr).
    - apply Z.ltb_lt. apply neglab_neg.
    - apply Z.ltb_ge. lia. }
  rewrite E. destruct (mem ieq x Rr); reflexivity.
Qed.

Lemma ncprodIS_spec L Rr : let g := glab ieq L Rr in
  let N := common ieq L Rr ++ only ieq L Rr ++ only ieq Rr L in
  ncprodIS L (map g L) Rr (map g Rr) = (N, map g N).
Proof.
  intros g N. unfold ncprodIS. unfold g. rewrite merged_spec by (intros x Hx; auto).
  rewrite !(uncontracted_spec ieq L Rr) by auto.
  assert (E1 : filter (fun x => negb (mem ieq x L && mem ieq x Rr)) L = only ieq L Rr).
  { apply filter_ext_in. intros x Hx. now rewrite (proj2 (mem_In' ieq ieq_spec x L)). }
  assert (E2 : filter (fun x => negb (mem ieq x L && mem ieq x Rr)) Rr = only ieq Rr L).
  { apply filter_ext_in. intros x Hx. rewrite (proj2 (mem_In' ieq ieq_spec x Rr)) by auto. now rewrite andb_true_r. }
  rewrite E1, E2. change (filter (fun x => mem ieq x Rr) L) with (common ieq L Rr).
  rewrite <- !map_app, !map_map. fold N. simpl. now rewrite map_id.
Qed.

Theorem slash_spec L (A : list R) Rr (B : list R) junk :
  NoDup L -> NoDup Rr -> (forall x, In x L \/ In x Rr -> 0 < idim x) -> full idim L A -> full idim Rr B ->
  L <> [] \/ Rr <> [] ->
  let N := common ieq L Rr ++ only ieq L Rr ++ only ieq Rr L in
  exists C', slash rmul ieq idim L A Rr B junk = Ok (N, C') /\ full idim N C' /\
    forall s, inrange idim N s -> elt r0 idim N C' s = rmul (elt r0 idim L A s) (elt r0 idim Rr B s).
Proof.
  intros NL NR Hpos FA FB Hne N. unfold slash.
  rewrite (computeLabels_spec ieq ieq_spec L Rr NL NR). cbn [obind].
  rewrite (ncprodIS_spec L Rr). fold N.
  set (g := glab ieq L Rr). set (UU := L ++ Rr).
  assert (Ginj : forall x y, In x UU -> In y UU -> g x = g y -> x = y).
  { intros x y Hx Hy. apply in_app_iff in Hx, Hy. now apply (glab_inj ieq ieq_spec). }
  assert (IL : incl L UU) by (intros x Hx; apply in_app_iff; auto).
  assert (IR : incl Rr UU) by (intros x Hx; apply in_app_iff; auto).
  assert (INn : forall x, In x N <-> In x L \/ In x Rr).
  { intros x. unfold N. rewrite !in_app_iff, (in_common ieq ieq_spec), !(in_only ieq ieq_spec).
    destruct (in_dec (ieq_dec ieq ieq_spec) x L), (in_dec (ieq_dec ieq ieq_spec) x Rr); tauto. }
  assert (IN : incl N UU) by (intros x Hx; apply INn in Hx; apply in_app_iff; tauto).
  set (d := ldim idim g UU).
  assert (Ndup : forall l, incl l UU -> NoDup l -> NoDup (map g l)).
  { induction l as [|x l IH]; intros HI HN; simpl; [constructor|]. inversion HN; subst. constructor.
    - intros K. apply in_map_iff in K as (y & E & Hy). apply Ginj in E; [subst; contradiction| |]; apply HI; simpl; auto.
    - apply IH; auto. intros y Hy. apply HI. simpl; auto. }
  assert (NN : NoDup N).
  { unfold N. apply NoDup_app_intro; [now apply NoDup_filter| |].
    - apply NoDup_app_intro; [now apply NoDup_filter|now apply NoDup_filter|].
      intros x H1 H2. apply (in_only ieq ieq_spec) in H1, H2. tauto.
    - intros x H1 H2. apply (in_common ieq ieq_spec) in H1. apply in_app_iff in H2. rewrite !(in_only ieq ieq_spec) in H2. tauto. }
  assert (Einc : forall l, incl l UU -> irange idim l = range_init (map d (map g l))).
  { intros l Hl. unfold irange, d. now rewrite (map_ldim idim g UU Ginj). }
  rewrite (Einc L IL), (Einc Rr IR), (Einc N IN).
  assert (ful : forall l (D : list R), incl l UU -> full idim l D <-> full d (map g l) D).
  { intros l D Hl. unfold full, d. now rewrite (map_ldim idim g UU Ginj). }
  destruct (ncprod_impl_spec r0 rmul d (map g L) (map g Rr) (map g N) A B
     (map junk (seq 0 (dim (range_init (map d (map g N))))))) as (C' & E & F & HE); auto.
  { intros z Hz. apply in_map_iff in Hz as (x & <- & Hx). apply in_map, INn. auto. }
  { intros z Hz. apply in_map_iff in Hz as (x & <- & Hx). apply in_map, INn. auto. }
  { intros K. apply map_eq_nil in K. destruct Hne as [Hne|Hne].
    - destruct L as [|x L']; [contradiction|]. assert (Q : In x N) by (apply INn; simpl; auto). rewrite K in Q. destruct Q.
    - destruct Rr as [|x L']; [contradiction|]. assert (Q : In x N) by (apply INn; simpl; auto). rewrite K in Q. destruct Q. }
  { intros z Hz. apply in_map_iff in Hz as (x & <- & Hx). unfold d, ldim. rewrite (lookup_spec g UU Ginj) by auto.
    apply Hpos. now apply INn. }
  { now apply ful. } { now apply ful. } { apply full_buf. }
  rewrite E. cbn [obind]. exists C'. split; [reflexivity|]. split; [now apply ful|].
  intros s Hs. set (s' := lookup g UU s 0).
  assert (As : agree g UU s s') by (apply agree_lookup; auto).
  rewrite <- (elt_transport r0 idim g UU Ginj N C' s s'), <- (elt_transport r0 idim g UU Ginj L A s s'),
    <- (elt_transport r0 idim g UU Ginj Rr B s s') by auto. fold d. apply HE.
  intros z K. apply in_map_iff in K as (x & <- & Hx). unfold d, ldim. rewrite (lookup_spec g UU Ginj) by auto.
  rewrite As by auto. now apply Hs.
Qed.
End Slash.
