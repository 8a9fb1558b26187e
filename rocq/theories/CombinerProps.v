(** C17: combining and uncombining the indices of a dense tensor.  Vocabulary: TensorSpec.v; [tensor]
    is the well-formedness of ContractProps.v. *)
From Coq Require Import List ZArith Lia Bool Arith Permutation.
From Verif Require Import Util RangeModel RangeSpec RangeProofs TensorModel TensorSpec TensorProofs SemProofs
  ContractModel ContractProofs ContractSem LabelProofs DenseModel DenseProofs ContractProps CombinerModel.
Import ListNotations.
Local Arguments Nat.sub : simpl never.

Section Props.
Context {R : Type} (r0 : R).
Context {I : Type} (ieq : I -> I -> bool) (idim : I -> nat).
Hypothesis ieq_spec : forall a b, ieq a b = true <-> a = b.
Notation elt := (elt r0 idim).
Notation tensor := (tensor idim).
Notation combine := (combine ieq idim).
Notation times_combiner := (times_combiner ieq idim).
Notation find_pos := (find_pos ieq).

(** The value of the combined index for the choice s: column-major position in the combined ones. *)
Definition joint (cs : list I) (s : I -> nat) : nat := colmajor (map idim cs) (map s cs).
(** s extended by that value. *)
Definition withc (c : I) (cs : list I) (s : I -> nat) : I -> nat := override ieq s c (joint cs s).

Lemma prod_loop_spec is : forall rm, prod_loop idim is rm = rm * size (map idim is).
Proof. induction is as [|x is IH]; intros rm; cbn; [lia|]. rewrite IH. nia. Qed.
Lemma combiner_dim_spec cs n : combiner_dim idim cs = Ok n -> cs <> [] /\ n = size (map idim cs).
Proof. unfold combiner_dim. destruct cs as [|x cs]; [discriminate|]. intros H. split; [discriminate|]. pose proof (prod_loop_spec (x :: cs) 1) as K. rewrite Nat.mul_1_l in K. congruence. Qed.

Lemma override_self s c v : override ieq s c v c = v.
Proof. unfold override. now rewrite (proj2 (ieq_spec c c) eq_refl). Qed.
Lemma override_ne s c v x : x <> c -> override ieq s c v x = s x.
Proof. intros H. unfold override. destruct (ieq c x) eqn:E; auto. apply ieq_spec in E. congruence. Qed.

(** ** regrouping *)
Lemma regroup a cs b c (D : list R) s : ~ In c a -> ~ In c b -> idim c = size (map idim cs) ->
  elt (a ++ [c] ++ b) D (withc c cs s) = elt (a ++ cs ++ b) D s.
Proof.
  intros Ha Hb Hd. unfold TensorSpec.elt. f_equal. rewrite !colmajor_enc, !map_app.
  rewrite !enc_app by now rewrite !map_length.
  assert (EA : forall l, ~ In c l -> map (withc c cs s) l = map s l).
  { intros l Hl. apply map_ext_in. intros x Hx. apply override_ne. congruence. }
  rewrite (EA a), (EA b) by auto. cbn [map enc size app]. replace (withc c cs s c) with (enc (map idim cs) (map s cs)) by (symmetry; unfold withc; rewrite override_self; apply colmajor_enc). rewrite Hd. idtac.
  f_equal. f_equal. nia.
Qed.
Lemma regroup_full a cs b c (D : list R) : idim c = size (map idim cs) -> full idim (a ++ [c] ++ b) D <-> full idim (a ++ cs ++ b) D.
Proof.
  intros Hd. unfold full. rewrite <- !size_fold, !map_app, !size_app. cbn [map size]. rewrite Hd, Nat.mul_1_r. reflexivity.
Qed.

(** ** the permuted case *)
Lemma upd_map_pos (g : I -> option nat) c v : forall dis j, NoDup dis -> find_pos c dis = Some j ->
  oupd j v (map g dis) = Ok (map (fun x => if ieq c x then v else g x) dis).
Proof.
  intros dis j ND E. rewrite oupd_ok by (rewrite map_length; apply (find_pos_some ieq ieq_spec c dis j c E)). f_equal.
  revert j E; induction dis as [|x dis IH]; intros j E; [discriminate|]. cbn in E. destruct (ieq c x) eqn:EX.
  - injection E as <-. cbn. rewrite EX. f_equal. apply map_ext_in. intros y Hy. destruct (ieq c y) eqn:EY; auto.
    apply ieq_spec in EX, EY. inversion ND; congruence.
  - destruct (RangeModel.find_pos ieq c dis) as [k|] eqn:EK; [|discriminate]. injection E as <-. cbn. rewrite EX. f_equal. inversion ND; auto.
Qed.
Lemma place_spec dis : NoDup dis -> forall cs ni g, NoDup cs -> incl cs dis ->
  place ieq dis cs ni (map g dis) =
    Ok (map (fun x => match find_pos x cs with Some k => Some (ni + k) | None => g x end) dis, ni + length cs).
Proof.
  intros ND. induction cs as [|c cs IH]; intros ni g NC HI.
  - cbn. rewrite Nat.add_0_r. reflexivity.
  - cbn [place]. destruct (find_pos c dis) as [j|] eqn:E.
    2:{ apply (find_pos_none ieq ieq_spec) in E. exfalso. apply E, HI. now left. }
    rewrite (upd_map_pos g c (Some ni) dis j ND E). cbn [obind]. inversion NC; subst. rewrite IH; auto.
    2:{ intros x Hx. apply HI. now right. }
    do 2 f_equal; [|cbn; lia]. apply map_ext. intros x. cbn [RangeModel.find_pos]. destruct (ieq x c) eqn:EX.
    + apply ieq_spec in EX. subst x. assert (FN : find_pos c cs = None) by now apply (find_pos_none ieq ieq_spec). rewrite FN.
      rewrite (proj2 (ieq_spec c c) eq_refl). f_equal. lia.
    + destruct (RangeModel.find_pos ieq x cs) as [k|]; cbn [option_map].
      * f_equal. lia.
      * destruct (ieq c x) eqn:EX2; auto. apply ieq_spec in EX2. subst. rewrite (proj2 (ieq_spec x x) eq_refl) in EX. discriminate.
Qed.
Lemma place_err dis : forall cs ni P, length P = length dis -> ~ incl cs dis -> place ieq dis cs ni P = Err.
Proof.
  induction cs as [|c cs IH]; intros ni P LP H; [exfalso; apply H; intros x []|]. cbn [place].
  destruct (find_pos c dis) as [j|] eqn:E; auto. destruct (find_pos_some ieq ieq_spec c dis j c E) as [Hj Hc].
  rewrite oupd_ok by lia. cbn [obind]. apply IH; [now rewrite upd_length|]. intros K. apply H. intros x [<-|Hx]; auto.
  rewrite <- Hc. now apply nth_In.
Qed.
Definition outside (h : I -> option nat) (x : I) : bool := match h x with None => true | Some _ => false end.
Lemma rest_spec (h : I -> option nat) (dI : I) : forall ds ni p n, rest ds (map h ds) ni = (p, n) ->
  n = filter (outside h) ds /\ length p = length ds /\
  forall l', (forall x k, In x ds -> h x = Some k -> k < length l' /\ nth k l' dI = x) ->
    ni + length n <= length l' -> (forall k, k < length n -> nth (ni + k) l' dI = nth k n dI) ->
    through p dI l' = ds /\ Forall (fun k => k < length l') p.
Proof.
  unfold outside. induction ds as [|x ds IH]; intros ni p n E.
  - cbn in E. injection E as <- <-. split; [reflexivity|]. split; [reflexivity|]. intros; split; [reflexivity|constructor].
  - cbn [rest map] in E. cbn [filter]. destruct (h x) as [k|] eqn:EH.
    + destruct (rest ds (map h ds) ni) as [p' n'] eqn:ER. injection E as <- <-. destruct (IH _ _ _ ER) as (En & Ep & EL).
      split; [exact En|]. split; [cbn; lia|]. intros l' H1 H2 H3. destruct (EL l') as [T F]; auto.
      { intros y k' Hy. apply H1. now right. }
      destruct (H1 x k (or_introl eq_refl) EH) as [K1 K2]. split; [unfold through in *; cbn; congruence|now constructor].
    + destruct (rest ds (map h ds) (S ni)) as [p' n'] eqn:ER. injection E as <- <-. destruct (IH _ _ _ ER) as (En & Ep & EL).
      split; [now rewrite En|]. split; [cbn; lia|]. intros l' H1 H2 H3. cbn [length] in H2. destruct (EL l') as [T F].
      { intros y k' Hy. apply H1. now right. } { lia. }
      { intros k Hk. specialize (H3 (S k) ltac:(cbn; lia)). cbn [nth] in H3. rewrite <- H3. f_equal. lia. }
      specialize (H3 0 ltac:(cbn; lia)). cbn [nth] in H3. rewrite Nat.add_0_r in H3. split; [unfold through in *; cbn; congruence|]. constructor; auto. lia.
Qed.
Lemma perm_of_through p dI (l l' : list I) : through p dI l' = l -> Forall (fun k => k < length l') p -> length l' = length l -> NoDup l ->
  is_perm (length l') p.
Proof.
  intros HT HF HL ND. assert (LP : length p = length l') by (rewrite HL, <- HT; unfold through; now rewrite map_length).
  split; [exact LP|]. rewrite Forall_forall in HF. split.
  - intros i Hi. apply HF, nth_In. lia.
  - intros i j Hi Hj E. apply (proj1 (NoDup_nth l dI) ND); try lia. rewrite <- HT, !nth_through by lia. now rewrite E.
Qed.
Lemma find_pos_nth x : forall l k dI, find_pos x l = Some k -> k < length l /\ nth k l dI = x.
Proof. intros. eapply (find_pos_some ieq ieq_spec); eauto. Qed.
Lemma contig_spec : forall cs ds, contig_loop ieq ds cs = true -> ds = cs ++ skipn (length cs) ds.
Proof.
  induction cs as [|c cs IH]; intros [|x ds] H; cbn in H; try discriminate; auto. destruct (ieq x c) eqn:E; [|discriminate].
  apply ieq_spec in E. subst x. cbn. f_equal. now apply IH.
Qed.
Lemma replace_at_app (cs : list I) (c : I) : forall (a b : list I) j, ~ In c a -> replace_at j (j + length a) (a ++ c :: b) cs = a ++ cs ++ b.
Proof.
  assert (G : forall b j jc, jc < j -> replace_at j jc b cs = b).
  { clear. induction b as [|x b IH]; intros j jc H; cbn; auto. replace (j =? jc) with false by (symmetry; apply Nat.eqb_neq; lia). f_equal. apply IH. lia. }
  induction a as [|x a IH]; intros b j H; cbn [length app replace_at].
  - rewrite Nat.add_0_r, Nat.eqb_refl. rewrite G by lia. reflexivity.
  - replace (j =? j + S (length a)) with false by (symmetry; apply Nat.eqb_neq; lia). f_equal.
    replace (j + S (length a)) with (S j + length a) by lia. apply IH. cbn in H; tauto.
Qed.
Lemma find_split x l k : find_pos x l = Some k -> exists a b, l = a ++ x :: b /\ length a = k /\ ~ In x a.
Proof.
  revert k; induction l as [|y l IH]; intros k E; [discriminate|]. cbn in E. destruct (ieq x y) eqn:EX.
  - apply ieq_spec in EX. subst y. injection E as <-. exists [], l. cbn. auto.
  - destruct (RangeModel.find_pos ieq x l) as [j|] eqn:EJ; [|discriminate]. injection E as <-. destruct (IH j eq_refl) as (a & b & -> & <- & HN).
    exists (y :: a), b. cbn. repeat split; auto. intros [K|K]; auto. subst. rewrite (proj2 (ieq_spec x x) eq_refl) in EX. discriminate.
Qed.

Lemma nodup_no_dup N : NoDup N -> has_dup ieq N = false.
Proof.
  induction 1 as [|x l Hx _ IH]; auto. cbn. rewrite IH, orb_false_r. destruct (existsb (ieq x) l) eqn:E; auto.
  apply existsb_exists in E as (y & Hy & E). apply ieq_spec in E. congruence.
Qed.

(** The index c is new and has the dimension combiner gave it; cs are distinct indices. *)
Definition combines (c : I) (cs : list I) : Prop := combiner_dim idim cs = Ok (idim c) /\ NoDup (c :: cs).

(** C17.  Combining, in both builds: the combined indices, wherever and in whatever order they are on
    the tensor, are replaced by c, and every element is found at the column-major position of the
    values of the combined indices. *)
Theorem C17_combine (debug : bool) (L : list I) (A : list R) (c : I) (cs : list I) junk :
  tensor L A -> combines c cs -> ~ In c L -> incl cs L ->
  exists N B, times_combiner debug L A c cs junk = Ok (N, B) /\ tensor N B /\
    (forall x, In x N <-> x = c \/ (In x L /\ ~ In x cs)) /\
    forall s, inrange idim L s -> elt N B (withc c cs s) = elt L A s.
Proof.
  intros (NL & PL & FL) [CD NC] HcL HI. apply combiner_dim_spec in CD as [Hne Hd]. apply NoDup_cons_iff in NC as [Hc NC].
  assert (Hpc : 0 < idim c).
  { rewrite Hd. apply size_pos. intros e He. apply in_map_iff in He as (x & <- & Hx). apply PL, HI, Hx. }
  assert (G : exists N B, combine L A c cs junk = Ok (N, B) /\ tensor N B /\
    (forall x, In x N <-> x = c \/ (In x L /\ ~ In x cs)) /\
    forall s, inrange idim L s -> elt N B (withc c cs s) = elt L A s).
  2:{ destruct G as (N & B & E & T & H1 & H2). exists N, B. unfold CombinerModel.times_combiner. rewrite E. cbn [obind].
      rewrite nodup_no_dup by apply T. rewrite andb_false_r. auto. }
  unfold CombinerModel.combine. rewrite (proj2 (find_pos_none ieq ieq_spec c L) HcL).
  destruct cs as [|c1 cs'] eqn:ECS; [congruence|]. rewrite <- ECS in *.
  destruct (find_pos c1 L) as [J1|] eqn:EJ.
  2:{ apply (find_pos_none ieq ieq_spec) in EJ. exfalso. apply EJ, HI. rewrite ECS. now left. }
  destruct (contig_loop ieq (skipn (J1 + 1) L) cs') eqn:EC.
  - (* contiguous *)
    destruct (find_split _ _ _ EJ) as (a & b0 & EL & EA & _). apply contig_spec in EC.
    assert (SK : skipn (J1 + 1) L = b0).
    { rewrite EL, <- EA. rewrite skipn_app, skipn_all2 by lia. replace (length a + 1 - length a) with 1 by lia. reflexivity. }
    rewrite SK in EC. set (b := skipn (length cs') b0) in *.
    assert (EL' : L = a ++ cs ++ b) by (rewrite EL, ECS; cbn [app]; congruence).
    assert (EN : firstn J1 L ++ [c] ++ skipn (J1 + length cs) L = a ++ [c] ++ b).
    { rewrite EL' at 1. rewrite <- EA, firstn_app, Nat.sub_diag, firstn_all. cbn [firstn]. rewrite app_nil_r. do 2 f_equal.
      rewrite EL'. rewrite skipn_app, skipn_all2 by lia. cbn [app]. replace (length a + length cs - length a) with (length cs) by lia.
      rewrite skipn_app, skipn_all, Nat.sub_diag. reflexivity. }
    rewrite EN. exists (a ++ [c] ++ b), A. split; [reflexivity|].
    assert (NDL := NL). rewrite EL' in NDL.
    assert (Nab : NoDup (a ++ b)).
    { clear -NDL. induction cs as [|x cs IH]; auto. cbn in NDL. apply NoDup_remove_1 in NDL. auto. }
    assert (Hnab : ~ In c (a ++ b)).
    { intros K. apply HcL. rewrite EL'. rewrite !in_app_iff in *. tauto. }
    assert (DIS : forall x, In x (a ++ b) -> ~ In x cs).
    { intros x Hx Hc'. assert (Permutation (a ++ cs ++ b) (cs ++ a ++ b)) by (rewrite !app_assoc; apply Permutation_app_tail, Permutation_app_comm).
      eapply Permutation_NoDup in NDL; [|exact H]. clear -NDL Hx Hc'. induction cs as [|y cs IH]; [contradiction|]. cbn in NDL. inversion NDL; subst.
      destruct Hc' as [->|Hc']; auto. apply H1, in_or_app. auto. }
    split; [split; [|split]|].
    + cbn [app]. apply NoDup_Add with (a := c) (l := a ++ b); [apply Add_app|]. auto.
    + intros x Hx. rewrite !in_app_iff in Hx. cbn in Hx. destruct Hx as [Hx|[[<-|[]]|Hx]]; auto; apply PL; rewrite EL', !in_app_iff; auto.
    + apply (regroup_full a cs b c A); auto. rewrite <- EL'. exact FL.
    + split.
      * intros x. rewrite EL'. rewrite !in_app_iff. cbn [In]. split.
        -- intros [H|[[<-|[]]|H]]; [right| left; reflexivity|right]; (split; [tauto|apply DIS; rewrite in_app_iff; tauto]).
        -- intros [->|[[H|[H|H]] K]]; auto; tauto.
      * intros s Hs. rewrite regroup; auto; [now rewrite <- EL'| |]; intros K; apply Hnab; rewrite in_app_iff; auto.
  - (* permuted *)
    assert (EP : repeat None (length L) = map (fun _ : I => (None : option nat)) L) by (clear; induction L; cbn; congruence).
    rewrite EP, place_spec by auto. cbn [obind plus].
    set (h := fun x => match find_pos x cs with Some k => Some k | None => None end). change (fun x : I => match find_pos x cs with Some k => Some (0 + k) | None => None end) with h.
    destruct (rest L (map h L) (length cs)) as [p n] eqn:ER.
    destruct (rest_spec h c1 L (length cs) p n ER) as (En & Ep & ET).
    assert (Hn : forall x, In x n <-> In x L /\ ~ In x cs).
    { intros x. rewrite En, filter_In. unfold outside, h. rewrite <- (find_pos_none ieq ieq_spec x cs).
      destruct (find_pos x cs); split; intros [? ?]; split; auto; congruence. }
    assert (Nn : NoDup n) by (rewrite En; now apply NoDup_filter).
    assert (ND' : NoDup (cs ++ n)). { apply NoDup_app_intro; auto. intros x K1 K2. apply Hn in K2. tauto. }
    assert (HPm : Permutation (cs ++ n) L).
    { apply NoDup_Permutation; auto. intros x. rewrite in_app_iff, Hn. destruct (in_dec (ieq_dec ieq ieq_spec) x cs); firstorder. }
    destruct (ET (cs ++ n)) as [HT HF].
    { intros x k Hx E. unfold h in E. destruct (find_pos x cs) as [k'|] eqn:EK; [|discriminate]. injection E as <-.
      destruct (find_pos_nth x cs k' c1 EK) as [K1 K2]. rewrite app_length, app_nth1 by auto. split; [lia|exact K2]. }
    { rewrite app_length. lia. }
    { intros k Hk. rewrite app_nth2 by lia. f_equal. lia. }
    assert (HPp : is_perm (length (cs ++ n)) p) by (apply (perm_of_through p c1 L (cs ++ n)); auto; now apply Permutation_length).
    assert (PP : forall x, In x (cs ++ n) -> 0 < idim x) by (intros x Hx; apply PL; eapply Permutation_in; eauto).
    destruct (permuteRange_relabel idim p L (cs ++ n) c1 HPp (eq_sym HT)) as (vr & EV & Eext & _).
    unfold irange. rewrite EV. cbn [obind]. rewrite Eext.
    set (to := map junk (seq 0 (dim (range_init (map idim (cs ++ n)))))).
    assert (FT : full idim (cs ++ n) to).
    { unfold to, full. rewrite map_length, seq_length, <- size_fold. rewrite dim_size. unfold range_init. now rewrite map_ext_range_init. }
    destruct (transform_relabel ieq idim ieq_spec (fun b _ : R => b) r0 r0 p L (cs ++ n) c1 A to vr) as (B & E' & HL & HE); auto.
    unfold tassign. rewrite E'. cbn [obind]. exists (c :: n), B. split; [reflexivity|].
    assert (FB : full idim (cs ++ n) B) by (unfold full in *; congruence).
    split; [split; [|split]|split].
    + constructor; auto. intros K. apply HcL. apply Hn in K. tauto.
    + intros x [<-|Hx]; auto. apply PP. rewrite in_app_iff. auto.
    + apply (regroup_full [] cs n c B Hd). exact FB.
    + intros x. cbn [In]. rewrite Hn. split; (intros [K|K]; [left; congruence|right; tauto]).
    + intros s Hs. rewrite <- HE by (intros x Hx; apply Hs; eapply Permutation_in; eauto).
      apply (regroup [] cs n c B s); auto. intros K. apply HcL. apply Hn in K. tauto.
Qed.

(** C17.  Uncombining: c is replaced, in place, by the combined indices. *)
Theorem C17_uncombine (debug : bool) (L : list I) (A : list R) (c : I) (cs : list I) junk :
  tensor L A -> combines c cs -> In c L -> (forall x, In x cs -> ~ In x L /\ 0 < idim x) ->
  exists N, times_combiner debug L A c cs junk = Ok (N, A) /\ tensor N A /\
    (forall x, In x N <-> In x cs \/ (In x L /\ x <> c)) /\
    forall s, inrange idim N s -> elt N A s = elt L A (withc c cs s).
Proof.
  intros (NL & PL & FL) [CD NC] HcL HD. apply combiner_dim_spec in CD as [Hne Hd]. apply NoDup_cons_iff in NC as [Hc NC].
  unfold CombinerModel.times_combiner, CombinerModel.combine. destruct (find_pos c L) as [jc|] eqn:EJ.
  2:{ apply (find_pos_none ieq ieq_spec) in EJ. contradiction. }
  destruct (find_split _ _ _ EJ) as (a & b & EL & EA & HNa). rewrite EL, <- EA.
  rewrite (replace_at_app cs c a b 0 HNa : replace_at 0 (length a) (a ++ c :: b) cs = a ++ cs ++ b). cbn [obind].
  assert (NDL := NL). rewrite EL in NDL. apply NoDup_remove in NDL as [NAB HNab].
  assert (HNb : ~ In c b) by (intros K; apply HNab; rewrite in_app_iff; auto).
  assert (NDN : NoDup (a ++ cs ++ b)).
  { eapply Permutation_NoDup; [symmetry; rewrite app_assoc; apply Permutation_app_tail, Permutation_app_comm|]. rewrite <- app_assoc.
    apply NoDup_app_intro; auto. intros x K1 K2. apply (HD x K1). rewrite EL. rewrite in_app_iff in *. cbn. tauto. }
  rewrite nodup_no_dup by auto. rewrite andb_false_r. exists (a ++ cs ++ b). split; [reflexivity|]. split; [split; [exact NDN|split]|split].
  - intros x Hx. rewrite !in_app_iff in Hx. destruct Hx as [H|[H|H]]; [|now apply HD|]; apply PL; rewrite EL, in_app_iff; cbn; auto.
  - apply (regroup_full a cs b c A Hd). cbn [app]. now rewrite <- EL.
  - intros x. rewrite EL in *. rewrite !in_app_iff. cbn [In]. split.
    + intros [H|[H|H]]; auto; right; (split; [tauto|]); intros ->; auto.
    + intros [H|[[H|[H|H]] K]]; auto; congruence.
  - intros s Hs. symmetry. apply (regroup a cs b c A s); auto.
Qed.

Lemma decode_enc_assign cs v : NoDup cs -> v < size (map idim cs) -> (forall x, In x cs -> 0 < idim x) ->
  forall s, let s' := assign ieq cs (decode (map idim cs) v) s in joint cs s' = v /\ inrange idim cs s' /\ forall x, ~ In x cs -> s' x = s x.
Proof.
  intros NC Hv Hp s s'. assert (EM : map s' cs = decode (map idim cs) v).
  { apply (assign_map ieq idim ieq_spec); auto. now rewrite decode_length, map_length. }
  split; [unfold joint; rewrite EM, colmajor_enc; now apply enc_decode|]. split.
  - apply (inrange_valid idim). rewrite EM. now apply decode_valid.
  - intros x Hx. now apply (assign_other ieq idim ieq_spec).
Qed.

(** C17.  Combining and then applying the combiner again restores every element; the indices are the
    original ones. *)
Theorem C17_roundtrip (debug : bool) (L : list I) (A : list R) (c : I) (cs : list I) junk junk' N B :
  tensor L A -> combines c cs -> ~ In c L -> incl cs L ->
  times_combiner debug L A c cs junk = Ok (N, B) ->
  exists L', times_combiner debug N B c cs junk' = Ok (L', B) /\ Permutation L' L /\ tensor L' B /\
    forall s, inrange idim L s -> elt L' B s = elt L A s.
Proof.
  intros TA HC HcL HI E. destruct (C17_combine debug L A c cs junk TA HC HcL HI) as (N' & B' & E' & TB & HN & HE).
  rewrite E in E'. injection E' as <- <-.
  destruct (C17_uncombine debug N B c cs junk' TB HC) as (L' & E2 & T2 & HL & HE2).
  - apply HN. now left.
  - intros x Hx. split; [|apply TA, HI, Hx]. intros K. apply HN in K as [->|[_ K]]; auto.
  - exists L'. split; [exact E2|].
    assert (HP : Permutation L' L).
    { apply NoDup_Permutation; [apply T2|apply TA|]. intros x. rewrite HL, HN. destruct (in_dec (ieq_dec ieq ieq_spec) x cs) as [K|K].
      - split; auto.
      - split; [intros [H|[[H|H] J]]; tauto|]. intros H. right. split; auto. intros ->. contradiction. }
    split; [exact HP|]. split; [exact T2|]. intros s Hs. rewrite HE2 by (intros x Hx; apply Hs; eapply Permutation_in; eauto). now apply HE.
Qed.

(** C17.  Seen from the result: its element at value v of c is the element of the tensor at the
    values of the combined indices whose column-major position is v. *)
Theorem C17_combine_elements (debug : bool) (L : list I) (A : list R) (c : I) (cs : list I) junk N B :
  tensor L A -> combines c cs -> ~ In c L -> incl cs L ->
  times_combiner debug L A c cs junk = Ok (N, B) ->
  forall t, inrange idim N t -> exists s, inrange idim L s /\ joint cs s = t c /\ (forall x, In x L -> ~ In x cs -> s x = t x) /\ elt N B t = elt L A s.
Proof.
  intros TA HC HcL HI E t Ht. destruct (C17_combine debug L A c cs junk TA HC HcL HI) as (N' & B' & E' & TB & HN & HE).
  rewrite E in E'. injection E' as <- <-. destruct HC as [CD NC]. apply combiner_dim_spec in CD as [Hne Hd]. apply NoDup_cons_iff in NC as [Hc NC].
  assert (Hv : t c < size (map idim cs)) by (rewrite <- Hd; apply Ht, HN; now left).
  destruct (decode_enc_assign cs (t c) NC Hv (fun x Hx => proj1 (proj2 TA) x (HI x Hx)) t) as (J & IR & O).
  set (s := assign ieq cs (decode (map idim cs) (t c)) t) in *. exists s.
  assert (Hs : inrange idim L s).
  { intros x Hx. destruct (in_dec (ieq_dec ieq ieq_spec) x cs) as [K|K]; [now apply IR|]. rewrite O by auto. apply Ht, HN. auto. }
  split; [exact Hs|]. split; [exact J|]. split; [auto|]. rewrite <- (HE s Hs). apply elt_ext. intros x Hx. unfold withc.
  apply HN in Hx as [->|[Hx K]]; [now rewrite override_self|]. rewrite override_ne by congruence. now rewrite O.
Qed.

(** C17.  A combiner whose combined index and some of whose combined indices the tensor lacks is refused. *)
Theorem C17_refused (debug : bool) (L : list I) (A : list R) (c : I) (cs : list I) junk :
  combines c cs -> ~ In c L -> ~ incl cs L -> times_combiner debug L A c cs junk = Err.
Proof.
  intros [CD NC] HcL HI. apply combiner_dim_spec in CD as [Hne Hd].
  assert (G : combine L A c cs junk = Err); [|unfold CombinerModel.times_combiner; now rewrite G].
  unfold CombinerModel.combine. rewrite (proj2 (find_pos_none ieq ieq_spec c L) HcL).
  destruct cs as [|c1 cs'] eqn:ECS; [congruence|]. rewrite <- ECS in *. destruct (find_pos c1 L) as [J1|] eqn:EJ; auto.
  destruct (contig_loop ieq (skipn (J1 + 1) L) cs') eqn:EC.
  - exfalso. apply HI. intros x Hx. rewrite ECS in Hx. destruct (find_split _ _ _ EJ) as (a & b0 & EL & EA & _). apply contig_spec in EC.
    rewrite EL, <- EA in EC. rewrite skipn_app, skipn_all2 in EC by lia. replace (length a + 1 - length a) with 1 in EC by lia. cbn [app skipn] in EC.
    rewrite EL, in_app_iff. cbn [In] in *. destruct Hx as [->|Hx]; auto. right; right. rewrite EC, in_app_iff. auto.
  - rewrite place_err; auto. now rewrite repeat_length.
Qed.
End Props.

(** ** concrete cases *)
Definition cbd (i : nat) : nat := match i with 2 => 3 | 9 => 6 | 8 => 4 | _ => 2 end.
(** Indices 1 (2 values), 2 (3 values), 3 (2 values); 9 combines (2,1): first a permuted, then a
    contiguous case, and back. *)
Example C17_nonvacuous :
  let A := [1;2;3;4;5;6;7;8;9;10;11;12]%Z in
  combines cbd 9 [2; 1] /\ combines cbd 9 [1; 2] /\ tensor cbd [1; 2; 3] A /\
  times_combiner Nat.eqb cbd true [1; 2; 3] A 9 [2; 1] (fun _ => 0%Z) = Ok ([9; 3], [1;3;5;2;4;6;7;9;11;8;10;12]%Z) /\
  times_combiner Nat.eqb cbd true [1; 2; 3] A 9 [1; 2] (fun _ => 0%Z) = Ok ([9; 3], A) /\
  times_combiner Nat.eqb cbd true [9; 3] A 9 [1; 2] (fun _ => 0%Z) = Ok ([1; 2; 3], A).
Proof.
  assert (N : forall a b : nat, a <> 9 -> b <> 9 -> a <> b -> NoDup [9; a; b]).
  { intros. repeat constructor; cbn; intuition. }
  repeat split; auto.
  - repeat constructor; cbn; intuition congruence.
  - cbn. intros x [<-|[<-|[<-|[]]]]; cbn; lia.
Qed.

(** Finding: a tensor that already has the combined index and one of the combined ones is not
    contracted over both: a release build returns a tensor with a repeated index. *)
Theorem C17_both_refuted : exists (L : list nat) (A : list Z) c cs N B,
  tensor cbd L A /\ combines cbd c cs /\ In c L /\
  times_combiner Nat.eqb cbd false L A c cs (fun _ => 0%Z) = Ok (N, B) /\ ~ NoDup N.
Proof.
  exists [8; 1], [1;2;3;4;5;6;7;8]%Z, 8, [1; 3]. do 2 eexists. split; [|split; [|split; [|split; [reflexivity|]]]].
  - split; [|split; [|reflexivity]]. { repeat constructor; cbn; intuition congruence. } { cbn. intros x [<-|[<-|[]]]; cbn; lia. }
  - split; [reflexivity|]. repeat constructor; cbn; intuition congruence.
  - now left.
  - intros K. inversion K as [|? ? H1 H2]; subst. apply H1. cbn. auto.
Qed.

Print Assumptions C17_combine.
Print Assumptions C17_uncombine.
Print Assumptions C17_roundtrip.
Print Assumptions C17_combine_elements.
Print Assumptions C17_refused.
Print Assumptions C17_both_refuted.
