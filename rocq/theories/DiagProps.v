(** C49: products of a dense tensor with a diagonal tensor (delta, diagITensor).  Vocabulary:
    TensorSpec.v (elt, sum_over, common, only, inrange) and DiagSpec.v (diagonal, entry,
    diag_tensor); [tensor] is the well-formedness of ContractProps.v.  The model is DiagModel.v. *)
From Coq Require Import List ZArith Lia Bool Arith Permutation Ring.
From Verif Require Import Util RangeModel RangeSpec RangeProofs TensorModel TensorSpec TensorProofs SemProofs
  ContractModel ContractProofs ContractSem LabelProofs DenseModel DenseProofs ContractProps
  DiagModel DiagSpec DiagProofs.
Import ListNotations.
Local Arguments Nat.sub : simpl never.

Lemma Ok_inj {A} (a b : A) : Ok a = Ok b -> a = b.
Proof. congruence. Qed.

Section Props.
Context {R : Type} (r0 r1 : R) (radd rmul : R -> R -> R) (is1 : R -> bool).
Context (SR : semi_ring_theory r0 r1 radd rmul (@eq R)).
Context (is1_spec : forall x, is1 x = true -> x = r1).
Add Ring RRdp : SR.
Context {I : Type} (ieq : I -> I -> bool) (idim : I -> nat).
Hypothesis ieq_spec : forall a b, ieq a b = true <-> a = b.
Notation elt := (elt r0 idim).
Notation sum_over := (sum_over r0 radd ieq idim).
Notation sumn := (sumn r0 radd).
Notation tensor := (tensor idim).
Notation memb := (mem ieq).
Notation minDim := (minDim idim).
Notation entry := (entry r0).
Notation diagonal := (diagonal r0).
Notation diag_tensor := (diag_tensor idim).
Notation store_elt := (store_elt r0 idim).
Notation times_diag := (times_diag r0 radd rmul is1 ieq idim).

(** Reading the element s of a result, whichever storage it has. *)
Definition reads (N : list I) (st : storage R) (s : I -> nat) : outcome R := store_elt N st (map s N).

(** ** reading elements *)
Lemma reads_dense N C s : full idim N C -> inrange idim N s -> reads N (SDense C) s = Ok (elt N C s).
Proof.
  intros F Hs. unfold reads, store_elt. cbn [DiagModel.store_elt].
  rewrite <- (shift_0 (map s N)). rewrite offset_dot by (unfold irange, range_init; now rewrite with_strides_length, !map_length).
  cbn [obind]. unfold irange. rewrite dot_range_init by now rewrite !map_length.
  rewrite (oget_ok r0); [reflexivity|]. unfold full in F. rewrite F, <- size_fold. apply enc_lt, (inrange_valid idim). auto.
Qed.

Lemma diag_elt_ok d (vs : list nat) : (forall v, hd_error vs = Some v -> v < diag_size d) -> (vs = [] -> 0 < diag_size d) ->
  diag_elt r0 d vs = Ok (if forallb (Nat.eqb (hd 0 vs)) vs then entry d (hd 0 vs) else r0).
Proof.
  intros H H0. unfold diag_elt, DiagSpec.entry, diag_size, allSame in *.
  assert (E : match vs with [] => 0 | i :: _ => i end = hd 0 vs) by (destruct vs; reflexivity). rewrite E.
  destruct (forallb _ vs); auto. destruct (dst d) as [|x l] eqn:ED; auto.
  assert (K : hd 0 vs < length (x :: l)) by (destruct vs; cbn [hd hd_error] in *; [apply H0; auto|apply H; auto]).
  destruct (nth_error (x :: l) (hd 0 vs)) eqn:EN.
  - now rewrite (nth_error_nth _ _ _ EN).
  - apply nth_error_None in EN. lia.
Qed.

Lemma dsize D (d : diag R) : diag_tensor D d -> diag_size d = minDim D.
Proof.
  intros (_ & _ & E1 & E2). unfold diag_size, allSame. destruct (dst d) eqn:E; auto.
  destruct E2 as [E2|E2]; [discriminate|]. now rewrite <- E2.
Qed.

(** C49.  elt() on a diagonal tensor. *)
Theorem C49_elt D d s : diag_tensor D d -> inrange idim D s ->
  reads D (SDiag d) s = Ok (diagonal (entry d) D s).
Proof.
  intros HD Hs. unfold reads. cbn [DiagModel.store_elt]. destruct D as [|x D'].
  - cbn [map]. unfold diag_elt, diagonal, DiagSpec.diagonal, DiagSpec.entry, allSame. cbn [forallb].
    destruct HD as (_ & _ & _ & E2). cbn in E2. destruct (dst d) as [|y l] eqn:E; auto.
  - destruct (forallb (fun y => s y =? s x) D') eqn:EF.
    + rewrite diag_elt_ok.
      * cbn [map hd forallb DiagSpec.diagonal]. rewrite Nat.eqb_refl. cbn [andb]. rewrite EF.
        replace (forallb (Nat.eqb (s x)) (map s D')) with true; auto. symmetry. apply forallb_forall. intros v Hv.
        apply in_map_iff in Hv as (y & <- & Hy). rewrite forallb_forall in EF. rewrite Nat.eqb_sym. auto.
      * intros v Hv. cbn in Hv. injection Hv as <-. rewrite (dsize _ _ HD).
        destruct (minDim_in idim (x :: D') ltac:(discriminate)) as (y & Hy & ->). destruct Hy as [<-|Hy]; [apply Hs; now left|].
        rewrite forallb_forall in EF. specialize (EF y Hy). apply Nat.eqb_eq in EF. rewrite <- EF. apply Hs. now right.
      * discriminate.
    + cbn [DiagSpec.diagonal]. rewrite EF. unfold diag_elt. cbn [map forallb]. rewrite Nat.eqb_refl. cbn [andb].
      replace (forallb (Nat.eqb (s x)) (map s D')) with false; auto. symmetry. rewrite <- not_true_iff_false. intros K.
      rewrite <- not_true_iff_false in EF. apply EF. apply forallb_forall. intros y Hy. rewrite forallb_forall in K. rewrite Nat.eqb_sym.
      apply K. now apply in_map.
Qed.

(** ** the contraction, for any labelling *)
Section Core.
Variables (g : I -> Z) (T D N : list I) (t : list R) (d : diag R).
Hypothesis TT : tensor T t.
Hypothesis TD : diag_tensor D d.
Hypothesis D0 : D <> [].
Hypothesis ND_N : NoDup N.
Hypothesis HN : forall x, In x N <-> (In x T /\ ~ In x D) \/ (In x D /\ ~ In x T).
Hypothesis g_inj : forall x y, In x (T ++ D) -> In y (T ++ D) -> g x = g y -> x = y.
Hypothesis g_pos : forall x, In x T \/ In x D -> (0 <? g x)%Z = negb (memb x T && memb x D).
Hypothesis g_nz : forall x, (0 <=? g x)%Z = (0 <? g x)%Z.
Hypothesis keeps : only ieq T D <> [] \/ only ieq D T = [] \/ exists x, In x D /\ ~ In x T /\ idim x = minDim D.
Let IT : incl T (T ++ D). Proof. intros x Hx. apply in_or_app; auto. Qed.
Let ID : incl D (T ++ D). Proof. intros x Hx. apply in_or_app; auto. Qed.

Lemma g_neg x : (g x <? 0)%Z = negb (0 <? g x)%Z.
Proof. rewrite <- g_nz. rewrite Z.ltb_antisym. reflexivity. Qed.

Lemma any_unc (a b : list I) : incl a (T ++ D) -> (forall x, In x a -> (0 <=? g x)%Z = negb (memb x b)) ->
  existsb (fun v => (0 <=? v)%Z) (map g a) = true <-> only ieq a b <> [].
Proof.
  intros HI H. rewrite existsb_exists. split.
  - intros (v & Hv & E). apply in_map_iff in Hv as (x & <- & Hx). rewrite H in E by auto. apply negb_true_iff, (mem_not ieq ieq_spec) in E.
    intros K. assert (In x (only ieq a b)) by (apply (in_only ieq ieq_spec); auto). rewrite K in H0. contradiction.
  - intros K. destruct (only ieq a b) as [|x l] eqn:E; [congruence|]. assert (Hx : In x (only ieq a b)) by (rewrite E; now left).
    apply (in_only ieq ieq_spec) in Hx as [Hx1 Hx2]. exists (g x). split; [now apply in_map|]. rewrite H by auto.
    apply negb_true_iff, (mem_not ieq ieq_spec). auto.
Qed.
Lemma gT x : In x T -> (0 <=? g x)%Z = negb (memb x D).
Proof. intros Hx. rewrite g_nz, g_pos by auto. now rewrite (proj2 (mem_In' ieq ieq_spec x T) Hx). Qed.
Lemma gD x : In x D -> (0 <=? g x)%Z = negb (memb x T).
Proof. intros Hx. rewrite g_nz, g_pos by auto. rewrite (proj2 (mem_In' ieq ieq_spec x D) Hx). now rewrite andb_true_r. Qed.

(** The Einstein sum the result should have. *)
Notation rhs := (fun s => sum_over (common ieq T D) (fun u => rmul (elt T t u) (diagonal (entry d) D u)) s).

Lemma replace_ok : isReplaceDelta is1 idim d D (map g D) = true ->
  let N' := replaceIndex T (map g T) D (map g D) in
  NoDup N' /\ (forall x, In x N' <-> In x N) /\ full idim N' t /\
  forall s, inrange idim N' s -> elt N' t s = rhs s.
Proof.
  intros H. pose proof gD as GD. pose proof gT as GT. pose proof g_neg as GN. destruct D as [|a [|b [|c D']]] eqn:ED; try discriminate. cbn [map isReplaceDelta] in H.
  apply andb_true_iff in H as [H HX]. apply andb_true_iff in H as [H Hab]. apply andb_true_iff in H as [HA H1].
  apply Nat.eqb_eq in Hab. apply is1_spec in H1.
  destruct TT as (NT & PT & FT). destruct TD as (NDD & PD & EL & _).
  assert (Nab : a <> b) by (intros E; rewrite E in NDD; inversion NDD as [|? ? K _]; apply K; now left).
  (* x is the shared index, y the other one *)
  assert (XY : exists x y, (x = a /\ y = b \/ x = b /\ y = a) /\ In x T /\ ~ In y T /\ (forall z, (if (0 <=? g a)%Z then a else b) = z -> z = y)).
  { rewrite !GN in HX. rewrite <- !g_nz in HX. rewrite (GD a), (GD b) in HX by (cbn; auto).
    rewrite (GD a) by (cbn; auto).
    destruct (memb a T) eqn:EA; destruct (memb b T) eqn:EB; cbn in HX; try discriminate.
    - exists a, b. apply (mem_In' ieq ieq_spec) in EA. apply (mem_not ieq ieq_spec) in EB. cbn. repeat split; auto; congruence.
    - exists b, a. apply (mem_In' ieq ieq_spec) in EB. apply (mem_not ieq ieq_spec) in EA. cbn. repeat split; auto; congruence. }
  destruct XY as (x & y & Hxy & Hx & Hy & Ez).
  assert (HinD : forall z, In z [a; b] <-> z = x \/ z = y) by (intros z; cbn; destruct Hxy as [[-> ->]|[-> ->]]; intuition congruence).
  assert (Nxy : x <> y) by (destruct Hxy as [[-> ->]|[-> ->]]; congruence).
  assert (Dxy : idim x = idim y) by (destruct Hxy as [[-> ->]|[-> ->]]; congruence).
  set (f := fun z => if ieq z x then y else z).
  assert (EN : replaceIndex T (map g T) [a; b] (map g [a; b]) = map f T).
  { assert (K : incl T T) by (intros z; auto). revert K. generalize T at 1 3 4 5 as l. induction l as [|z l IH]; intros K; auto.
    cbn [map replaceIndex]. rewrite <- IH by (intros w Hw; apply K; now right). f_equal.
    rewrite GN, <- g_nz, GT by (apply K; now left). rewrite negb_involutive. unfold f.
    destruct (memb z [a; b]) eqn:E.
    - apply (mem_In' ieq ieq_spec) in E. apply HinD in E as [-> | ->]; [|exfalso; apply Hy, K; now left].
      rewrite (proj2 (ieq_spec x x) eq_refl). apply (Ez _ eq_refl).
    - apply (mem_not ieq ieq_spec) in E. destruct (ieq z x) eqn:E2; auto. apply ieq_spec in E2. exfalso. apply E, HinD. auto. }
  rewrite EN. cbv zeta.
  assert (Hf : forall z, In z T -> f z = if ieq z x then y else z) by reflexivity.
  assert (ND' : NoDup (map f T)).
  { assert (K : incl T T) by (intros z; auto). revert NT K. generalize T at 1 2 4 as l. induction l as [|z l IH]; intros NL K; [constructor|].
    inversion NL; subst. cbn [map]. constructor; [|apply IH; auto; intros w Hw; apply K; now right].
    intros Q. apply in_map_iff in Q as (w & EW & Hw). unfold f in EW.
    destruct (ieq w x) eqn:E1; destruct (ieq z x) eqn:E2.
    - apply ieq_spec in E1, E2. congruence.
    - subst. apply Hy, K. now left.
    - subst w. apply Hy, K. now right.
    - subst. contradiction. }
  split; [exact ND'|]. split.
  { intros z. rewrite HN, in_map_iff, HinD. split.
    - intros (w & EW & Hw). unfold f in EW. destruct (ieq w x) eqn:E.
      + subst z. right. split; auto.
      + subst z. left. split; auto. intros [-> | ->]; [rewrite (proj2 (ieq_spec x x) eq_refl) in E; discriminate|contradiction].
    - intros [[H2 H3]|[H2 H3]].
      + exists z. unfold f. destruct (ieq z x) eqn:E; auto. apply ieq_spec in E. subst. exfalso. apply H3. auto.
      + destruct H2 as [-> | ->]; [contradiction|]. exists x. unfold f. now rewrite (proj2 (ieq_spec x x) eq_refl). }
  assert (DD : map idim (map f T) = map idim T).
  { rewrite map_map. apply map_ext. intros z. unfold f. destruct (ieq z x) eqn:E; auto. apply ieq_spec in E. congruence. }
  split. { unfold full in *. now rewrite DD. }
  intros s Hs. rewrite (einstein_diag r0 r1 radd rmul SR ieq idim ieq_spec); auto; try discriminate.
  2:{ intros z Hz Hz'. apply HinD in Hz as [-> | ->]; [contradiction|]. apply Hs. apply in_map_iff. exists x. unfold f. now rewrite (proj2 (ieq_spec x x) eq_refl). }
  assert (EO : forall J, forallb (fun z => s z =? J) (only ieq [a; b] T) = (s y =? J)).
  { intros J. apply eq_true_iff_eq. rewrite forallb_forall. split.
    - intros K. apply K, (in_only ieq ieq_spec). split; auto. apply HinD. auto.
    - intros K z Hz. apply (in_only ieq ieq_spec) in Hz as [Hz1 Hz2]. apply HinD in Hz1 as [-> | ->]; [contradiction|auto]. }
  assert (Hsy : s y < minDim [a; b]).
  { assert (K : s y < idim y). { apply Hs, in_map_iff. exists x. unfold f. now rewrite (proj2 (ieq_spec x x) eq_refl). }
    cbn. destruct Hxy as [[-> ->]|[-> ->]]; lia. }
  transitivity (sumn (minDim [a; b]) (fun J => if J =? s y then rmul (entry d J) (elt T t (jset ieq [a; b] J s)) else r0)).
  2:{ apply sumn_ext. intros J _. rewrite EO, (Nat.eqb_sym J). reflexivity. }
  rewrite (sumn_pick r0 r1 radd rmul SR (minDim [a; b]) (s y) (fun J => rmul (entry d J) (elt T t (jset ieq [a; b] J s))) Hsy).
  replace (entry d (s y)) with r1 by (unfold DiagSpec.entry, allSame in *; destruct (dst d); [now symmetry|discriminate]).
  transitivity (elt T t (jset ieq [a; b] (s y) s)); [|ring].
  unfold TensorSpec.elt. rewrite DD. f_equal. f_equal. rewrite map_map. apply map_ext_in. intros z Hz. unfold f, jset.
  destruct (memb z [a; b]) eqn:E.
  - apply (mem_In' ieq ieq_spec) in E. apply HinD in E as [-> | ->]; [|contradiction]. now rewrite (proj2 (ieq_spec x x) eq_refl).
  - apply (mem_not ieq ieq_spec) in E. destruct (ieq z x) eqn:E2; auto. apply ieq_spec in E2. exfalso. apply E, HinD. auto.
Qed.

Lemma dense_ok : exists st, contractDiagDense r0 radd rmul idim d D (map g D) t T (map g T) N (map g N) = Ok st /\
  (forall C, st = SDense C -> full idim N C) /\
  (only ieq T D <> [] -> exists C, st = SDense C) /\
  forall s, inrange idim N s -> reads N st s = Ok (rhs s).
Proof.
  destruct TT as (NT & PT & FT). pose proof TD as (NDD & PD & EL & ES). pose proof (dsize D d TD) as HSZ.
  unfold contractDiagDense.
  destruct (existsb (fun v => (0 <=? v)%Z) (map g T)) eqn:EU.
  - apply (any_unc T D IT gT) in EU.
    destruct (partial_ok r0 r1 radd rmul SR ieq idim ieq_spec g T D N t d) as (C & EC & FC & HC); auto.
    unfold irange. rewrite EC. cbn [obind]. exists (SDense C). split; [reflexivity|]. split; [|split].
    + intros C' E. injection E as <-. auto.
    + intros _. now exists C.
    + intros s Hs. rewrite reads_dense by auto. f_equal. rewrite HC by auto.
      rewrite (einstein_diag r0 r1 radd rmul SR ieq idim ieq_spec); auto.
      * now rewrite HSZ.
      * intros x Hx Hx'. apply Hs, HN. auto.
  - assert (OT : only ieq T D = []).
    { destruct (only ieq T D) eqn:E; auto. exfalso. rewrite (proj2 (any_unc T D IT gT)) in EU; [discriminate|]. rewrite E. discriminate. }
    assert (HTD : incl T D).
    { intros x Hx. destruct (in_dec (ieq_dec ieq ieq_spec) x D) as [H|H]; auto. assert (In x (only ieq T D)) by (apply (in_only ieq ieq_spec); auto).
      rewrite OT in H0. contradiction. }
    destruct (existsb (fun v => (0 <=? v)%Z) (map g D)) eqn:EV.
    + apply (any_unc D T ID gD) in EV.
      destruct keeps as [K|[K|(x0 & Hx0 & Hx0' & Em)]]; [congruence|contradiction|].
      unfold irange. rewrite (full_ok r0 r1 radd rmul SR ieq idim ieq_spec g T D t d (dl d)); auto. 
      cbn [obind]. rewrite EL.
      assert (Hx0N : In x0 N) by (apply HN; auto).
      set (F := fun J => rmul (entry d J) (elt T t (fun _ => J))).
      set (n := if minDim D =? 1 then [sumn (minDim D) F] else map F (seq 0 (minDim D))).
      assert (Ln : length n = minDim D).
      { unfold n. destruct (Nat.eqb_spec (minDim D) 1) as [E|E]; [now rewrite E|]. now rewrite map_length, seq_length. }
      assert (Nn : forall q, q < minDim D -> nth q n r0 = F q).
      { intros q Hq. unfold n. destruct (Nat.eqb_spec (minDim D) 1) as [E|E].
        - rewrite E in *. assert (q = 0) by lia. subst q. cbn. unfold F. ring.
        - rewrite (nth_indep _ r0 (F 0)) by now rewrite map_length, seq_length. rewrite map_nth. now rewrite seq_nth by auto. }
      assert (RHS : forall s, inrange idim N s -> rhs s = if forallb (fun z => s z =? s x0) N then F (s x0) else r0).
      { intros s Hs. rewrite (einstein_diag r0 r1 radd rmul SR ieq idim ieq_spec); auto.
        2:{ intros x Hx Hx'. apply Hs, HN. auto. }
        assert (H0 : s x0 < minDim D) by (rewrite <- Em; apply Hs; exact Hx0N).
        assert (EJ : forall J, elt T t (jset ieq D J s) = elt T t (fun _ => J)).
        { intros J. apply elt_ext. intros z Hz. unfold jset. now rewrite (proj2 (mem_In' ieq ieq_spec z D) (HTD z Hz)). }
        assert (EON : forall z, In z (only ieq D T) <-> In z N).
        { intros z. rewrite (in_only ieq ieq_spec), HN. split; [tauto|]. intros [[Ha Hb]|H]; [exfalso; apply Hb, HTD, Ha|exact H]. }
        transitivity (sumn (minDim D) (fun J => if J =? s x0 then (if forallb (fun z => s z =? s x0) N then F J else r0) else r0)).
        - apply sumn_ext. intros J _. rewrite EJ. fold (F J).
          assert (EF : forallb (fun z => s z =? J) (only ieq D T) = (J =? s x0) && forallb (fun z => s z =? s x0) N).
          { apply eq_true_iff_eq. rewrite andb_true_iff, !forallb_forall, Nat.eqb_eq. split.
            - intros K. assert (s x0 = J) by (apply Nat.eqb_eq, K, EON; auto). subst J. split; auto. intros z Hz. apply K, EON. auto.
            - intros [-> K] z Hz. apply K, EON. auto. }
          rewrite EF. destruct (J =? s x0); cbn [andb]; auto.
        - now rewrite (sumn_pick r0 r1 radd rmul SR (minDim D) (s x0) (fun J => if forallb (fun z => s z =? s x0) N then F J else r0)). }
      assert (HD1 : forall s x l, N = x :: l -> forallb (fun z => s z =? s x0) N = forallb (Nat.eqb (s x)) (map s N)).
      { intros s x l EN. apply eq_true_iff_eq. rewrite !forallb_forall. split.
        - intros K v Hv. apply in_map_iff in Hv as (z & <- & Hz). pose proof (K z Hz) as K1. pose proof (K x ltac:(rewrite EN; now left)) as K2.
          apply Nat.eqb_eq in K1, K2. apply Nat.eqb_eq. congruence.
        - intros K z Hz. pose proof (K (s z) (in_map s N z Hz)) as K1. pose proof (K (s x0) (in_map s N x0 Hx0N)) as K2.
          apply Nat.eqb_eq in K1, K2. apply Nat.eqb_eq. congruence. }
      destruct (Nat.eqb_spec (length N) 1) as [E1|E1].
      * exists (SDense n). split; [reflexivity|]. destruct N as [|y [|z l]]; try discriminate. destruct Hx0N as [-> |[]].
        assert (FN : full idim [x0] n) by (unfold full; cbn; rewrite Ln; lia).
        split; [intros C E; injection E as <-; auto|]. split; [congruence|].
        intros s Hs. rewrite reads_dense by auto. f_equal. rewrite RHS by auto. cbn [forallb]. rewrite Nat.eqb_refl. cbn [andb].
        unfold TensorSpec.elt. cbn [map colmajor]. rewrite Nat.mul_0_r, Nat.add_0_r. apply Nn. rewrite <- Em. apply Hs. now left.
      * destruct (Nat.eqb_spec (minDim D) 1) as [E2|E2].
        -- rewrite (oget_ok r0) by lia. cbn [obind]. rewrite Nn by lia. eexists. split; [reflexivity|].
           split; [discriminate|]. split; [congruence|]. intros s Hs. rewrite RHS by auto. unfold reads. cbn [DiagModel.store_elt].
           destruct N as [|y l] eqn:EN; [contradiction|]. rewrite (HD1 s y l eq_refl).
           unfold diag_elt. cbn [map]. destruct (forallb _ _); auto. unfold allSame. cbn [dst dv].
           assert (s x0 < 1) by (rewrite <- E2, <- Em; apply Hs; auto). replace (s x0) with 0 by lia. reflexivity.
        -- eexists. split; [reflexivity|]. split; [discriminate|]. split; [congruence|].
           intros s Hs. rewrite RHS by auto. unfold reads. cbn [DiagModel.store_elt].
           destruct N as [|y l] eqn:EN; [contradiction|]. rewrite (HD1 s y l eq_refl).
           unfold diag_elt. cbn [map]. destruct (forallb (Nat.eqb (s y)) (s y :: map s l)) eqn:EF; auto.
           assert (Es : s y = s x0). { rewrite forallb_forall in EF. apply Nat.eqb_eq, EF. apply (in_map s (y :: l)). auto. }
           assert (H0 : s x0 < minDim D) by (rewrite <- Em; apply Hs; auto).
           unfold allSame. cbn [dst]. rewrite Es. destruct n as [|v n'] eqn:En; [cbn in Ln; lia|]. rewrite <- En.
           rewrite (nth_error_nth' n r0) by (rewrite En, Ln; auto). f_equal. rewrite En. apply Nn. auto.
    + assert (OD : only ieq D T = []).
      { destruct (only ieq D T) eqn:E; auto. exfalso. rewrite (proj2 (any_unc D T ID gD)) in EV; [discriminate|]. rewrite E. discriminate. }
      assert (N0 : N = []).
      { destruct N as [|x l]; auto. exfalso. assert (Hx : In x (x :: l)) by now left. apply HN in Hx as [[Ha Hb]|[Ha Hb]].
        - apply Hb, HTD, Ha.
        - assert (In x (only ieq D T)) by (apply (in_only ieq ieq_spec); auto). rewrite OD in H. contradiction. }
      unfold irange. rewrite (full_ok r0 r1 radd rmul SR ieq idim ieq_spec g T D t d 1); auto.
      cbn [obind Nat.eqb]. rewrite N0. cbn [length Nat.eqb]. cbn [oget nth_error obind].
      eexists. split; [reflexivity|]. split; [discriminate|]. split; [congruence|]. intros s _. unfold reads. cbn [DiagModel.store_elt map].
      unfold diag_elt. cbn [forallb allSame dst dv]. f_equal.
      rewrite (einstein_diag r0 r1 radd rmul SR ieq idim ieq_spec); auto.
      2:{ intros x Hx Hx'. exfalso. assert (In x (only ieq D T)) by (apply (in_only ieq ieq_spec); auto). rewrite OD in H. contradiction. }
      rewrite OD. cbn [forallb]. apply sumn_ext. intros J _. f_equal. apply elt_ext. intros z Hz. unfold jset.
      now rewrite (proj2 (mem_In' ieq ieq_spec z D) (HTD z Hz)).
Qed.
End Core.

Lemma glab_nz L M x : (0 <=? glab ieq L M x)%Z = (0 <? glab ieq L M x)%Z.
Proof.
  unfold glab. destruct (memb x L); [destruct (memb x M)|].
  - pose proof (neglab_neg ieq L M x). destruct (Z.leb_spec 0 (neglab ieq L M x)); destruct (Z.ltb_spec 0 (neglab ieq L M x)); lia || auto.
  - destruct (Z.leb_spec 0 (Z.of_nat (S (length (common ieq L M) + idx ieq (only ieq L M) x)))); destruct (Z.ltb_spec 0 (Z.of_nat (S (length (common ieq L M) + idx ieq (only ieq L M) x)))); lia || auto.
  - match goal with |- (0 <=? ?z)%Z = _ => destruct (Z.leb_spec 0 z); destruct (Z.ltb_spec 0 z) end; lia || auto.
Qed.

Lemma contract_diag_ok dleft T t D d : tensor T t -> diag_tensor D d -> D <> [] ->
  only ieq T D <> [] \/ only ieq D T = [] \/ (exists x, In x D /\ ~ In x T /\ idim x = minDim D) ->
  exists N st, contract_diag r0 radd rmul is1 ieq idim dleft T t D d = Ok (N, st) /\ NoDup N /\
    (forall x, In x N <-> (In x T /\ ~ In x D) \/ (In x D /\ ~ In x T)) /\
    (forall C, st = SDense C -> full idim N C) /\
    (only ieq T D <> [] -> exists C, st = SDense C) /\
    forall s, inrange idim N s -> reads N st s = Ok (sum_over (common ieq T D) (fun u => rmul (elt T t u) (diagonal (entry d) D u)) s).
Proof.
  intros TT TD D0 HK. pose proof TT as (NT & PT & FT). pose proof TD as (NDD & PD & _).
  assert (GEN : forall g N, NoDup N -> (forall x, In x N <-> (In x T /\ ~ In x D) \/ (In x D /\ ~ In x T)) ->
     (forall x y, In x (T ++ D) -> In y (T ++ D) -> g x = g y -> x = y) ->
     (forall x, In x T \/ In x D -> (0 <? g x)%Z = negb (memb x T && memb x D)) ->
     (forall x, (0 <=? g x)%Z = (0 <? g x)%Z) ->
     exists N' st, (if isReplaceDelta is1 idim d D (map g D) then Ok (replaceIndex T (map g T) D (map g D), SDense t)
        else obind (contractDiagDense r0 radd rmul idim d D (map g D) t T (map g T) N (map g N)) (fun st => Ok (N, st))) = Ok (N', st) /\ NoDup N' /\
      (forall x, In x N' <-> (In x T /\ ~ In x D) \/ (In x D /\ ~ In x T)) /\
      (forall C, st = SDense C -> full idim N' C) /\
      (only ieq T D <> [] -> exists C, st = SDense C) /\
      forall s, inrange idim N' s -> reads N' st s = Ok (sum_over (common ieq T D) (fun u => rmul (elt T t u) (diagonal (entry d) D u)) s)).
  { intros g N NN HN G1 G2 G3. destruct (isReplaceDelta is1 idim d D (map g D)) eqn:ER.
    - destruct (replace_ok g T D N t d) as (H1 & H2 & H3 & H4); auto.
      do 2 eexists. split; [reflexivity|]. split; [exact H1|]. split; [intros x; rewrite H2; apply HN|]. split.
      { intros C E. injection E as <-. auto. }
      split. { intros _. now exists t. }
      intros s Hs. rewrite reads_dense by auto. now rewrite H4.
    - destruct (dense_ok g T D N t d) as (st & E & H1 & H2 & H3); auto.
      exists N, st. rewrite E. cbn [obind]. auto 10. }
  assert (NDa : forall a b : list I, NoDup a -> NoDup b -> NoDup (only ieq a b ++ only ieq b a)).
  { intros a b Na Nb. apply NoDup_app_intro; try now apply NoDup_filter. intros x H1 H2. apply (in_only ieq ieq_spec) in H1, H2. tauto. }
  unfold contract_diag. destruct dleft.
  - rewrite (computeLabels_spec ieq ieq_spec D T NDD NT). cbn [obind]. rewrite (contractIS_spec ieq ieq_spec D T).
    apply (GEN (glab ieq D T) (only ieq D T ++ only ieq T D)); auto.
    + intros x. rewrite in_app_iff, !(in_only ieq ieq_spec). tauto.
    + intros x y Hx Hy. apply in_app_iff in Hx, Hy. apply (glab_inj ieq ieq_spec); tauto.
    + intros x Hx. rewrite (glab_pos ieq D T) by tauto. now rewrite andb_comm.
    + apply glab_nz.
  - rewrite (computeLabels_spec ieq ieq_spec T D NT NDD). cbn [obind]. rewrite (contractIS_spec ieq ieq_spec T D).
    apply (GEN (glab ieq T D) (only ieq T D ++ only ieq D T)); auto.
    + intros x. rewrite in_app_iff, !(in_only ieq ieq_spec). tauto.
    + intros x y Hx Hy. apply in_app_iff in Hx, Hy. apply (glab_inj ieq ieq_spec); tauto.
    + intros x Hx. now rewrite (glab_pos ieq T D) by tauto.
    + apply glab_nz.
Qed.

(** C49.  T*D and D*T: the result has the indices exactly one operand has, and every element reads
    as the Einstein sum with the diagonal tensor.  This needs T to keep an index, or D to keep none,
    or D to keep one of its indices of smallest dimension (see the refutations below). *)
Theorem C49_product dleft T t D d : tensor T t -> diag_tensor D d ->
  only ieq T D <> [] \/ only ieq D T = [] \/ (exists x, In x D /\ ~ In x T /\ idim x = minDim D) ->
  exists N st, times_diag dleft T t D d = Ok (N, st) /\ NoDup N /\
    (forall x, In x N <-> (In x T /\ ~ In x D) \/ (In x D /\ ~ In x T)) /\
    (forall C, st = SDense C -> tensor N C) /\
    (only ieq T D <> [] -> exists C, st = SDense C) /\
    forall s, inrange idim N s ->
      reads N st s = Ok (sum_over (common ieq T D) (fun u => rmul (elt T t u) (diagonal (entry d) D u)) s).
Proof.
  intros TT TD HK. pose proof TT as (NT & PT & FT). pose proof TD as (NDD & PD & EL & ES).
  assert (TEN : forall N, NoDup N -> (forall x, In x N <-> (In x T /\ ~ In x D) \/ (In x D /\ ~ In x T)) -> forall C : list R, full idim N C -> tensor N C).
  { intros N NN HN C FC. split; [exact NN|]. split; [|exact FC]. intros x Hx. apply HN in Hx as [[Hx _]|[Hx _]]; auto. }
  assert (MUL : forall z, diag_tensor D (mult_diag rmul z d)).
  { intros z. split; [auto|]. split; [auto|]. split; [exact EL|]. cbn [mult_diag dst]. rewrite map_length. destruct ES as [-> |ES]; auto. }
  assert (ENT : forall z s, inrange idim D s -> diagonal (entry (mult_diag rmul z d)) D s = rmul z (diagonal (entry d) D s)).
  { intros z s Hs. assert (EE : forall J, J < minDim D -> entry (mult_diag rmul z d) J = rmul z (entry d J)).
    { intros J HJ. unfold DiagSpec.entry. cbn [mult_diag dst dv]. destruct (dst d) as [|v l] eqn:E; [cbn [map]; ring|].
      destruct ES as [ES|ES]; [discriminate|]. cbn [map]. change (rmul v z :: map (fun x => rmul x z) l) with (map (fun x => rmul x z) (v :: l)).
      rewrite (nth_indep _ r0 ((fun x => rmul x z) r0)) by (rewrite map_length, ES; auto). rewrite (map_nth (fun x => rmul x z)). ring. }
    destruct D as [|x D'] eqn:ED; [apply EE; cbn; lia|]. rewrite <- ED in *.
    rewrite !(diagonal_sum r0 r1 radd rmul SR idim) by (auto; rewrite ED; discriminate).
    rewrite <- (sumn_mul_l r0 r1 radd rmul SR). apply sumn_ext. intros J HJ. destruct (forallb _ _); [auto|ring]. }
  assert (COM : (T = [] -> common ieq T D = []) /\ (D = [] -> common ieq T D = [])).
  { split; intros ->; [reflexivity|]. destruct (common ieq T []) as [|x l] eqn:E; auto. exfalso.
    assert (K : In x (common ieq T [])) by (rewrite E; now left). apply (in_common ieq ieq_spec) in K. cbn in K. tauto. }
  destruct T as [|a T'] eqn:ET; [|destruct D as [|b D'] eqn:ED].
  - assert (Lt : exists a, t = [a]). { unfold full in FT. cbn in FT. destruct t as [|a [|b t']]; try discriminate. now exists a. }
    destruct Lt as (a & ->). rewrite (proj1 COM eq_refl). cbn [TensorSpec.sum_over].
    assert (ER : exists N st, times_diag dleft [] [a] D d = Ok (N, st) /\ N = D /\ (st = SDiag (mult_diag rmul a d) \/ D = [] /\ st = SDense [rmul a (entry d 0)])).
    { destruct D as [|x D'] eqn:ED.
      - cbn. unfold diag_elt, DiagSpec.entry, allSame. cbn [forallb]. destruct (dst d) as [|v l] eqn:E; cbn.
        + destruct dleft; do 2 eexists; (split; [reflexivity|]); split; auto.
        + destruct dleft; do 2 eexists; (split; [reflexivity|]); split; auto.
      - do 2 eexists. split; [reflexivity|]. auto. }
    destruct ER as (N & st & E & -> & Hst). exists D, st. split; [exact E|]. split; [auto|]. split; [cbn; tauto|]. split.
    { intros C EC. destruct Hst as [->|[-> ->]]; [discriminate|]. injection EC as <-. split; [constructor|]. split; [intros x []|reflexivity]. }
    split; [cbn; congruence|]. intros s Hs. change (elt [] [a] s) with a.
    destruct Hst as [->|[-> ->]].
    + rewrite C49_elt; auto. now rewrite ENT.
    + reflexivity.
  - rewrite (proj2 COM eq_refl). cbn [TensorSpec.sum_over].
    assert (EB : diag_elt r0 d [] = Ok (entry d 0)).
    { unfold diag_elt, DiagSpec.entry, allSame. cbn [forallb]. destruct (dst d); reflexivity. }
    exists (a :: T'), (SDense (mult_dense rmul (entry d 0) t)). split; [cbn [DiagModel.times_diag]; rewrite EB; reflexivity|].
    assert (FM : full idim (a :: T') (mult_dense rmul (entry d 0) t)) by (unfold full, mult_dense in *; now rewrite map_length).
    split; [auto|]. split; [intros x; cbn [In]; tauto|]. split.
    { intros C EC. injection EC as <-. split; auto. }
    split. { intros _. now eexists. }
    intros s Hs. rewrite reads_dense by auto. f_equal. unfold TensorSpec.elt. apply (nth_mult r0 r1 radd rmul SR).
  - destruct (contract_diag_ok dleft (a :: T') t (b :: D') d) as (N & st & E & H1 & H2 & H3 & H4 & H5); auto; [discriminate|].
    exists N, st. split; [exact E|]. split; [auto|]. split; [auto|]. split; [intros C EC; apply TEN; auto|]. split; auto.
Qed.

(** C49.  delta of any distinct indices is a well-formed diagonal tensor with entries 1. *)
Theorem C49_delta D : NoDup D -> (forall x, In x D -> 0 < idim x) ->
  diag_tensor D (delta r1 idim D) /\ forall J, entry (delta r1 idim D) J = r1.
Proof. intros H1 H2. split; [|reflexivity]. split; [auto|]. split; [auto|]. split; [reflexivity|]. now left. Qed.

(** C49.  diagITensor of as many numbers as the smallest dimension. *)
Theorem C49_diagITensor D c : NoDup D -> (forall x, In x D -> 0 < idim x) -> length c = minDim D ->
  diag_tensor D (diagITensor r0 c) /\ forall J, J < length c -> entry (diagITensor r0 c) J = nth J c r0.
Proof.
  intros H1 H2 H3. split.
  - split; [auto|]. split; [auto|]. split; [exact H3|]. now right.
  - intros J HJ. unfold DiagSpec.entry. cbn [diagITensor dst]. destruct c; [cbn in HJ; lia|reflexivity].
Qed.

(** C49.  T*delta(i,j): i is replaced by the new index j; values of j beyond dim(i) give zero. *)
Theorem C49_replace dleft T t i j : tensor T t -> In i T -> ~ In j T -> 0 < idim j -> only ieq T [i; j] <> [] ->
  exists N C, times_diag dleft T t [i; j] (delta r1 idim [i; j]) = Ok (N, SDense C) /\ tensor N C /\
    (forall x, In x N <-> x = j \/ (In x T /\ x <> i)) /\
    forall s, inrange idim N s -> elt N C s = if s j <? idim i then elt T t (override ieq s i (s j)) else r0.
Proof.
  intros TT Hi Hj Pj HO. pose proof TT as (NT & PT & FT).
  assert (Nij : i <> j) by congruence.
  assert (NDij : NoDup [i; j]) by (constructor; [intros [K|[]]; congruence|constructor; [intros []|constructor]]).
  assert (Pij : forall x, In x [i; j] -> 0 < idim x) by (intros x [<-|[<-|[]]]; auto).
  destruct (C49_delta [i; j] NDij Pij) as [TD EN].
  destruct (C49_product dleft T t [i; j] (delta r1 idim [i; j]) TT TD (or_introl HO)) as (N & st & E & NN & HN & HT & HS & HR).
  destruct (HS HO) as (C & ->). exists N, C. split; [exact E|]. split; [auto|].
  assert (HN' : forall x, In x N <-> x = j \/ (In x T /\ x <> i)).
  { intros x. rewrite HN. cbn [In]. split.
    - intros [[H1 H2]|[[H1|[H1|[]]] H2]].
      + right. split; auto.
      + exfalso. apply H2. now rewrite <- H1.
      + left. auto.
    - intros [->|[H1 H2]]; [right; auto|left; split; auto; intros [K|[K|[]]]; subst; contradiction]. }
  split; [exact HN'|]. intros s Hs. pose proof (HR s Hs) as K. rewrite reads_dense in K by (auto; apply (HT C eq_refl)). apply Ok_inj in K. rewrite K. clear K.
  assert (Hsj : s j < idim j) by (apply Hs, HN'; auto).
  rewrite (einstein_diag r0 r1 radd rmul SR ieq idim ieq_spec); auto; try discriminate.
  2:{ intros x [<-|[<-|[]]] Hx; [contradiction|auto]. }
  assert (EO : forall J, forallb (fun z => s z =? J) (only ieq [i; j] T) = (s j =? J)).
  { intros J. apply eq_true_iff_eq. rewrite forallb_forall. split.
    - intros K. apply K, (in_only ieq ieq_spec). split; auto. right; now left.
    - intros K z Hz. apply (in_only ieq ieq_spec) in Hz as [[<-|[<-|[]]] Hz2]; [contradiction|auto]. }
  assert (EJ : elt T t (jset ieq [i; j] (s j) s) = elt T t (override ieq s i (s j))).
  { apply elt_ext. intros x Hx. unfold jset, override. destruct (ieq i x) eqn:E1.
    - apply ieq_spec in E1. subst x. now rewrite (proj2 (mem_In' ieq ieq_spec i [i; j])) by now left.
    - rewrite (proj2 (mem_not ieq ieq_spec x [i; j])); auto. intros [K|[K|[]]]; subst; [rewrite (proj2 (ieq_spec x x) eq_refl) in E1; discriminate|contradiction]. }
  transitivity (sumn (minDim [i; j]) (fun J => if J =? s j then rmul r1 (elt T t (jset ieq [i; j] J s)) else r0)).
  { apply sumn_ext. intros J _. rewrite EO, EN, (Nat.eqb_sym J). reflexivity. }
  destruct (Nat.ltb_spec (s j) (idim i)) as [L|L].
  - rewrite (sumn_pick r0 r1 radd rmul SR (minDim [i; j]) (s j) (fun J => rmul r1 (elt T t (jset ieq [i; j] J s)))) by (cbn; lia).
    rewrite EJ. ring.
  - apply (sumn_zero r0 r1 radd rmul SR). intros J HJ. cbn in HJ. destruct (Nat.eqb_spec J (s j)); auto. lia.
Qed.

(** Finding: a vector with index i times delta(i,j) with dim(i) < dim(j) has too little storage:
    reading the element j = dim(i)+1 of the result leaves it (diag.cc:88-89,114-117 allocate
    d.length numbers for an index of larger dimension). *)
Theorem C49_vector_refuted dleft i j a : i <> j -> 0 < idim i -> idim i < idim j -> tensor [i] a ->
  exists n, times_diag dleft [i] a [i; j] (delta r1 idim [i; j]) = Ok ([j], SDense n) /\ length n = idim i /\
    forall s, s j = idim i -> inrange idim [j] s /\ reads [j] (SDense n) s = UB.
Proof.
  intros Nij Pi Hlt Ta. pose proof Ta as (_ & _ & FA).
  assert (E1 : ieq i j = false) by (apply (ieq_neq ieq ieq_spec); auto).
  assert (E2 : ieq j i = false) by (apply (ieq_neq ieq ieq_spec); auto).
  assert (E3 : ieq i i = true) by now apply ieq_spec. assert (E4 : ieq j j = true) by now apply ieq_spec.
  assert (LA : length a = idim i) by (unfold full in FA; cbn in FA; lia).
  assert (RUN : forall g, (g i < 0)%Z -> (0 < g j)%Z -> 
     exists n, contractDiagDense r0 radd rmul idim (delta r1 idim [i; j]) [i; j] (map g [i; j]) a [i] (map g [i]) [j] (map g [j]) = Ok (SDense n) /\ length n = idim i).
  { intros g G1 G2. unfold contractDiagDense. cbn [map existsb].
    replace (0 <=? g i)%Z with false by (symmetry; apply Z.leb_gt; auto). replace (0 <=? g j)%Z with true by (symmetry; apply Z.leb_le; lia). cbn [orb].
    assert (MD : minDim [i; j] = idim i) by (cbn; lia). cbn [delta dl]. rewrite MD.
    pose proof (full_ok r0 r1 radd rmul SR ieq idim ieq_spec g [i] [i; j] a (delta r1 idim [i; j]) (idim i)) as F. cbn [map] in F.
    unfold irange. cbn [map]. rewrite F; auto; cbn [obind].
    - cbn [length Nat.eqb]. eexists. split; [reflexivity|]. destruct (Nat.eqb_spec (idim i) 1) as [E|E]; [cbn; lia|].
      now rewrite map_length, seq_length.
    - constructor; [intros []|constructor].
    - intros x [<-|[]]. now left.
    - intros x y Hx Hy E. cbn in Hx, Hy. destruct Hx as [<-|[<-|[<-|[]]]]; destruct Hy as [<-|[<-|[<-|[]]]]; auto; exfalso; rewrite E in *; lia.
    - discriminate. }
  assert (FIN : forall n, length n = idim i -> forall s, s j = idim i -> inrange idim [j] s /\ reads [j] (SDense n) s = UB).
  { intros n Hn s Hs. split; [intros x [<-|[]]; lia|]. unfold reads. cbn. unfold oget.
    replace (nth_error n _) with (@None R); auto. symmetry. apply nth_error_None. lia. }
  assert (NR : forall l, isReplaceDelta is1 idim (delta r1 idim [i; j]) [i; j] l = false).
  { intros l. destruct l as [|la [|lb [|lc l]]]; auto. cbn. destruct (Nat.eqb_spec (idim i) (idim j)); [lia|].
    rewrite andb_false_r. reflexivity. }
  destruct dleft; cbn [DiagModel.times_diag]; unfold contract_diag.
  - assert (CL : computeLabels ieq [i; j] [i] = Ok ([(-1)%Z; 2%Z], [(-1)%Z])) by (unfold computeLabels; cbn; rewrite E3, E2; reflexivity).
    rewrite CL. cbn [obind]. rewrite NR. cbn [contractIS uncontracted Z.ltb Z.compare app map fst snd].
    destruct (RUN (fun x => if ieq x i then (-1)%Z else 2%Z)) as (n & EN & Hn).
    + rewrite E3. lia.
    + rewrite E2. lia.
    + cbn [map] in EN. rewrite E3, E2 in EN. rewrite EN. cbn [obind]. exists n. auto.
  - assert (CL : computeLabels ieq [i] [i; j] = Ok ([(-1)%Z], [(-1)%Z; 2%Z])) by (unfold computeLabels; cbn; rewrite E3; reflexivity).
    rewrite CL. cbn [obind]. rewrite NR. cbn [contractIS uncontracted Z.ltb Z.compare app map fst snd].
    destruct (RUN (fun x => if ieq x i then (-1)%Z else 2%Z)) as (n & EN & Hn).
    + rewrite E3. lia.
    + rewrite E2. lia.
    + cbn [map] in EN. rewrite E3, E2 in EN. rewrite EN. cbn [obind]. exists n. auto.
Qed.
End Props.

(** ** witnesses *)
Definition zdim (n : nat) : nat := match n with 0 => 1 | 1 => 2 | 2 => 3 | 3 => 3 | _ => 2 end.
Notation td := (times_diag 0%Z Z.add Z.mul (Z.eqb 1) Nat.eqb zdim).
Notation rd := (reads 0%Z zdim).

(** Finding: a one-dimensional index contracted with delta(i,j,k) gives the value on the whole
    diagonal of (j,k) instead of on its first element only (diag.cc:119-122). *)
Theorem C49_same_refuted : exists N st, td false [0] [5%Z] [0; 2; 3] (delta 1%Z zdim [0; 2; 3]) = Ok (N, st) /\
  N = [2; 3] /\ rd N st (fun _ => 2) = Ok 5%Z /\
  sum_over 0%Z Z.add Nat.eqb zdim (common Nat.eqb [0] [0; 2; 3])
    (fun u => Z.mul (elt 0%Z zdim [0] [5%Z] u) (diagonal 0%Z (fun _ => 1%Z) [0; 2; 3] u)) (fun _ => 2) = 0%Z.
Proof. do 2 eexists. split; [vm_compute; reflexivity|]. repeat split; reflexivity. Qed.

(** Finding: with dim(i) = 2 and dim(j) = dim(k) = 3, reading the result at j = k = 3 throws. *)
Theorem C49_short_refuted : exists N st, td false [1] [5%Z; 7%Z] [1; 2; 3] (delta 1%Z zdim [1; 2; 3]) = Ok (N, st) /\
  N = [2; 3] /\ rd N st (fun _ => 1) = Ok 7%Z /\ rd N st (fun _ => 2) = Err.
Proof. do 2 eexists. split; [vm_compute; reflexivity|]. repeat split; reflexivity. Qed.

(** The hypotheses are met: a replaced index, one replaced by a smaller one, a full trace, a
    diagonal of several values with an index to spare on both sides. *)
Example C49_nonvacuous :
  td false [1; 2] [1; 2; 3; 4; 5; 6]%Z [2; 3] (delta 1%Z zdim [2; 3]) = Ok ([1; 3], SDense [1; 2; 3; 4; 5; 6]%Z) /\
  td false [1; 2] [1; 2; 3; 4; 5; 6]%Z [2; 4] (delta 1%Z zdim [2; 4]) = Ok ([1; 4], SDense [1; 2; 3; 4]%Z) /\
  td true [2; 3] [1; 2; 3; 4; 5; 6; 7; 8; 9]%Z [2; 3] (delta 1%Z zdim [2; 3]) = Ok ([], SDiag (Dg [] 15%Z 1)) /\
  td true [1; 2] [1; 2; 3; 4; 5; 6]%Z [3; 2] (diagITensor 0%Z [10; 20; 30]%Z) =
    Ok ([3; 1], SDense [10; 60; 150; 20; 80; 180]%Z) /\
  tensor zdim [1; 2] [1; 2; 3; 4; 5; 6]%Z /\ diag_tensor zdim [3; 2] (diagITensor 0%Z [10; 20; 30]%Z) /\
  only Nat.eqb [1; 2] [3; 2] <> [].
Proof.
  repeat (split; [vm_compute; reflexivity|]).
  assert (P : forall n, 0 < zdim n) by (intros [|[|[|[|n]]]]; unfold zdim; lia).
  split; [split; [repeat constructor; cbn; intuition lia|split; [auto|reflexivity]]|].
  split; [|discriminate].
  split; [repeat constructor; cbn; intuition lia|split; [auto|split; [reflexivity|right; reflexivity]]].
Qed.

Print Assumptions C49_elt.
Print Assumptions C49_product.
Print Assumptions C49_delta.
Print Assumptions C49_diagITensor.
Print Assumptions C49_replace.
Print Assumptions C49_vector_refuted.
Print Assumptions C49_same_refuted.
Print Assumptions C49_short_refuted.
