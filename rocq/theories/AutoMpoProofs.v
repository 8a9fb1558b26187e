From Coq Require Import List Arith Bool String Ascii Lia Permutation Sorted Ring Setoid NArith.
From Verif Require Import Util AutoMpoModel AutoMpoSpec.
Import ListNotations.

Lemma isF_fermionic : forall t, isF t = fermionic t.
Proof.
  intros [op i]. unfold isF, fermionic. cbn [st_op]. destruct op as [|c s]; [reflexivity|].
  cbn [prefix]. destruct (ascii_dec "C" c) as [E|E].
  - subst c. destruct s; reflexivity.
  - destruct (Ascii.eqb_spec c "C"%char) as [E'|E']; [congruence|reflexivity].
Qed.

(** parity *)
Fixpoint par (l : list sterm) : bool := match l with [] => false | t :: l' => xorb (fermionic t) (par l') end.

Lemma isFp_par : forall l, isFp l = par l.
Proof.
  intros l. unfold isFp.
  assert (G : forall l b, fold_left (fun isf t => if isF t then negb isf else isf) l b = xorb b (par l)).
  { induction l0 as [|t l0 IH]; intros b; cbn.
    - now rewrite xorb_false_r.
    - rewrite IH, isF_fermionic. destruct (fermionic t), b, (par l0); reflexivity. }
  rewrite G. now destruct (par l).
Qed.

Lemma par_app : forall a b, par (a ++ b) = xorb (par a) (par b).
Proof. induction a as [|t a IH]; intros b; cbn; [now destruct (par b)|]. rewrite IH. now rewrite xorb_assoc. Qed.

Lemma par_nfermi : forall l, par l = Nat.odd (nfermi l).
Proof.
  unfold nfermi. induction l as [|t l IH]; [reflexivity|]. cbn. destruct (fermionic t) eqn:E; rewrite IH; cbn [List.length].
  - rewrite Nat.odd_succ, <- Nat.negb_odd. now destruct (Nat.odd _).
  - now destruct (Nat.odd _).
Qed.

Definition sle (a b : sterm) : Prop := st_i a <= st_i b.

Lemma split_le_spec : forall i l pre post, split_le i l = (pre, post) ->
  l = pre ++ post /\ (forall t, In t pre -> st_i t <= i) /\
  (forall p l', post = p :: l' -> i < st_i p).
Proof.
  induction l as [|t l IH]; intros pre post E; cbn in E.
  - injection E as <- <-. repeat split; [easy|intros; discriminate].
  - destruct (Nat.leb_spec (st_i t) i) as [L|L].
    + destruct (split_le i l) as [a b] eqn:E2. injection E as <- <-.
      destruct (IH _ _ eq_refl) as [H1 [H2 H3]]. subst l. repeat split.
      * intros u [<-|Hu]; [exact L|now apply H2].
      * exact H3.
    + injection E as <- <-. repeat split; [easy|]. intros p l' Q. injection Q as <- _. exact L.
Qed.

Lemma sorted_app_inv : forall a b, StronglySorted sle (a ++ b) -> StronglySorted sle a /\ StronglySorted sle b /\
  (forall x y, In x a -> In y b -> sle x y).
Proof.
  induction a as [|t a IH]; intros b S.
  - repeat split; [constructor|exact S|easy].
  - inversion S as [|? ? S1 F]; subst. destruct (IH _ S1) as [A1 [A2 A3]].
    rewrite Forall_forall in F. repeat split; [constructor; [exact A1|]|exact A2|].
    + apply Forall_forall. intros x Hx. apply F, in_or_app. now left.
    + intros x y [<-|Hx] Hy; [apply F, in_or_app; now right|now apply A3].
Qed.

Lemma sorted_app : forall a b, StronglySorted sle a -> StronglySorted sle b ->
  (forall x y, In x a -> In y b -> sle x y) -> StronglySorted sle (a ++ b).
Proof.
  induction a as [|t a IH]; intros b SA SB H; [exact SB|].
  inversion SA as [|? ? S1 F]; subst. cbn. constructor.
  - apply IH; [exact S1|exact SB|]. intros x y Hx Hy. apply H; [now right|exact Hy].
  - rewrite Forall_forall in *. intros x Hx. apply in_app_or in Hx. destruct Hx; [now apply F|apply H; [now left|easy]].
Qed.

Lemma split_sorted : forall i l pre post, StronglySorted sle l -> split_le i l = (pre, post) ->
  forall t, In t post -> i < st_i t.
Proof.
  intros i l pre post S E t Ht. destruct (split_le_spec _ _ _ _ E) as [H1 [H2 H3]]. subst l.
  destruct (sorted_app_inv _ _ S) as [_ [S2 _]]. destruct post as [|p post]; [easy|].
  specialize (H3 _ _ eq_refl). destruct Ht as [<-|Ht]; [exact H3|].
  inversion S2 as [|? ? _ F]; subst. rewrite Forall_forall in F. specialize (F _ Ht). unfold sle in F. lia.
Qed.

Section Alg.
Context {R : Type} (r0 r1 : R) (radd rmul rsub : R -> R -> R) (ropp : R -> R).
Context (RT : ring_theory r0 r1 radd rmul rsub ropp eq).
Add Ring RRam : RT.
Context (riszero : R -> bool) (riszero_ok : forall c, riszero c = true <-> c = r0).
Notation hterm := (@hterm R).
Notation ht_add := (ht_add r1 rmul ropp).

Definition ht_adds (h : hterm) (l : list (sterm * R)) : hterm :=
  fold_left (fun h p => ht_add h (st_op (fst p)) (st_i (fst p)) (snd p)) l h.

Lemma ht_add_ops : forall h op i x, StronglySorted sle (ht_ops h) ->
  StronglySorted sle (ht_ops (ht_add h op i x)) /\
  (forall s, filter (fun t => Nat.eqb (st_i t) s) (ht_ops (ht_add h op i x)) =
             filter (fun t => Nat.eqb (st_i t) s) (ht_ops h ++ [ST op i])).
Proof.
  intros h op i x S. unfold AutoMpoModel.ht_add. destruct (split_le i (ht_ops h)) as [pre post] eqn:E.
  pose proof (split_sorted _ _ _ _ S E) as HP. destruct (split_le_spec _ _ _ _ E) as [H1 [H2 H3]].
  cbn [ht_ops]. rewrite H1 in S. destruct (sorted_app_inv _ _ S) as [S1 [S2 S3]]. split.
  - apply sorted_app; [exact S1|constructor; [exact S2|]|].
    + apply Forall_forall. intros y Hy. unfold sle. cbn. specialize (HP _ Hy). lia.
    + intros a b Ha [<-|Hb]; [unfold sle; cbn; now apply H2|now apply S3].
  - intros s. rewrite H1. rewrite !filter_app. cbn [filter st_i].
    destruct (Nat.eqb_spec i s) as [->|Q].
    + assert (F : filter (fun t => Nat.eqb (st_i t) s) post = []).
      { clear -HP. induction post as [|p post IH]; [reflexivity|]. cbn.
        pose proof (HP p (or_introl eq_refl)). destruct (Nat.eqb_spec (st_i p) s); [lia|]. apply IH. intros; apply HP; now right. }
      rewrite F. now rewrite app_nil_r.
    + now rewrite app_nil_r.
Qed.

Context {A : Type} (azero aone : A) (aadd amul : A -> A -> A) (scal : R -> A -> A).
Context (AL : algebra_laws r0 r1 radd rmul azero aone aadd amul scal).
Context (I : sterm -> A) (EX : exchange_rules r1 ropp amul scal I).
Notation product := (product aone amul).

Lemma product_app : forall a b, product I (a ++ b) = amul (product I a) (product I b).
Proof.
  intros a b. unfold AutoMpoSpec.product. induction a as [|t a IH]; cbn.
  - symmetry. apply (al_one_l _ _ _ _ _ _ _ _ _ AL).
  - rewrite IH. apply (al_assoc _ _ _ _ _ _ _ _ _ AL).
Qed.

Lemma move_past : forall t l, (forall u, In u l -> st_i u <> st_i t) ->
  amul (product I l) (I t) =
  scal (if fermionic t && par l then ropp r1 else r1) (amul (I t) (product I l)).
Proof.
  intros t. unfold AutoMpoSpec.product. induction l as [|u l IH]; intros H.
  - cbn. rewrite andb_false_r, (al_scal_one _ _ _ _ _ _ _ _ _ AL), (al_one_l _ _ _ _ _ _ _ _ _ AL).
    symmetry. apply (al_one_r _ _ _ _ _ _ _ _ _ AL).
  - cbn. rewrite <- (al_assoc _ _ _ _ _ _ _ _ _ AL). rewrite IH by (intros; apply H; now right).
    rewrite (al_scal_r _ _ _ _ _ _ _ _ _ AL). rewrite (al_assoc _ _ _ _ _ _ _ _ _ AL).
    rewrite (EX u t) by (apply H; now left).
    destruct (fermionic u), (fermionic t), (par l); cbn;
      rewrite ?(al_scal_l _ _ _ _ _ _ _ _ _ AL), ?(al_scal_mul _ _ _ _ _ _ _ _ _ AL), <- ?(al_assoc _ _ _ _ _ _ _ _ _ AL);
      f_equal; ring.
Qed.

Lemma ht_add_value : forall h op i x, StronglySorted sle (ht_ops h) ->
  scal (ht_coef (ht_add h op i x)) (product I (ht_ops (ht_add h op i x))) =
  scal (rmul (ht_coef h) x) (product I (ht_ops h ++ [ST op i])).
Proof.
  intros h op i x S. unfold AutoMpoModel.ht_add. destruct (split_le i (ht_ops h)) as [pre post] eqn:E.
  pose proof (split_sorted _ _ _ _ S E) as HP. destruct (split_le_spec _ _ _ _ E) as [H1 _].
  cbn [ht_ops ht_coef]. rewrite H1.
  replace (product I (pre ++ ST op i :: post)) with (amul (product I pre) (amul (I (ST op i)) (product I post)))
    by (now rewrite product_app).
  rewrite <- app_assoc, product_app, product_app.
  replace (product I [ST op i]) with (I (ST op i)) by (unfold AutoMpoSpec.product; cbn; symmetry; apply (al_one_r _ _ _ _ _ _ _ _ _ AL)).
  rewrite move_past by (intros u Hu; specialize (HP _ Hu); cbn; lia).
  rewrite (al_scal_r _ _ _ _ _ _ _ _ _ AL), (al_scal_mul _ _ _ _ _ _ _ _ _ AL).
  rewrite isF_fermionic, isFp_par. f_equal.
  destruct post as [|p post]; [cbn [par]; rewrite andb_false_r; ring|].
  destruct (fermionic (ST op i)), (par (p :: post)); cbn [andb]; ring.
Qed.

Lemma scal_product_r : forall c a b x, scal c (product I a) = scal x (product I b) -> forall t,
  scal c (product I (a ++ [t])) = scal x (product I (b ++ [t])).
Proof.
  intros c a b x H t. rewrite !product_app. rewrite <- !(al_scal_l _ _ _ _ _ _ _ _ _ AL). now rewrite H.
Qed.

Lemma ht_adds_value : forall l h w x, StronglySorted sle (ht_ops h) ->
  scal (ht_coef h) (product I (ht_ops h)) = scal x (product I w) ->
  scal (ht_coef (ht_adds h l)) (product I (ht_ops (ht_adds h l))) =
  scal (rmul x (rprod r1 rmul (map snd l))) (product I (w ++ map fst l)).
Proof.
  induction l as [|[[op i] y] l IH]; intros h w x S H.
  - cbn. rewrite app_nil_r, H. f_equal. ring.
  - change (ht_adds h ((ST op i, y) :: l)) with (ht_adds (ht_add h op i y) l). cbn [map fst snd].
    erewrite (IH _ (w ++ [ST op i]) (rmul x y)).
    + rewrite <- app_assoc. cbn [app]. f_equal. unfold rprod. cbn [fold_right]. ring.
    + now apply ht_add_ops.
    + rewrite ht_add_value by exact S.
      rewrite (Rmul_comm RT (ht_coef h) y), (Rmul_comm RT x y).
      rewrite <- !(al_scal_mul _ _ _ _ _ _ _ _ _ AL). f_equal. now apply scal_product_r.
Qed.

Lemma ht_adds_ops : forall l h w, StronglySorted sle (ht_ops h) ->
  (forall s, filter (fun t => Nat.eqb (st_i t) s) (ht_ops h) = filter (fun t => Nat.eqb (st_i t) s) w) ->
  StronglySorted sle (ht_ops (ht_adds h l)) /\
  (forall s, filter (fun t => Nat.eqb (st_i t) s) (ht_ops (ht_adds h l)) =
             filter (fun t => Nat.eqb (st_i t) s) (w ++ map fst l)).
Proof.
  induction l as [|[[op i] y] l IH]; intros h w S H.
  - cbn. split; [exact S|]. intros s. now rewrite app_nil_r.
  - change (ht_adds h ((ST op i, y) :: l)) with (ht_adds (ht_add h op i y) l). cbn [map fst snd].
    destruct (ht_add_ops h op i y S) as [S1 F1].
    replace (w ++ ST op i :: map fst l) with ((w ++ [ST op i]) ++ map fst l) by (now rewrite <- app_assoc).
    apply IH; [exact S1|]. intros s. rewrite F1, !filter_app, H. reflexivity.
Qed.

(** *** the set of terms *)
Lemma st_eqb_eq : forall a b, st_eqb a b = true <-> a = b.
Proof.
  intros [oa ia] [ob ib]. unfold st_eqb. cbn. rewrite andb_true_iff, String.eqb_eq, Nat.eqb_eq. split.
  - intros [-> ->]. reflexivity.
  - intros E. injection E as -> ->. easy.
Qed.
Lemma st_eqb_neq : forall a b, st_eqb a b = false <-> a <> b.
Proof.
  intros a b. split; intros H.
  - intros E. apply st_eqb_eq in E. congruence.
  - destruct (st_eqb a b) eqn:E; [apply st_eqb_eq in E; contradiction|reflexivity].
Qed.
Lemma st_eqb_refl : forall a, st_eqb a a = true.
Proof. intros. now apply st_eqb_eq. Qed.

Lemma str_trichotomy : forall a b, str_ltb a b = false -> str_ltb b a = false -> a = b.
Proof.
  intros a b H1 H2. unfold str_ltb in *. rewrite (String.compare_antisym b a) in H2.
  destruct (String.compare a b) eqn:E; cbn in *; try discriminate. now apply String.compare_eq_iff.
Qed.
Lemma str_ltb_irrefl : forall a, str_ltb a a = false.
Proof.
  intros a. unfold str_ltb. pose proof (String.compare_antisym a a) as H.
  destruct (String.compare a a); cbn in H; congruence.
Qed.
Lemma str_ltb_cons : forall c s d t, str_ltb (String c s) (String d t) =
  if (N_of_ascii c <? N_of_ascii d)%N then true
  else if (N_of_ascii c =? N_of_ascii d)%N then str_ltb s t else false.
Proof.
  intros. unfold str_ltb. cbn. unfold Ascii.compare, N.ltb, N.eqb.
  destruct (N.compare_spec (N_of_ascii c) (N_of_ascii d)) as [E|E|E].
  - rewrite E. change (match N_of_ascii d with 0%N => match N_of_ascii d with 0%N => true | N.pos _ => false end | N.pos p => match N_of_ascii d with 0%N => false | N.pos q => (p =? q)%positive end end) with (N.eqb (N_of_ascii d) (N_of_ascii d)).
    rewrite N.eqb_refl. reflexivity.
  - reflexivity.
  - destruct (N_of_ascii c) as [|p] eqn:E1, (N_of_ascii d) as [|q] eqn:E2; try reflexivity; try lia.
    destruct (Pos.eqb_spec p q); [lia|reflexivity].
Qed.
Lemma str_ltb_trans : forall a b c, str_ltb a b = true -> str_ltb b c = true -> str_ltb a c = true.
Proof.
  induction a as [|x a IH]; intros [|y b] [|z c] H1 H2; try discriminate; try reflexivity.
  rewrite str_ltb_cons in *.
  destruct (N.ltb_spec (N_of_ascii x) (N_of_ascii y)), (N.ltb_spec (N_of_ascii y) (N_of_ascii z)),
    (N.ltb_spec (N_of_ascii x) (N_of_ascii z)); try reflexivity; try lia;
    destruct (N.eqb_spec (N_of_ascii x) (N_of_ascii y)), (N.eqb_spec (N_of_ascii y) (N_of_ascii z)),
    (N.eqb_spec (N_of_ascii x) (N_of_ascii z)); try discriminate; try lia.
  eapply IH; eassumption.
Qed.

Lemma st_ltb_irrefl : forall a, st_ltb a a = false.
Proof. intros a. unfold st_ltb. rewrite Nat.eqb_refl. apply str_ltb_irrefl. Qed.
Lemma st_trichotomy : forall a b, st_ltb a b = false -> st_ltb b a = false -> a = b.
Proof.
  intros [oa ia] [ob ib] H1 H2. unfold st_ltb in *. cbn [st_op st_i] in *. rewrite (Nat.eqb_sym ib ia) in H2.
  destruct (Nat.eqb_spec ia ib) as [->|Q]; cbn [negb] in *.
  - f_equal. now apply str_trichotomy.
  - apply Nat.ltb_ge in H1, H2. lia.
Qed.
Lemma st_ltb_trans : forall a b c, st_ltb a b = true -> st_ltb b c = true -> st_ltb a c = true.
Proof.
  intros [oa ia] [ob ib] [oc ic] H1 H2. unfold st_ltb in *. cbn [st_op st_i] in *.
  destruct (Nat.eqb_spec ia ib), (Nat.eqb_spec ib ic), (Nat.eqb_spec ia ic); cbn [negb] in *; subst;
    rewrite ?Nat.ltb_lt in *; try lia; try assumption; try reflexivity; try (eapply str_ltb_trans; eassumption).
Qed.

Lemma ops_less_irrefl : forall a, ops_less a a = false.
Proof. induction a as [|x a IH]; [reflexivity|]. cbn. rewrite st_eqb_refl. exact IH. Qed.
Lemma ops_trichotomy : forall a b, List.length a = List.length b -> ops_less a b = false -> ops_less b a = false -> a = b.
Proof.
  induction a as [|x a IH]; intros [|y b] L H1 H2; try discriminate; [reflexivity|]. cbn in *.
  destruct (st_eqb x y) eqn:E; cbn in *.
  - apply st_eqb_eq in E. subst y. rewrite st_eqb_refl in H2. cbn in H2. f_equal. apply IH; [lia|exact H1|exact H2].
  - assert (E2 : st_eqb y x = false) by (apply st_eqb_neq; apply st_eqb_neq in E; congruence).
    rewrite E2 in H2. cbn in H2. apply st_eqb_neq in E. exfalso. apply E. now apply st_trichotomy.
Qed.
Lemma ops_less_trans : forall a b c, List.length a = List.length b -> List.length b = List.length c ->
  ops_less a b = true -> ops_less b c = true -> ops_less a c = true.
Proof.
  induction a as [|x a IH]; intros [|y b] [|z c] L1 L2 H1 H2; try discriminate. cbn in *.
  destruct (st_eqb x y) eqn:E1; cbn in H1.
  - apply st_eqb_eq in E1. subst y. destruct (st_eqb x z) eqn:E2; cbn in *; [|exact H2].
    apply IH with b; [lia|lia|assumption|assumption].
  - destruct (st_eqb y z) eqn:E2; cbn in H2.
    + apply st_eqb_eq in E2. subst z. rewrite E1. exact H1.
    + assert (T : st_ltb x z = true) by (eapply st_ltb_trans; eassumption).
      destruct (st_eqb x z) eqn:E3; [|exact T].
      apply st_eqb_eq in E3. subst z. rewrite st_ltb_irrefl in T. discriminate.
Qed.

Notation lessNoCoef := (@lessNoCoef R).
Lemma less_irrefl : forall a, lessNoCoef a a = false.
Proof. intros a. unfold AutoMpoModel.lessNoCoef. rewrite Nat.eqb_refl. apply ops_less_irrefl. Qed.
Lemma less_trans : forall a b c, lessNoCoef a b = true -> lessNoCoef b c = true -> lessNoCoef a c = true.
Proof.
  intros a b c H1 H2. unfold AutoMpoModel.lessNoCoef in *.
  destruct (Nat.eqb_spec (List.length (ht_ops a)) (List.length (ht_ops b))) as [E1|E1],
    (Nat.eqb_spec (List.length (ht_ops b)) (List.length (ht_ops c))) as [E2|E2],
    (Nat.eqb_spec (List.length (ht_ops a)) (List.length (ht_ops c))) as [E3|E3]; cbn [negb] in *;
    rewrite ?Nat.ltb_lt in *; try lia.
  eapply ops_less_trans; [exact E1|exact E2|exact H1|exact H2].
Qed.
Lemma equivT_spec : forall a b : hterm, equivT a b = true <-> ht_ops a = ht_ops b.
Proof.
  intros a b. unfold equivT. rewrite andb_true_iff, !negb_true_iff. split.
  - intros [H1 H2]. unfold AutoMpoModel.lessNoCoef in *.
    destruct (Nat.eqb_spec (List.length (ht_ops a)) (List.length (ht_ops b))) as [E|E].
    + rewrite <- E, Nat.eqb_refl in H2. cbn in *. now apply ops_trichotomy.
    + rewrite (Nat.eqb_sym (List.length (ht_ops b))) in H2.
      destruct (Nat.eqb_spec (List.length (ht_ops a)) (List.length (ht_ops b))); [contradiction|]. cbn in *.
      apply Nat.ltb_ge in H1, H2. lia.
  - intros E. unfold AutoMpoModel.lessNoCoef. rewrite E, Nat.eqb_refl. cbn. rewrite ops_less_irrefl. easy.
Qed.

Lemma set_insert_perm : forall (t : hterm) (s : list hterm), (forall u, In u s -> ht_ops u <> ht_ops t) -> Permutation (set_insert t s) (t :: s).
Proof.
  induction s as [|u s IH]; intros H; [apply Permutation_refl|]. cbn.
  destruct (lessNoCoef t u) eqn:E1; [apply Permutation_refl|].
  destruct (lessNoCoef u t) eqn:E2.
  - etransitivity; [apply perm_skip, IH; intros; apply H; now right|apply perm_swap].
  - exfalso. apply (H u (or_introl eq_refl)). symmetry. apply equivT_spec. unfold equivT. rewrite E1, E2. reflexivity.
Qed.

Lemma find_unique_split : forall (t u : hterm) s, NoDup (map ht_ops s) -> set_find t s = Some u ->
  ht_ops u = ht_ops t /\ Permutation s (u :: set_erase t s).
Proof.
  intros t u. unfold set_find, set_erase. induction s as [|w s IH]; intros ND H; [discriminate|].
  cbn in *. inversion ND as [|? ? NI ND']; subst. destruct (equivT t w) eqn:E; cbn.
  - injection H as ->. apply equivT_spec in E. split; [now symmetry|]. apply perm_skip.
    assert (G : filter (fun u0 => negb (equivT t u0)) s = s).
    { clear -NI E. induction s as [|w s IH]; [reflexivity|]. cbn in *.
      destruct (equivT t w) eqn:E2; cbn.
      - apply equivT_spec in E2. exfalso. apply NI. left. congruence.
      - f_equal. apply IH. intros X. apply NI. now right. }
    rewrite G. apply Permutation_refl.
  - destruct (IH ND' H) as [H1 H2]. split; [exact H1|].
    etransitivity; [apply perm_skip, H2|apply perm_swap].
Qed.

Notation opsum := (opsum azero aone aadd amul scal).
Lemma opsum_perm : forall l l', Permutation l l' -> opsum I l = opsum I l'.
Proof.
  intros l l' P. unfold AutoMpoSpec.opsum. induction P; cbn.
  - reflexivity.
  - now rewrite IHP.
  - rewrite !(al_add_assoc _ _ _ _ _ _ _ _ _ AL). f_equal. apply (al_add_comm _ _ _ _ _ _ _ _ _ AL).
  - congruence.
Qed.

Notation am_add := (am_add radd riszero).
Lemma erase_no : forall (t : hterm) s u, In u (set_erase t s) -> ht_ops u <> ht_ops t.
Proof.
  intros t s u H E. unfold set_erase in H. apply filter_In in H. destruct H as [_ H].
  apply negb_true_iff in H. symmetry in E. apply equivT_spec in E. congruence.
Qed.
Lemma find_none_no : forall (t : hterm) s u, set_find t s = None -> In u s -> ht_ops u <> ht_ops t.
Proof.
  intros t s u H Hu E. unfold set_find in H. pose proof (find_none _ _ H _ Hu) as Q.
  symmetry in E. apply equivT_spec in E. congruence.
Qed.
Lemma erase_nodup : forall (t : hterm) s, NoDup (map ht_ops s) -> NoDup (map ht_ops (set_erase t s)).
Proof.
  intros t s. unfold set_erase. induction s as [|u s IH]; intros ND; [constructor|]. cbn in *.
  inversion ND as [|? ? NI ND']; subst. destruct (negb (equivT t u)); [|now apply IH]. cbn. constructor; [|now apply IH].
  intros H. apply NI. apply in_map_iff in H. destruct H as [x [Hx1 Hx2]]. apply filter_In in Hx2.
  rewrite <- Hx1. apply in_map. apply Hx2.
Qed.

Lemma am_add_nodup : forall (s : list hterm) t, NoDup (map ht_ops s) -> NoDup (map ht_ops (am_add s t)).
Proof.
  intros s t ND. unfold AutoMpoModel.am_add. destruct (riszero (ht_coef t)); [exact ND|].
  destruct (set_find t s) as [u|] eqn:E.
  - set (t2 := HT (radd (ht_coef t) (ht_coef u)) (ht_ops t)).
    assert (P : Permutation (set_insert t2 (set_erase t s)) (t2 :: set_erase t s)).
    { apply set_insert_perm. intros w Hw. apply erase_no in Hw. exact Hw. }
    eapply Permutation_NoDup; [apply Permutation_map, Permutation_sym, P|]. cbn. constructor.
    + intros H. apply in_map_iff in H. destruct H as [x [Hx1 Hx2]]. apply erase_no in Hx2. contradiction.
    + now apply erase_nodup.
  - assert (P : Permutation (set_insert t s) (t :: s)).
    { apply set_insert_perm. intros w Hw. now apply (find_none_no _ s). }
    eapply Permutation_NoDup; [apply Permutation_map, Permutation_sym, P|]. cbn. constructor; [|exact ND].
    intros H. apply in_map_iff in H. destruct H as [x [Hx1 Hx2]]. apply (find_none_no _ _ _ E) in Hx2. contradiction.
Qed.

Lemma am_add_sum : forall (s : list hterm) t, NoDup (map ht_ops s) ->
  opsum I (am_add s t) = aadd (opsum I s) (scal (ht_coef t) (product I (ht_ops t))).
Proof.
  intros s t ND. unfold AutoMpoModel.am_add. destruct (riszero (ht_coef t)) eqn:EZ.
  - apply riszero_ok in EZ. rewrite EZ, (al_scal_zero _ _ _ _ _ _ _ _ _ AL), (al_add_comm _ _ _ _ _ _ _ _ _ AL).
    now rewrite (al_add_zero _ _ _ _ _ _ _ _ _ AL).
  - destruct (set_find t s) as [u|] eqn:E.
    + destruct (find_unique_split _ _ _ ND E) as [EQ P].
      rewrite (opsum_perm _ _ P). erewrite opsum_perm by (apply set_insert_perm; intros w Hw; apply erase_no in Hw; exact Hw).
      unfold AutoMpoSpec.opsum. cbn. rewrite EQ, (al_scal_add _ _ _ _ _ _ _ _ _ AL).
      rewrite <- (al_add_assoc _ _ _ _ _ _ _ _ _ AL). apply (al_add_comm _ _ _ _ _ _ _ _ _ AL).
    + erewrite opsum_perm by (apply set_insert_perm; intros w Hw; now apply (find_none_no _ s)).
      unfold AutoMpoSpec.opsum. cbn. apply (al_add_comm _ _ _ _ _ _ _ _ _ AL).
Qed.

(** *** statements *)
Notation acc_commas := (acc_commas r1 rmul ropp).
Notation stmt_means := (stmt_means r1 rmul).
Lemma commas_means : forall inj l c ops, stmt_means inj l c ops -> forall c0 h w x,
  StronglySorted sle (ht_ops h) ->
  scal (ht_coef h) (product I (ht_ops h)) = scal x (product I w) ->
  exists a, acc_commas inj (Acc None c0 h) l = Ok a /\ ac_op a = None /\ ac_coef a = rmul c0 c /\
    List.length (ht_ops (ac_term a)) = List.length (ht_ops h) + List.length ops /\
    scal (ht_coef (ac_term a)) (product I (ht_ops (ac_term a))) = scal x (product I (w ++ ops)).
Proof.
  intros inj l c ops M. induction M as [|y l c ops M IH|i l c ops M IH|s i l c ops M IH]; intros c0 h w x S H.
  - exists (Acc None c0 h). cbn. rewrite app_nil_r. repeat split; [ring|lia|exact H].
  - destruct (IH (rmul c0 y) h w x S H) as [a [H1 [H2 [H3 [H4 H5]]]]]. exists a. cbn.
    split; [exact H1|]. repeat split; [exact H2|rewrite H3; ring|exact H4|exact H5].
  - destruct (IH (rmul c0 (inj i)) h w x S H) as [a [H1 [H2 [H3 [H4 H5]]]]]. exists a. cbn.
    split; [exact H1|]. repeat split; [exact H2|rewrite H3; ring|exact H4|exact H5].
  - destruct (ht_add_ops h s i r1 S) as [S1 F1].
    destruct (IH c0 (ht_add h s i r1) (w ++ [ST s i]) x S1) as [a [H1 [H2 [H3 [H4 H5]]]]].
    + rewrite ht_add_value by exact S. replace (rmul (ht_coef h) r1) with (ht_coef h) by ring. now apply scal_product_r.
    + exists a. cbn. split; [exact H1|]. repeat split; [exact H2|exact H3| |].
      * rewrite H4. unfold AutoMpoModel.ht_add. destruct (split_le i (ht_ops h)) as [pre post] eqn:E.
        destruct (split_le_spec _ _ _ _ E) as [Q _]. rewrite Q. cbn. rewrite !app_length. cbn. lia.
      * rewrite <- app_assoc in H5. exact H5.
Qed.
End Alg.
