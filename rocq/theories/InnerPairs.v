(** inner(A,x,B,y), where one site index may be summed twice, and traces. *)
From Coq Require Import List Arith Bool Lia Permutation Ring.
From Verif Require Import Util RangeModel RangeSpec RangeProofs TensorModel TensorSpec TensorProofs SemProofs BigSum InnerModel InnerSpec NetProofs ChainProofs InnerProofs InnerOps.
Import ListNotations.
Local Open Scope outcome_scope.
Local Arguments Nat.sub : simpl never.

Section InnerPairs.
Context {R : Type} (r0 r1 : R) (radd rmul rsub : R -> R -> R) (ropp : R -> R) (conj : R -> R).
Context (RT : ring_theory r0 r1 radd rmul rsub ropp eq).
Hypothesis conj0 : conj r0 = r0.
Hypothesis conj1 : conj r1 = r1.
Hypothesis conj_add : forall x y, conj (radd x y) = radd (conj x) (conj y).
Hypothesis conj_mul : forall x y, conj (rmul x y) = rmul (conj x) (conj y).
Add Ring RRipp : RT.
Notation nt := (nt R).
Notation mps := (mps R).
Notation sum_over := (sum_over r0 radd ix_eqb ixdim).
Notation tmul := (tmul r0 radd rmul).
Notation tmuls := (tmuls r0 radd rmul).
Notation prod := (prod r1 rmul).
Notation contract_all := (contract_all r0 radd rmul).
Notation amplitude := (amplitude r0 r1 radd rmul).
Notation element := (element r0 r1 radd rmul).
Notation applied := (applied r0 r1 radd rmul).
Notation over := (over r0 radd).
Notation "x + y" := (radd x y). Notation "x * y" := (rmul x y).
Notation hom := (hom r0 r1 radd rmul).
Notation bra := (bra r0 r1 radd rmul conj conj0 conj1 conj_add conj_mul).
Notation im := (img (fun r : R => r)).

(** ** A network of four chains without repeated names *)
Lemma net4 (y B A x : mps) sy t w ly lB lA lx : is_mps y sy ly -> is_mpo B sy t lB -> is_mpo A t w lA -> is_mps x w lx ->
  length B = length y -> length A = length y -> length x = length y ->
  NoDup (((sy ++ t) ++ w) ++ ly ++ lB ++ lA ++ lx) ->
  contract_all (zip4 y B A x) = Ok (over w (fun d => amplitude x w lx d * over t (fun c' => element A t w lA c' d * applied B sy t lB y ly c'))).
Proof.
  intros HY HB HA HX LB LA LX ND. set (DD := ((sy ++ t) ++ w) ++ ly ++ lB ++ lA ++ lx) in *.
  pose proof ND as ND0. unfold DD in ND0. apply NoDup_app_iff in ND0. destruct ND0 as (NSW & N2 & N3).
  pose proof NSW as NSW0. apply NoDup_app_iff in NSW0. destruct NSW0 as (Nst & Nw & Nstw).
  apply NoDup_app_iff in N2. destruct N2 as (Nly & N2 & D1). apply NoDup_app_iff in N2. destruct N2 as (NlB & N2 & D2). apply NoDup_app_iff in N2. destruct N2 as (NlA & Nlx & D3).
  assert (DS : forall z, In z (sy ++ t ++ w) -> ~ In z ly /\ ~ In z lB /\ ~ In z lA /\ ~ In z lx).
  { intros z Hz. specialize (N3 z). rewrite !in_app_iff in *. tauto. }
  assert (D1' : forall z, In z ly -> ~ In z lB /\ ~ In z lA /\ ~ In z lx) by (intros z Hz; specialize (D1 z Hz); rewrite !in_app_iff in D1; tauto).
  assert (D2' : forall z, In z lB -> ~ In z lA /\ ~ In z lx) by (intros z Hz; specialize (D2 z Hz); rewrite !in_app_iff in D2; tauto).
  pose proof (mps_len _ _ _ HX) as [L1 L2]. pose proof (mps_len _ _ _ HY) as [L3 L4]. pose proof (mpo_len _ _ _ _ HA) as (L5 & L6 & L7). pose proof (mpo_len _ _ _ _ HB) as (L9 & L10 & L11).
  rewrite (contract_net r0 r1 radd rmul rsub ropp RT _ DD); auto.
  - f_equal. unfold DD. rewrite (sum_app r0 radd).
    transitivity (sum_over ((sy ++ t) ++ w) (fun u => sum_over ly (prod y) u * sum_over lB (prod B) u * sum_over lA (prod A) u * sum_over lx (prod x) u) (fun _ => 0)).
    + apply (sum_ext_in r0 radd). intros u _ _. rewrite <- (sum4 r0 r1 radd rmul rsub ropp RT ly lB lA lx (sy ++ ly) ((sy ++ t) ++ lB) ((t ++ w) ++ lA) (w ++ lx)).
      * apply (sum_ext_in r0 radd). intros z _ _. apply (zip4_prod r0 r1 radd rmul rsub ropp RT); lia.
      * eapply dep_prod; eassumption. * eapply dep_mprod; eassumption. * eapply dep_mprod; eassumption. * eapply dep_prod; eassumption.
      * intros z Hz K. rewrite !in_app_iff in K. specialize (DS z). rewrite !in_app_iff in DS. specialize (D1' z). tauto.
      * intros z Hz K. rewrite !in_app_iff in K. specialize (DS z). rewrite !in_app_iff in DS. specialize (D1' z). specialize (D2' z). tauto.
      * intros z Hz K. rewrite !in_app_iff in K. specialize (DS z). rewrite !in_app_iff in DS. specialize (D1' z). specialize (D2' z). specialize (D3 z). tauto.
      * intros z Hz K. rewrite !in_app_iff in K. specialize (DS z). rewrite !in_app_iff in DS. specialize (D1' z). specialize (D2' z). specialize (D3 z). tauto.
    + rewrite <- (over_sum r0 radd); auto.
      * rewrite !(over_app r0 radd).
        transitivity (over sy (fun c => over w (fun d => over t (fun c' => amplitude x w lx d * (element A t w lA c' d * (element B sy t lB c c' * amplitude y sy ly c)))))).
        -- apply (over_ext r0 radd). intros c Lc _. rewrite (over_swap r0 r1 radd rmul rsub ropp RT). apply (over_ext r0 radd). intros d Ld _. apply (over_ext r0 radd). intros c' Lc' _.
           assert (Vs : forall z, In z sy -> values ((sy ++ t) ++ w) ((c ++ c') ++ d) z = values sy c z).
           { intros z Hz. rewrite values_app_l by (rewrite ?app_length; try lia; apply in_or_app; auto). now apply values_app_l. }
           assert (Vt : forall z, In z t -> values ((sy ++ t) ++ w) ((c ++ c') ++ d) z = values t c' z).
           { intros z Hz. rewrite values_app_l by (rewrite ?app_length; try lia; apply in_or_app; auto). now apply values_r. }
           assert (Vw : forall z, In z w -> values ((sy ++ t) ++ w) ((c ++ c') ++ d) z = values w d z).
           { intros z Hz. apply values_r; auto. rewrite !app_length. lia. }
           rewrite (amplitude_at r0 r1 radd rmul y sy ly c) by auto. rewrite (amplitude_at r0 r1 radd rmul x w lx d) by auto.
           rewrite (element_at r0 r1 radd rmul B sy t lB c c') by auto. rewrite (element_at r0 r1 radd rmul A t w lA c' d) by auto. ring.
        -- rewrite (over_swap r0 r1 radd rmul rsub ropp RT).
           apply (over_ext r0 radd). intros d Ld _. rewrite (over_swap r0 r1 radd rmul rsub ropp RT). rewrite <- (over_mul_l r0 r1 radd rmul rsub ropp RT). apply (over_ext r0 radd). intros c' Lc' _.
           unfold InnerSpec.applied. rewrite <- !(over_mul_l r0 r1 radd rmul rsub ropp RT). reflexivity.
      * apply dep_mul; [apply dep_mul; [apply dep_mul|]|].
        -- eapply dep_incl'; [eapply dep_amp; eassumption|]. intros z Hz. rewrite !in_app_iff. auto.
        -- eapply dep_incl'; [eapply dep_elt; eassumption|]. intros z Hz. apply in_or_app; auto.
        -- eapply dep_incl'; [eapply dep_elt; eassumption|]. intros z Hz. rewrite !in_app_iff in *. tauto.
        -- eapply dep_incl'; [eapply dep_amp; eassumption|]. intros z Hz. apply in_or_app; auto.
  - destruct y; [cbn in *; lia|]. destruct B; [cbn in *; lia|]. destruct A; [cbn in *; lia|]. destruct x; [cbn in *; lia|]. discriminate.
  - intros z Ht. apply zip4_In in Ht. destruct Ht as [Ht|[Ht|[Ht|Ht]]].
    + destruct HY as [CY NY]. apply (chain_tensors y _ ly CY); [now rewrite concat_sing|auto].
    + pose proof (mpo_nodup _ _ _ _ HB) as N4. destruct HB as (_ & C2 & _). apply (chain_tensors B _ lB C2 N4 z Ht).
    + pose proof (mpo_nodup _ _ _ _ HA) as N4. destruct HA as (_ & C2 & _). apply (chain_tensors A _ lA C2 N4 z Ht).
    + destruct HX as [CX NX]. apply (chain_tensors x _ lx CX); [now rewrite concat_sing|exact Ht].
  - rewrite zip4_nis by lia. rewrite (chain_perm y sy ly HY), (mpo_perm B sy t lB HB), (mpo_perm A t w lA HA), (chain_perm x w lx HX). unfold DD.
    apply (Permutation_count_occ ix_dec). intros e. rewrite !count_occ_app. lia.
Qed.

(** ** Products and renaming *)
Lemma filter_map {X} (f : X -> X) (p q : X -> bool) l : (forall x, In x l -> p (f x) = q x) -> filter p (map f l) = map f (filter q l).
Proof. induction l as [|a l IH]; intros H; cbn; auto. rewrite H by (left; auto). rewrite IH by (intros; apply H; right; auto). now destruct (q a). Qed.
Lemma has_map f l m x : (forall a b, In a (l ++ m) -> In b (l ++ m) -> f a = f b -> a = b) -> In x l -> existsb (ix_eqb (f x)) (map f m) = existsb (ix_eqb x) m.
Proof.
  intros J Hx. apply eq_true_iff_eq. change (has (map f m) (f x) = true <-> has m x = true). rewrite !has_In, in_map_iff. split.
  - intros (z & E & Hz). apply J in E; [now subst| |]; apply in_or_app; auto. - intros H. eauto.
Qed.
Lemma tmul_img f (A B A' B' : nt) : proper A -> proper B -> im f A A' -> im f B B' -> (forall a b, In a (nis A ++ nis B) -> In b (nis A ++ nis B) -> f a = f b -> a = b) ->
  (forall y, In y (nis A) -> ixdim (f y) = ixdim y) -> im f (tmul A B) (tmul A' B').
Proof.
  intros PA PB [EA VA] [EB VB] J D.
  assert (J' : forall a b, In a (nis B ++ nis A) -> In b (nis B ++ nis A) -> f a = f b -> a = b) by (intros a b Ha Hb; apply J; rewrite in_app_iff in *; tauto).
  assert (C : common ix_eqb (nis A') (nis B') = map f (common ix_eqb (nis A) (nis B))).
  { unfold common. rewrite EA, EB. apply filter_map. intros x Hx. now apply (has_map f (nis A)). }
  split; cbn [nis nel InnerModel.tmul].
  - rewrite map_app. f_equal; unfold only; rewrite EA, EB; apply filter_map; intros x Hx; f_equal; [now apply (has_map f (nis A))|now apply (has_map f (nis B))].
  - intros u. rewrite C. rewrite <- (sum_rename r0 radd f _ (nis A ++ nis B)).
    + apply (sum_ext_in r0 radd). intros v _ _. now rewrite VA, VB.
    + apply dep_mul; eapply dep_incl'; [exact PA| |exact PB|]; intros z Hz; apply in_or_app; auto.
    + intros z Hz. apply common_In in Hz. apply in_or_app; tauto.
    + exact J.
    + intros z Hz. apply common_In in Hz. apply D; tauto.
Qed.
Lemma nis_tmul (T a : nt) e : In e (nis (tmul T a)) <-> (In e (nis T) /\ ~ In e (nis a)) \/ (In e (nis a) /\ ~ In e (nis T)).
Proof. cbn [nis InnerModel.tmul]. rewrite in_app_iff, !only_In. tauto. Qed.
(** s occurs in a and b and not in T: it may be renamed to a new z. *)
Lemma pair_rename (T a b a' b' T' : nt) f : proper T -> proper a -> proper b -> im f a a' -> im f b b' -> im (fun y => y) T T' ->
  (forall e, In e (nis T) -> f e = e) -> (forall e, In e (nis a ++ nis b) -> f e <> e -> In e (nis a) /\ In e (nis b)) ->
  (forall p q, In p (nis T ++ nis a ++ nis b) -> In q (nis T ++ nis a ++ nis b) -> f p = f q -> p = q) -> (forall e, ixdim (f e) = ixdim e) ->
  im (fun y => y) (tmul (tmul T a) b) (tmul (tmul T' a') b').
Proof.
  intros PT Pa Pb Ia Ib [ET VT] FT FB J D.
  assert (IT : im f T T'). { split; [rewrite ET, map_id; rewrite <- (map_id (nis T)) at 1; apply map_ext_in; intros e He; symmetry; auto|]. intros u. rewrite VT. apply PT. intros e He. now rewrite FT. }
  assert (I1 : im f (tmul T a) (tmul T' a')). { apply tmul_img; auto. intros p q Hp Hq. apply J; rewrite !in_app_iff in *; tauto. }
  assert (I2 : im f (tmul (tmul T a) b) (tmul (tmul T' a') b')).
  { apply tmul_img; auto; [now apply tmul_proper|]. intros p q Hp Hq. apply J; rewrite !in_app_iff, nis_tmul in *; tauto. }
  assert (PR : proper (tmul (tmul T a) b)) by (apply tmul_proper; auto; apply tmul_proper; auto).
  assert (FI : forall e, In e (nis (tmul (tmul T a) b)) -> f e = e).
  { intros e He. destruct (ix_dec (f e) e) as [E|E]; auto. exfalso. rewrite !nis_tmul in He.
    assert (NT : ~ In e (nis T)) by (intros K; apply E; auto).
    assert (K : In e (nis a) /\ In e (nis b)) by (apply FB; auto; rewrite in_app_iff; tauto). tauto. }
  destruct I2 as [E2 V2]. split.
  - rewrite E2. apply map_ext_in. auto.
  - intros u. rewrite V2. apply PR. intros e He. now rewrite FI.
Qed.
Lemma same_mul (T T' a : nt) : im (fun y => y) T T' -> im (fun y => y) (tmul T a) (tmul T' a).
Proof.
  intros [E V]. rewrite map_id in E. split; cbn [nis nel InnerModel.tmul]; rewrite E; [now rewrite map_id|]. intros u. apply (sum_ext_in r0 radd). intros v _ _. now rewrite V.
Qed.

(** Rows y_n, B_n, A_n, x_n: the pair A_n, x_n may be renamed. *)
Lemma rows f (y : mps) : forall B A x A' x' T T' (S : list ix),
  length B = length y -> length A = length y -> length x = length y ->
  (forall t, In t y \/ In t B \/ In t A \/ In t x -> proper t) -> proper T ->
  Forall2 (im f) A A' -> Forall2 (im f) x x' -> im (fun v => v) T T' ->
  (forall e, ~ In e S -> f e = e) -> (forall e, ixdim (f e) = ixdim e) ->
  (forall e, In e S -> ~ In e (nis T)) ->
  (forall n b c e, nth_error y n = Some b -> nth_error B n = Some c -> In e S -> (In e (nis b) <-> In e (nis c))) ->
  (forall n b c e, nth_error A n = Some b -> nth_error x n = Some c -> In e S -> (In e (nis b) <-> In e (nis c))) ->
  (forall p q, In p (nis T ++ concat (map nis (zip4 y B A x))) -> In q (nis T ++ concat (map nis (zip4 y B A x))) -> f p = f q -> p = q) ->
  im (fun v => v) (tmuls T (zip4 y B A x)) (tmuls T' (zip4 y B A' x')).
Proof.
  induction y as [|y1 y IH]; intros [|B1 B] [|A1 A] [|x1 x] A' x' T T' S LB LA LX P PT FA FX I F0 FD ST SY SA J; try discriminate.
  - cbn. exact I.
  - inversion FA as [|? A1' ? A2' IA FA']; subst. inversion FX as [|? x1' ? x2' IX FX']; subst. cbn [zip4 InnerModel.tmuls fold_left].
    change (fold_left tmul ?l ?t) with (tmuls t l) in *.
    assert (Py : proper y1) by (apply P; left; left; auto). assert (PB : proper B1) by (apply P; right; left; left; auto).
    assert (PA : proper A1) by (apply P; right; right; left; left; auto). assert (Px : proper x1) by (apply P; right; right; right; left; auto).
    assert (Q : forall e, In e S -> ~ In e (nis (tmul (tmul T y1) B1))).
    { intros e He K. specialize (SY 0 y1 B1 e eq_refl eq_refl He). specialize (ST e He). rewrite !nis_tmul in K. tauto. }
    assert (Q' : forall e, In e S -> ~ In e (nis (tmul (tmul (tmul (tmul T y1) B1) A1) x1))).
    { intros e He K. specialize (SA 0 A1 x1 e eq_refl eq_refl He). specialize (Q e He). rewrite nis_tmul, (nis_tmul (tmul (tmul T y1) B1)) in K. tauto. }
    assert (PL : proper (tmul (tmul T y1) B1)) by (apply tmul_proper; auto; apply tmul_proper; auto).
    cbn [zip4 map concat] in J.
    apply (IH _ _ _ _ _ _ _ S); auto; try (cbn in *; lia).
    + intros t Ht. apply P. cbn. tauto.
    + apply tmul_proper; auto. apply tmul_proper; auto.
    + apply (pair_rename _ _ _ _ _ _ f); auto.
      * apply same_mul, same_mul, I.
      * intros e He. apply F0. intros K. now apply (Q e).
      * intros e He E. assert (K : In e S) by (destruct (in_dec ix_dec e S); auto; exfalso; auto). specialize (SA 0 A1 x1 e eq_refl eq_refl K). rewrite in_app_iff in He. tauto.
      * intros p q Hp Hq. apply J; rewrite !in_app_iff, ?nis_tmul in *; tauto.
    + intros n b c e Hb Hc. now apply (SY (Datatypes.S n)).
    + intros n b c e Hb Hc. now apply (SA (Datatypes.S n)).
    + intros p q Hp Hq. apply J; rewrite !in_app_iff, ?nis_tmul in *; tauto.
Qed.
Definition one_t : nt := mkNT [] (fun _ => r1).
Lemma contract_one t ts : proper t -> (forall v, im (fun y => y) (tmuls t ts) v -> match nis v with [] => Ok (nel v (fun _ => 0)) | _ => Err end = contract_all (t :: ts)).
Proof.
  intros P v [E V]. cbn [InnerModel.contract_all]. unfold scalar. rewrite map_id in E. rewrite E. destruct (nis (tmuls t ts)); auto. now rewrite V.
Qed.
Lemma one_mul t : im (fun y => y) t (tmul one_t t).
Proof.
  split; cbn [nis nel InnerModel.tmul one_t].
  - cbn [only filter app]. rewrite map_id. unfold only. induction (nis t) as [|a l IH]; cbn; auto. f_equal. exact IH.
  - intros u. change (r1 * nel t u = nel t u). ring.
Qed.
Lemma same_trans (a b c : nt) : im (fun y => y) a b -> im (fun y => y) b c -> im (fun y => y) a c.
Proof. intros [E1 V1] [E2 V2]. split; [rewrite E2, E1, !map_id; auto|]. intros u. now rewrite V2, V1. Qed.
Lemma same_sym (a b : nt) : im (fun y => y) a b -> im (fun y => y) b a.
Proof. intros [E1 V1]. rewrite map_id in E1. split; [now rewrite map_id|]. intros u. now rewrite V1. Qed.
Lemma same_refl (a : nt) : im (fun y => y) a a.
Proof. split; [now rewrite map_id|auto]. Qed.
Lemma same_muls ts : forall (T T' : nt), im (fun y => y) T T' -> im (fun y => y) (tmuls T ts) (tmuls T' ts).
Proof. induction ts as [|t ts IH]; intros T T' I; cbn [InnerModel.tmuls fold_left]; auto. apply IH. now apply same_mul. Qed.
Lemma contract_same (ts ts' : list nt) : im (fun y => y) (tmuls one_t ts) (tmuls one_t ts') -> ts <> [] -> ts' <> [] -> contract_all ts = contract_all ts'.
Proof.
  intros I H H'. destruct ts as [|t ts]; [contradiction|]. destruct ts' as [|t' ts']; [contradiction|]. cbn [InnerModel.contract_all].
  cbn [InnerModel.tmuls fold_left] in I. change (fold_left tmul ?l ?t) with (tmuls t l) in *.
  assert (I2 : im (fun y => y) (tmuls t ts) (tmuls t' ts')).
  { eapply same_trans; [apply same_muls, one_mul|]. eapply same_trans; [exact I|]. apply same_sym. apply same_muls, one_mul. }
  destruct I2 as [E V]. unfold scalar. rewrite E, map_id. destruct (nis (tmuls t ts)); auto. now rewrite V.
Qed.
Lemma hasSiteInds_chain (A : mps) i o l : is_mpo A i o l -> hasSiteInds A o = true.
Proof.
  intros HA. pose proof (mpo_len _ _ _ _ HA) as (L1 & L2 & L3). unfold hasSiteInds. apply forallb_forall. intros [t e] Ht. cbn [fst snd]. apply has_In.
  apply (In_nth_error _ _) in Ht. destruct Ht as (n & Hn). rewrite combine_nth_error in Hn. destruct (nth_error A n) as [t'|] eqn:E1; [|discriminate]. destruct (nth_error o n) as [e'|] eqn:E2; [|discriminate].
  injection Hn as <- <-. assert (Hl : n < length A) by (apply nth_error_Some; congruence).
  pose proof (proj2 (mpo_site A i o l HA n e' Hl e')) as K. specialize (K (or_intror (eq_sym (nth_error_nth _ _ e' E2)))).
  unfold siteInds1, uniqueInds in K. apply filter_In in K. destruct K as [K _]. unfold ninds in K. now rewrite E1 in K.
Qed.
Lemma lk_inj xs ys p q : NoDup xs -> NoDup ys -> length ys = length xs -> ~ In p ys -> ~ In q ys -> lk xs ys p = lk xs ys q -> p = q.
Proof.
  intros N N' L Hp Hq E. assert (K : forall e, In e xs -> In (lk xs ys e) ys) by (intros e He; pose proof (in_map (lk xs ys) xs e He) as Q; now rewrite lk_map in Q).
  destruct (in_dec ix_dec p xs) as [I|I], (in_dec ix_dec q xs) as [I'|I'].
  - apply (nodup_inj (lk xs ys) xs); auto. now rewrite lk_map.
  - exfalso. apply Hq. rewrite <- (lk_other xs ys q I'), <- E. auto.
  - exfalso. apply Hp. rewrite <- (lk_other xs ys p I), E. auto.
  - now rewrite !lk_other in E by auto.
Qed.
Lemma chain_at (x : mps) SS l n b e : chain_on [] x SS l -> nth_error x n = Some b -> ~ In e l -> (In e (nis b) <-> In e (nth n SS [])).
Proof.
  intros H Hn Nl. pose proof (ninds_In x SS l H n e) as Q. unfold ninds in Q. rewrite Hn in Q. rewrite Q. assert (n < length x) by (apply nth_error_Some; congruence). split.
  - intros (_ & [K|[K|K]]); auto; exfalso; apply Nl; [destruct n; [contradiction|]|]; eapply optl_sub; eauto.
  - intros K. split; auto.
Qed.
Lemma mps_at (x : mps) s l n b e d : is_mps x s l -> nth_error x n = Some b -> ~ In e l -> (In e (nis b) <-> e = nth n s d).
Proof.
  intros HX Hn Nl. pose proof (mps_len _ _ _ HX) as [L _]. destruct HX as [H N]. assert (n < length x) by (apply nth_error_Some; congruence). rewrite (chain_at x _ l n b e H Hn Nl).
  rewrite (nth_sing _ _ d) by lia. cbn. intuition congruence.
Qed.
Lemma mpo_at (A : mps) i o l n b e d : is_mpo A i o l -> nth_error A n = Some b -> ~ In e l -> ~ In e o -> (In e (nis b) <-> e = nth n i d).
Proof.
  intros HA Hn Nl No. pose proof (mpo_len _ _ _ _ HA) as (L1 & L2 & L3). destruct HA as (LL & H & N). assert (n < length A) by (apply nth_error_Some; congruence). rewrite (chain_at A _ l n b e H Hn Nl).
  rewrite (nth_pairs _ _ _ d) by lia. cbn. split; [intros [K|[K|[]]]; [auto|]|auto]. exfalso. apply No. rewrite <- K. apply nth_In. lia.
Qed.
Lemma img_mps h f (x x' : mps) s l : is_mps x s l -> Forall2 (img h f) x x' -> NoDup (map f s ++ map f l) -> is_mps x' (map f s) (map f l).
Proof.
  intros (C & N) F N'. split; [|exact N']. pose proof (chain_img h f x x' [] _ l F C) as C'. cbn [map] in C'.
  replace (map (map f) (map (fun a => [a]) s)) with (map (fun a : ix => [a]) (map f s)) in C'; auto. now rewrite !map_map.
Qed.
Lemma rename_img f (x : mps) : Forall2 (im f) x (map (rename f) x).
Proof. induction x as [|t x IH]; cbn; constructor; auto. split; cbn; auto. Qed.
Lemma sims_below k l e : In e (sims k l) -> ixid e < k + length l.
Proof. intros H. apply sims_ge in H. lia. Qed.

Lemma over_conj s g : over s (fun c => conj (g c)) = conj (over s g).
Proof.
  unfold InnerSpec.over. revert g. induction (map ixdim s) as [|n dims IH]; intros g; [reflexivity|]. cbn [csum].
  transitivity (bsum r0 radd n (fun i => conj (csum r0 radd dims (fun c => g (i :: c))))); [apply (bsum_ext r0 radd); intros i _; apply (IH (fun c => g (i :: c)))|].
  clear IH. induction n as [|n IH]; cbn [bsum]; [auto|]. now rewrite conj_add, IH.
Qed.
(** ** inner(A,x,B,y) *)
Theorem innerAxBy_spec k A x B y sx lx sy ly t lA lB : is_mps x sx lx -> is_mpo A sx t lA -> is_mpo B sy t lB -> is_mps y sy ly ->
  2 <= length y -> disjoint ly (t ++ lB) -> disjoint lx t -> disjoint sx (ly ++ lB) -> used_below k (lx ++ sx ++ sy ++ t ++ lA ++ lB ++ ly) ->
  innerAxBy r0 radd rmul conj k A x B y = Ok (over t (fun c' => conj (applied A sx t lA x lx c') * applied B sy t lB y ly c')).
Proof.
  intros HX HA HB HY NN DJ DX0 DS0 U. pose proof (mps_len _ _ _ HX) as [L1 L2]. pose proof (mps_len _ _ _ HY) as [L3 L4].
  pose proof (mpo_len _ _ _ _ HA) as (L5 & L6 & L7). pose proof (mpo_len _ _ _ _ HB) as (L9 & L10 & L11).
  assert (LXY : length x = length y) by lia.
  unfold innerAxBy. rewrite !(proj2 (Nat.eqb_eq _ _)) by lia. cbn [negb orb].
  rewrite (unique_mps A x sx t lA lx) by (auto; lia). cbn [obind].
  rewrite (unique_mps B y sy t lB ly) by (auto; try lia; intros z Hz K; apply (DJ z Hz); apply in_or_app; auto). cbn [obind].
  unfold replaceSiteIndsMPO. rewrite (proj2 (Nat.eqb_eq _ _)) by lia. cbn [negb]. rewrite (hasSiteInds_chain A sx t lA HA). cbn [obind].
  pose proof HA as (_ & CA & NA). pose proof NA as NA0. apply NoDup_app_iff in NA0. destruct NA0 as (Nsx & Nt & Nsxt). apply NoDup_app_iff in Nt. destruct Nt as (Nt & NlA & NtA).
  assert (HC : hom conj) by (repeat split; auto).
  assert (Kid : forall e, In e (lx ++ sx ++ sy ++ t ++ lA ++ lB ++ ly) -> ixid e < k) by exact U.
  destruct (mpo_sim r0 r1 radd rmul k conj (fun e => e) A (dag conj A) sx t lA sx t HA (img_dag conj A) HC) as (Ad & E1 & HAd & _ & VA); try apply map_id; auto.
  { intros e He. apply U. rewrite !in_app_iff in *. tauto. }
  rewrite E1. cbn [obind].
  assert (FX : Forall2 (img conj (lk sx sx)) x (dag conj x)).
  { apply (img_ext conj (fun e => e)); [| |apply img_dag]. - destruct HX as [CX _]. exact (chain_proper x [] _ lx CX). - intros. symmetry. apply lk_self. }
  pose proof HX as [CX0 NX0]. apply NoDup_app_iff in NX0. destruct NX0 as (_ & Nlx & Nsl).
  destruct (bra (k + length A) x (dag conj x) sx lx sx HX FX Nsx eq_refl) as (xd & E2 & CXd & NXd & VX).
  { intros e He K. apply (Nsl e); auto. }
  { intros e He. assert (ixid e < k) by (apply U; rewrite !in_app_iff in *; tauto). lia. }
  rewrite E2. cbn [obind]. pose proof (Logic.conj CXd NXd : is_mps xd sx (sims (k + length A) lx)) as HXd.
  set (lA' := sims k lA) in *. set (lx' := sims (k + length A) lx) in *.
  replace (length y =? 1) with false by (symmetry; apply Nat.eqb_neq; lia).
  set (K := (k + length A + length x)%nat). set (z := sims K sx). set (f := lk sx z).
  assert (Lz : length z = length sx) by apply sims_len. assert (Nz : NoDup z) by apply sims_nodup.
  assert (BA : forall e, In e lA' -> k <= ixid e < k + length A) by (intros e He; apply sims_ge in He; lia).
  assert (BX : forall e, In e lx' -> k + length A <= ixid e < K) by (intros e He; apply sims_ge in He; unfold K; lia).
  assert (BZ : forall e, In e z -> K <= ixid e) by (intros e He; apply sims_ge in He; lia).
  assert (KK : k <= k + length A /\ k + length A <= K) by (unfold K; lia).
  assert (Fo : forall e, ~ In e sx -> f e = e) by (intros e He; now apply lk_other).
  assert (Ft : map f t = t) by (apply map_other; intros e He K'; apply (Nsxt e K'); apply in_or_app; auto).
  assert (FlA : map f lA' = lA') by (apply map_other; intros e He K'; apply BA in He; specialize (Kid e ltac:(rewrite !in_app_iff; tauto)); lia).
  assert (Flx : map f lx' = lx') by (apply map_other; intros e He K'; apply BX in He; specialize (Kid e ltac:(rewrite !in_app_iff; tauto)); lia).
  assert (Fs : map f sx = z) by (apply lk_map; auto).
  assert (FD : forall e, ixdim (f e) = ixdim e) by (intros e; apply lk_dim; apply sims_dim).
  set (A2 := map (rename f) Ad). set (x2 := map (rename f) xd).
  assert (NA2 : NoDup (z ++ t ++ lA')).
  { apply NoDup_app_iff. split; auto. split; [apply NoDup_app_iff; split; [auto|split; [apply sims_nodup|]]|]; intros e He K'.
    - apply BA in K'. specialize (Kid e ltac:(rewrite !in_app_iff; tauto)). lia.
    - apply BZ in He. apply in_app_or in K'. destruct K' as [K'|K']; [specialize (Kid e ltac:(rewrite !in_app_iff; tauto))|apply BA in K']; lia. }
  assert (HA2 : is_mpo A2 z t lA').
  { pose proof (img_mpo (fun r => r) f Ad A2 sx t lA' HAd (rename_img f Ad)) as Q. rewrite Fs, Ft, FlA in Q. auto. }
  assert (HX2 : is_mps x2 z lx').
  { pose proof (img_mps (fun r => r) f xd x2 sx lx' HXd (rename_img f xd)) as Q. rewrite Fs, Flx in Q. apply Q. apply NoDup_app_iff. split; auto. split; [apply sims_nodup|]. intros e He K'. apply BZ in He. apply BX in K'. lia. }
  pose proof (mps_len _ _ _ HXd) as [M1 M2]. pose proof (mpo_len _ _ _ _ HAd) as (M3 & M4 & M5).
  assert (LA2 : length A2 = length Ad) by apply map_length. assert (LX2 : length x2 = length xd) by apply map_length.
  rewrite (contract_same (zip4 y B Ad xd) (zip4 y B A2 x2)).
  - rewrite (net4 y B A2 x2 sy t z ly lB lA' lx' HY HB (mpo_swap A2 z t lA' HA2) HX2); try lia.
    + f_equal.
      transitivity (over z (fun d => over t (fun c' => conj (element A sx t lA d c') * conj (amplitude x sx lx d) * applied B sy t lB y ly c'))).
      * apply (over_ext r0 radd). intros d Ld _. rewrite <- (over_mul_l r0 r1 radd rmul rsub ropp RT). apply (over_ext r0 radd). intros c' Lc' _.
        assert (EX : amplitude x2 z lx' d = conj (amplitude x sx lx d)).
        { unfold InnerSpec.amplitude at 1. rewrite <- Flx. rewrite (img_sum r0 r1 radd rmul (fun r => r) f xd x2 (map (fun a => [a]) sx) lx'); auto.
          - apply VX; [lia|]. intros e He. unfold f. apply values_lk; auto. lia.
          - apply hom_id. - apply rename_img. - rewrite concat_sing, map_app, Fs, Flx. now destruct HX2. }
        assert (EA : element A2 t z lA' c' d = conj (element A sx t lA d c')).
        { unfold InnerSpec.element at 1. rewrite <- FlA. destruct HAd as (_ & CAd & _). rewrite (img_sum r0 r1 radd rmul (fun r => r) f Ad A2 _ lA' _ (hom_id r0 r1 radd rmul) CAd); auto.
          - apply VA; [lia|lia| |].
            + intros e He. assert (Ie : In (f e) z) by (rewrite <- Fs; now apply in_map). rewrite values_r; auto; [unfold f; apply values_lk; auto; lia|].
              apply NoDup_app_iff. split; auto. split; auto. intros e' He' K'. apply BZ in K'. specialize (Kid e' ltac:(rewrite !in_app_iff; tauto)). lia.
            + intros e He. rewrite Fo by (intros K'; apply (Nsxt e K'); apply in_or_app; auto). apply values_app_l; auto.
          - apply rename_img.
          - rewrite map_app, FlA. pose proof NA2 as Q. rewrite app_assoc in Q. eapply Permutation_NoDup; [|exact Q]. apply Permutation_app_tail. rewrite <- Fs, <- Ft at 1. rewrite <- map_app. apply Permutation_map. symmetry. apply concat_pairs. lia. }
        rewrite EX, EA. ring.
      * rewrite (over_swap r0 r1 radd rmul rsub ropp RT). apply (over_ext r0 radd). intros c' Lc' _. rewrite (over_mul_r r0 r1 radd rmul rsub ropp RT).
        f_equal. unfold InnerSpec.applied. unfold InnerSpec.over at 1. unfold z. rewrite sims_dim. 
        transitivity (over sx (fun c => conj (element A sx t lA c c' * amplitude x sx lx c))).
        -- apply (over_ext r0 radd). intros. now rewrite conj_mul.
        -- apply over_conj.
    + pose proof HB as (_ & _ & NB). pose proof NB as NB0. rewrite app_assoc in NB0. apply NoDup_app_iff in NB0. destruct NB0 as (Nst & NlB & NstB).
      pose proof HY as [CY NY]. pose proof NY as NY0. apply NoDup_app_iff in NY0. destruct NY0 as (Ns & Nly & Nyy).
      assert (KB : forall e, In e (sy ++ t ++ lB ++ ly) -> ixid e < k) by (intros e He; apply Kid; rewrite !in_app_iff in *; tauto).
      assert (C1 : forall e, In e ly -> ~ In e sy /\ ~ In e t /\ ~ In e lB).
      { intros e He. repeat split; intros K'; [apply (Nyy e); auto| |]; apply (DJ e He); apply in_or_app; auto. }
      assert (C2 : forall e, In e lB -> ~ In e sy /\ ~ In e t). { intros e He. split; intros K'; apply (NstB e); auto; apply in_or_app; auto. }
      assert (C3 : forall e, In e lA' -> ~ In e (sy ++ t ++ lB ++ ly) /\ ~ In e z /\ ~ In e lx').
      { intros e He. apply BA in He. repeat split; intros K'; [apply KB in K'|apply BZ in K'|apply BX in K']; lia. }
      assert (C4 : forall e, In e lx' -> ~ In e (sy ++ t ++ lB ++ ly) /\ ~ In e z).
      { intros e He. apply BX in He. split; intros K'; [apply KB in K'|apply BZ in K']; lia. }
      assert (C5 : forall e, In e z -> ~ In e (sy ++ t ++ lB ++ ly)).
      { intros e He K'. apply BZ in He. apply KB in K'. lia. }
      repeat setoid_rewrite in_app_iff in C3. repeat setoid_rewrite in_app_iff in C4. repeat setoid_rewrite in_app_iff in C5.
      apply NoDup_app_iff. split; [|split].
      * apply NoDup_app_iff. split; auto. split; auto. intros e He K'. specialize (C5 e K'). rewrite in_app_iff in He. tauto.
      * repeat (apply NoDup_app_iff; split; [auto; try apply sims_nodup|split]); auto; try apply sims_nodup; intros e He K'; rewrite ?in_app_iff in *; specialize (C1 e); specialize (C2 e); specialize (C3 e); specialize (C4 e); tauto.
      * intros e He K'; rewrite ?in_app_iff in *; specialize (C1 e); specialize (C2 e); specialize (C3 e); specialize (C4 e); specialize (C5 e); tauto.
  - apply (rows f y B Ad xd A2 x2 one_t one_t sx); try lia; auto.
    + intros e [He|[He|[He|He]]].
      * destruct HY as [CY _]. now apply (chain_proper y [] _ ly CY). * destruct HB as (_ & CB & _). now apply (chain_proper B [] _ lB CB).
      * destruct HAd as (_ & CB & _). now apply (chain_proper Ad [] _ lA' CB). * now apply (chain_proper xd [] _ lx' CXd).
    + intros u v _. reflexivity.
    + apply rename_img. + apply rename_img. + apply same_refl.
    + intros n b c e Hb Hc He. pose proof (DS0 e He) as Q. rewrite in_app_iff in Q.
      rewrite (mps_at y sy ly n b e e HY Hb) by tauto. rewrite (mpo_at B sy t lB n c e e HB Hc); [tauto|tauto|]. intros K'. apply (Nsxt e He). apply in_or_app; auto.
    + intros n b c e Hb Hc He.
      assert (Kx : ixid e < k) by (apply Kid; rewrite !in_app_iff; tauto).
      rewrite (mps_at xd sx lx' n c e e HXd Hc) by (intros K'; apply BX in K'; lia). rewrite (mpo_at Ad sx t lA' n b e e HAd Hb); [tauto|intros K'; apply BA in K'; lia|]. intros K'. apply (Nsxt e He). apply in_or_app; auto.
    + assert (BB : forall e, In e (nis one_t ++ concat (map nis (zip4 y B Ad xd))) -> ~ In e z).
      { intros e He K'. cbn [nis one_t app] in He. eapply Permutation_in in He; [|rewrite zip4_nis by lia; rewrite (chain_perm y sy ly HY), (mpo_perm B sy t lB HB), (mpo_perm Ad sx t lA' HAd), (chain_perm xd sx lx' HXd); reflexivity].
        apply BZ in K'. specialize (BA e). specialize (BX e). specialize (Kid e). rewrite !in_app_iff in *. intuition lia. }
      intros p q Hp Hq E. apply (lk_inj sx z p q); auto.
  - destruct y; [cbn in *; lia|]. destruct B; [cbn in *; lia|]. destruct Ad; [cbn in *; lia|]. destruct xd; [cbn in *; lia|]. discriminate.
  - destruct y; [cbn in *; lia|]. destruct B; [cbn in *; lia|]. destruct A2; [cbn in *; lia|]. destruct x2; [cbn in *; lia|]. discriminate.
Qed.

(** ** trace(A,B) *)
Theorem traceC2_spec k A B a s b lA lB : is_mpo A a s lA -> is_mpo B s b lB -> length A = length B -> map ixdim b = map ixdim a ->
  disjoint a (b ++ lB) -> disjoint b lA -> used_below k (a ++ s ++ b ++ lA ++ lB) ->
  traceC2 r0 radd rmul k A B = Ok (over a (fun c => over s (fun d => element A a s lA c d * element B s b lB d c))).
Proof.
  intros HA HB LAB D D1 D2 U. pose proof (mpo_len _ _ _ _ HA) as (L5 & L6 & L7). pose proof (mpo_len _ _ _ _ HB) as (L9 & L10 & L11).
  pose proof HA as (_ & CA & NA). pose proof NA as NA0. apply NoDup_app_iff in NA0. destruct NA0 as (Na & Ns & Nas). apply NoDup_app_iff in Ns. destruct Ns as (Ns & NlA & NsA).
  pose proof HB as (_ & CB & NB). pose proof NB as NB0. apply NoDup_app_iff in NB0. destruct NB0 as (_ & Nb & Nsb). apply NoDup_app_iff in Nb. destruct Nb as (Nb & NlB & NbB).
  unfold traceC2. rewrite (proj2 (Nat.eqb_eq _ _)) by lia. cbn [negb].
  assert (SubA : forall n t, nth_error A n = Some t -> forall e, In e (nis t) -> In e (a ++ s ++ lA)).
  { intros n t Hn e He. destruct (in_dec ix_dec e lA) as [K|K]; [rewrite !in_app_iff; auto|]. apply (chain_at A _ lA n t e CA Hn K) in He. apply in_nth_concat in He. apply pairs_In in He; [|lia]. rewrite !in_app_iff in *. tauto. }
  assert (SubB : forall n t, nth_error B n = Some t -> forall e, In e (nis t) -> In e (s ++ b ++ lB)).
  { intros n t Hn e He. destruct (in_dec ix_dec e lB) as [K|K]; [rewrite !in_app_iff; auto|]. apply (chain_at B _ lB n t e CB Hn K) in He. apply in_nth_concat in He. apply pairs_In in He; [|lia]. rewrite !in_app_iff in *. tauto. }
  assert (HasB : forall n d, n < length B -> In (nth n s d) (ninds B (S n))).
  { intros n d Hn. pose proof (proj2 (mpo_site B s b lB HB n d Hn (nth n s d)) (or_introl eq_refl)) as K. unfold siteInds1, uniqueInds in K. apply filter_In in K. tauto. }
  assert (HasA : forall n d, n < length A -> In (nth n s d) (ninds A (S n))).
  { intros n d Hn. pose proof (proj2 (mpo_site A a s lA HA n d Hn (nth n s d)) (or_intror eq_refl)) as K. unfold siteInds1, uniqueInds in K. apply filter_In in K. tauto. }
  rewrite (uniqueSiteInds_spec A B s a lA (mpo_swap A a s lA HA)); [cbn [obind]|lia|].
  2:{ intros n d Hn. split; [apply HasB; lia|]. cbn [ninds]. destruct (nth_error B n) as [t|] eqn:E; [|intros []]. intros K. apply (SubB n t E) in K.
      assert (I : In (nth n a d) a) by (apply nth_In; lia). specialize (D1 _ I). specialize (Nas _ I). rewrite !in_app_iff in *. tauto. }
  rewrite (uniqueSiteInds_spec B A s b lB HB); [cbn [obind]|lia|].
  2:{ intros n d Hn. split; [apply HasA; lia|]. cbn [ninds]. destruct (nth_error A n) as [t|] eqn:E; [|intros []]. intros K. apply (SubA n t E) in K.
      assert (I : In (nth n b d) b) by (apply nth_In; lia). specialize (D2 _ I). pose proof (fun Q => D1 (nth n b d) Q) as D3. pose proof (fun Q => Nsb (nth n b d) Q) as D4. rewrite !in_app_iff in *. tauto. }
  assert (Lba : length a = length b) by (rewrite <- (map_length ixdim b), D; now rewrite map_length).
  destruct (replaceMPO_chain B _ lB b a CB (mpo_nodup _ _ _ _ HB)) as (Bp & E1 & F1); auto.
  { intros n d Hn. rewrite (nth_pairs _ _ _ d) by lia. right; left; auto. }
  { destruct a as [|z a'] eqn:Ea; [cbn in *; lia|]. exists z. split; [left; auto|]. specialize (D1 z ltac:(left; auto)). specialize (Nas z ltac:(left; auto)). rewrite in_app_iff, pairs_In by lia. rewrite !in_app_iff in *. tauto. }
  rewrite E1. cbn [obind].
  destruct (mpo_sim r0 r1 radd rmul k (fun r => r) (lk b a) B Bp s b lB s a HB F1) as (B2 & E2 & HB2 & _ & VB).
  { apply hom_id. } { apply map_other. intros e He K. apply (Nsb e He). apply in_or_app; auto. } { apply lk_map; auto. }
  { intros e He. apply lk_other. intros K. apply (NbB e K He). } { intros; apply lk_dim; auto. }
  { apply NoDup_app_iff. split; auto. split; [apply NoDup_app_iff; split; [auto|split; [auto|]]|]; intros e He K.
    - apply (D1 e He). apply in_or_app; auto.
    - apply in_app_or in K. destruct K as [K|K]; [apply (Nas e K); apply in_or_app; auto|apply (Nsb e He); apply in_or_app; auto]. }
  { intros e He. apply U. rewrite !in_app_iff in *. tauto. }
  rewrite E2. cbn [obind]. set (lB' := sims k lB) in *.
  pose proof (mpo_len _ _ _ _ HB2) as (M1 & M2 & M3).
  assert (FR : forall e, In e lB' -> ~ In e a /\ ~ In e s /\ ~ In e lA).
  { intros e He. apply sims_ge in He. repeat split; intros K; specialize (U e ltac:(rewrite !in_app_iff; tauto)); lia. }
  assert (Nas' : NoDup (a ++ s)). { apply NoDup_app_iff. split; auto. split; auto. intros e He K. apply (Nas e He). apply in_or_app; auto. }
  assert (NlA' : forall e, In e lA -> ~ In e a /\ ~ In e s). { intros e He. split; intros K; [apply (Nas e K); apply in_or_app; auto|apply (NsA e K He)]. }
  set (DD := (a ++ s) ++ lA ++ lB').
  assert (ND : NoDup DD).
  { unfold DD. apply NoDup_app_iff. split; [exact Nas'|]. split; [apply NoDup_app_iff; split; [auto|split; [apply sims_nodup|]]|]; intros e He K; rewrite ?in_app_iff in *; specialize (FR e); specialize (NlA' e); tauto. }
  rewrite (contract_net r0 r1 radd rmul rsub ropp RT _ DD); auto.
  - f_equal. unfold DD. rewrite (sum_app r0 radd).
    transitivity (sum_over (a ++ s) (fun u => sum_over lA (prod A) u * sum_over lB' (prod B2) u) (fun _ => 0)).
    + apply (sum_ext_in r0 radd). intros u _ _. rewrite <- (sum_factor r0 r1 radd rmul rsub ropp RT lA lB' ((a ++ s) ++ lA) ((s ++ a) ++ lB')).
      * apply (sum_ext_in r0 radd). intros z _ _. apply (zip2_prod r0 r1 radd rmul rsub ropp RT); lia.
      * eapply dep_mprod; eassumption. * eapply dep_mprod; eassumption.
      * intros e He K. rewrite !in_app_iff in K. specialize (FR e). specialize (NlA' e). tauto.
      * intros e He K. rewrite !in_app_iff in K. specialize (FR e). tauto.
    + rewrite <- (over_sum r0 radd); auto.
      * rewrite (over_app r0 radd). apply (over_ext r0 radd). intros c Lc _. apply (over_ext r0 radd). intros d Ld _.
        rewrite (element_at r0 r1 radd rmul A a s lA c d) by (first [assumption | now apply values_l | now apply values_r]).
        rewrite (VB _ d c) by (first [lia | now apply values_l | now apply values_r]). reflexivity.
      * apply dep_mul; [eapply dep_elt; eassumption|]. eapply dep_incl'; [eapply dep_elt; eassumption|]. intros e He. rewrite !in_app_iff in *. tauto.
  - destruct A; [cbn in *; lia|]. destruct B2; [cbn in *; lia|]. discriminate.
  - intros z Ht. apply zip2_In in Ht. destruct Ht as [Ht|Ht].
    + apply (chain_tensors A _ lA CA (mpo_nodup _ _ _ _ HA) z Ht).
    + pose proof (mpo_nodup _ _ _ _ HB2) as N4. destruct HB2 as (_ & C2 & _). apply (chain_tensors B2 _ lB' C2 N4 z Ht).
  - rewrite zip2_nis by lia. rewrite (mpo_perm A a s lA HA), (mpo_perm B2 s a lB' HB2). unfold DD.
    apply (Permutation_count_occ ix_dec). intros e. rewrite !count_occ_app. lia.
Qed.

(** ** trace(A) *)
Lemma sb_zero n (g : nat -> R) : (forall i, i < n -> g i = r0) -> sum_below r0 radd n g = r0.
Proof. induction n as [|n IH]; intros H; cbn [sum_below]; auto. rewrite IH, H by (auto; intros; apply H; lia). ring. Qed.
Lemma sb_single n v (g : nat -> R) : v < n -> (forall i, i < n -> i <> v -> g i = r0) -> sum_below r0 radd n g = g v.
Proof.
  revert v; induction n as [|n IH]; intros v Hv H; [lia|]. cbn [sum_below]. destruct (Nat.eq_dec v n) as [->|Ne].
  - rewrite sb_zero by (intros i Hi; apply H; lia). ring.
  - rewrite (IH v) by (try lia; intros; apply H; lia). rewrite (H n) by lia. ring.
Qed.
Lemma delta_pair l i o s : Permutation l [i; o] -> delta_el r0 r1 l s = if s o =? s i then r1 else r0.
Proof.
  intros P. assert (C : l = [i; o] \/ l = [o; i]).
  { pose proof (Permutation_length P) as L. destruct l as [|p [|q [|]]]; try discriminate.
    apply Permutation_sym in P. apply Permutation_length_2_inv in P. destruct P as [E|E]; injection E as -> ->; auto. }
  destruct C as [-> | ->]; cbn [delta_el forallb]; rewrite ?andb_true_r; auto. now rewrite Nat.eqb_sym.
Qed.
(** One tensor with its two site indices traced. *)
Lemma traced (t : nt) l i o links u : proper t -> NoDup (nis t) -> Permutation (nis t) (links ++ [i; o]) -> i <> o -> ixdim i = ixdim o -> Permutation l [i; o] ->
  Permutation (nis (tmul t (deltaT r0 r1 l))) links /\
  nel (tmul t (deltaT r0 r1 l)) u = sum_over [i] (fun v => nel t (fun e => v (if ix_eqb e o then i else e))) u.
Proof.
  intros P N Q NE D PL.
  assert (NL : NoDup (links ++ [i; o])) by (eapply Permutation_NoDup; eauto).
  assert (NL' := NL). apply NoDup_app_iff in NL'. destruct NL' as (Nk & _ & Nko).
  assert (IL : forall e, In e l <-> e = i \/ e = o) by (intros e; split; intros K; [eapply Permutation_in in K; [|exact PL]; cbn in K; intuition|eapply Permutation_in; [symmetry; exact PL|]; cbn; intuition]).
  assert (IT : forall e, In e (nis t) <-> In e links \/ e = i \/ e = o).
  { intros e. split; intros K; [eapply Permutation_in in K; [|exact Q]; rewrite in_app_iff in K; cbn in K; intuition|eapply Permutation_in; [symmetry; exact Q|]; rewrite in_app_iff; cbn; intuition]. }
  assert (Nl : NoDup l) by (eapply Permutation_NoDup; [symmetry; exact PL|]; apply NoDup_app_iff in NL; tauto).
  split.
  - cbn [nis deltaT InnerModel.tmul]. replace (only ix_eqb l (nis t)) with (@nil ix); [rewrite app_nil_r|].
    + apply NoDup_Permutation; [now apply NoDup_filter|auto|]. intros e. rewrite only_In, IT, IL. specialize (Nko e). cbn in Nko. intuition.
    + symmetry. destruct (only ix_eqb l (nis t)) as [|e m] eqn:E; auto. exfalso. assert (K : In e (only ix_eqb l (nis t))) by (rewrite E; left; auto). apply only_In in K. rewrite IL, IT in K. tauto.
  - cbn [nis nel deltaT InnerModel.tmul].
    rewrite (sum_perm r0 r1 radd rmul rsub ropp RT _ [i; o] (nis t ++ l)).
    + cbn [TensorSpec.sum_over]. apply (sb_ext r0 radd). intros v Hv. rewrite (sb_single _ v).
      * rewrite (delta_pair l i o) by auto. rewrite ov_same, (ov_other _ o v i) by congruence. rewrite ov_same, Nat.eqb_refl.
        transitivity (nel t (override ix_eqb (override ix_eqb u i v) o v)); [ring|]. apply P. intros e He.
        destruct (ix_eqb e o) eqn:E; [apply ix_eqb_spec in E; subst e; now rewrite !ov_same|]. rewrite ov_other; auto. intros ->. rewrite (proj2 (ix_eqb_spec e e) eq_refl) in E. discriminate.
      * congruence.
      * intros w Hw Nw. rewrite (delta_pair l i o) by auto. rewrite ov_same, (ov_other _ o w i) by congruence. rewrite ov_same.
        replace (w =? v) with false by (symmetry; now apply Nat.eqb_neq). ring.
    + intros s1 s2 E. f_equal; [apply P; intros; apply E; apply in_or_app; auto|]. rewrite !(delta_pair l i o) by auto. now rewrite !E by (apply in_or_app; right; apply IL; auto).
    + apply NoDup_Permutation; [now apply NoDup_filter|apply NoDup_app_iff in NL; tauto|]. intros e. rewrite common_In, IT, IL. cbn. intuition.
    + now apply NoDup_filter.
Qed.
Definition tr_of (a : nt * (ix * ix)) (p : nt) : Prop := exists l, Permutation l [fst (snd a); snd (snd a)] /\ p = tmul (fst a) (deltaT r0 r1 l).
Definition pairs (a b : list ix) : list (list ix) := map (fun p => [fst p; snd p]) (combine a b).
Lemma lk_in xs ys e : length ys = length xs -> In e xs -> In (lk xs ys e) ys.
Proof.
  revert ys; induction xs as [|x xs IH]; intros [|y ys] L H; try discriminate; [contradiction|]. cbn. destruct (ix_eqb e x) eqn:E; [left; auto|]. right. apply IH; [cbn in L; lia|].
  destruct H as [->|H]; auto. rewrite (proj2 (ix_eqb_spec e e) eq_refl) in E. discriminate.
Qed.
Lemma trace_chain (A : mps) : forall left ins outs L P, chain_on left A (pairs ins outs) L -> length ins = length outs -> NoDup (left ++ (ins ++ outs) ++ L) -> map ixdim ins = map ixdim outs ->
  Forall2 tr_of (combine A (combine ins outs)) P ->
  chain_on left P (map (fun _ => []) ins) L /\ forall u, prod P u = sum_over ins (fun v => prod A (fun e => v (lk outs ins e))) u.
Proof.
  induction A as [|t A IH]; intros left ins outs L P C LE N D F; [cbn in C; destruct (pairs ins outs); contradiction|].
  destruct ins as [|i ins]; [cbn in C; destruct A; contradiction|]. destruct outs as [|o outs]; [discriminate|].
  cbn [combine] in F. inversion F as [|? p ? P' T F']; subst. destruct T as (l & PL & Ep). cbn [fst snd] in PL, Ep.
  assert (Di : ixdim i = ixdim o) by (cbn in D; congruence). assert (D' : map ixdim ins = map ixdim outs) by (cbn in D; congruence).
  assert (NN : NoDup (i :: o :: left ++ (ins ++ outs) ++ L)).
  { eapply Permutation_NoDup; [|exact N]. apply (Permutation_count_occ ix_dec). intros e. change (i :: o :: ?m) with ([i] ++ [o] ++ m). change (i :: ins) with ([i] ++ ins). change (o :: outs) with ([o] ++ outs). rewrite !count_occ_app. lia. }
  apply NoDup_cons_iff in NN. destruct NN as [Ni NN1]. apply NoDup_cons_iff in NN1. destruct NN1 as [No NN2]. assert (NE : i <> o) by (intros ->; apply Ni; left; auto).
  cbn [pairs combine map fst snd] in C. fold (pairs ins outs) in C.
  set (rest := match A with [] => [] | _ => match L with [] => [] | m :: _ => [m] end end).
  assert (Q : proper t /\ Permutation (nis t) ((left ++ rest) ++ [i; o]) /\
    match A with [] => ins = [] /\ outs = [] /\ L = [] | _ => exists m L', L = m :: L' /\ chain_on [m] A (pairs ins outs) L' end).
  { destruct A as [|t1 A].
    - unfold rest. destruct ins as [|i2 ins]; [|destruct outs; [discriminate|]; cbn in C; destruct L; [contradiction|tauto]]. destruct outs; [|discriminate]. cbn in C. destruct C as (-> & C1 & C2). rewrite app_nil_r. auto.
    - change (match L with m :: links' => proper t /\ Permutation (nis t) (left ++ [i; o] ++ [m]) /\ chain_on [m] (t1 :: A) (pairs ins outs) links' | [] => False end) in C.
      destruct L as [|m L]; [contradiction|]. destruct C as (C1 & C2 & C3). unfold rest. repeat split; auto; [|eauto].
      rewrite C2. apply (Permutation_count_occ ix_dec). intros e. rewrite !count_occ_app. lia. }
  destruct Q as (Pt & Qt & CR).
  assert (RL : incl rest L) by (unfold rest; destruct A; [intros e []|]; destruct L; intros e He; [destruct He|destruct He as [<-|[]]; left; auto]).
  assert (Nt : NoDup (nis t)).
  { eapply Permutation_NoDup; [symmetry; exact Qt|]. apply NoDup_app_iff. split; [|split].
    - unfold rest. destruct A; [rewrite app_nil_r; now apply NoDup_app_iff in NN2|]. destruct L as [|m L]; [rewrite app_nil_r; now apply NoDup_app_iff in NN2|].
      apply NoDup_app_iff in NN2. destruct NN2 as (N1 & N2 & N3). apply NoDup_app_iff. split; auto. split; [repeat constructor; cbn; tauto|]. intros e He [<-|[]]. apply (N3 m He). apply in_or_app. right; left; auto.
    - repeat constructor; cbn; intuition.
    - intros e He [<-|[<-|[]]]; [apply Ni; right|apply No]; apply in_app_or in He; rewrite !in_app_iff; destruct He as [He|He]; auto. }
  assert (TR : forall u, Permutation (nis p) (left ++ rest) /\ nel p u = sum_over [i] (fun v => nel t (fun e => v (if ix_eqb e o then i else e))) u).
  { intros u. rewrite Ep. now apply traced. }
  assert (Pp : proper p).
  { rewrite Ep. apply tmul_proper; auto. intros s1 s2 E. cbn [nel deltaT nis] in *. rewrite !(delta_pair l i o) by auto.
    rewrite !E; auto; (eapply Permutation_in; [symmetry; exact PL|]; cbn; auto). }
  assert (OT : forall e, In e (nis t) -> ~ In e outs).
  { intros e He K. eapply Permutation_in in He; [|exact Qt]. rewrite !in_app_iff in He. cbn in He. destruct He as [[He|He]|[<-|[<-|[]]]].
    - apply NoDup_app_iff in NN2. destruct NN2 as (_ & _ & N3). apply (N3 e He). rewrite !in_app_iff; auto.
    - apply RL in He. apply NoDup_app_iff in NN2. destruct NN2 as (_ & NN2 & _). apply NoDup_app_iff in NN2. destruct NN2 as (_ & _ & N3). apply (N3 e); auto. apply in_or_app; auto.
    - apply Ni. right. rewrite !in_app_iff; auto. - apply No. rewrite !in_app_iff; auto. }
  destruct A as [|t1 A].
  - destruct CR as (-> & -> & ->). inversion F'; subst P'. unfold rest in *. split.
    + cbn. split; auto. split; auto. rewrite app_nil_r. rewrite <- (app_nil_r left) at 1. apply (TR (fun _ => 0)).
    + intros u. rewrite prod_cons, prod_nil. destruct (TR u) as [_ ->]. transitivity (sum_over [i] (fun v => nel t (fun e => v (if ix_eqb e o then i else e))) u); [ring|].
      apply (sum_ext_in r0 radd). intros v _ _. rewrite prod_cons, prod_nil. cbn [lk]. ring.
  - destruct CR as (m & L' & -> & CR). unfold rest in *. cbn [combine] in F'.
    assert (LE' : length ins = length outs) by (cbn in LE; lia).
    assert (N' : NoDup ([m] ++ (ins ++ outs) ++ L')).
    { apply NoDup_app_iff in NN2. destruct NN2 as (_ & NN2 & _). eapply Permutation_NoDup; [|exact NN2]. apply (Permutation_count_occ ix_dec). intros e. change (m :: L') with ([m] ++ L'). rewrite !count_occ_app. lia. }
    destruct (IH [m] ins outs L' P' CR LE' N' D' F') as [C1 V1]. split.
    + destruct P' as [|p1 P']; [destruct ins; cbn in C1; contradiction|]. destruct ins as [|i1 ins]; [cbn in C1; destruct P'; contradiction|].
      change (proper p /\ Permutation (nis p) (left ++ [] ++ [m]) /\ chain_on [m] (p1 :: P') (map (fun _ => []) (i1 :: ins)) L'). split; auto. split; auto. apply (TR (fun _ => 0)).
    + intros u. rewrite prod_cons, V1. destruct (TR u) as [_ ->].
      assert (PA : forall t', In t' (t1 :: A) -> proper t') by (exact (chain_proper (t1 :: A) [m] _ L' CR)).
      assert (DA : dep ([m] ++ (ins ++ outs) ++ L') (prod (t1 :: A))).
      { apply (prod_dep r1 rmul); auto. intros t' e Ht He. assert (K : In e (concat (map nis (t1 :: A)))) by (apply in_concat; exists (nis t'); split; auto; now apply in_map).
        eapply Permutation_in in K; [|apply (chain_concat (t1 :: A) [m] _ L' CR)]. rewrite !in_app_iff in K. unfold pairs in K. rewrite pairs_In in K by auto. rewrite !in_app_iff in *. tauto. }
      change (i :: ins) with ([i] ++ ins). rewrite <- (sum_factor r0 r1 radd rmul rsub ropp RT [i] ins (left ++ [i; o] ++ [m]) ([m] ++ (ins ++ outs) ++ L')).
      * apply (sum_ext_in r0 radd). intros v _ _. rewrite (prod_cons r1 rmul t). f_equal.
        -- apply Pt. intros e He. cbn [app lk]. destruct (ix_eqb e o); auto. f_equal. symmetry. apply lk_other. now apply OT.
        -- apply DA. intros e He. cbn [app lk]. destruct (ix_eqb e o) eqn:E; auto. exfalso. apply ix_eqb_spec in E. subst e. apply No. rewrite !in_app_iff in *. cbn in *. tauto.
      * intros s1 s2 E. apply Pt. intros e He. apply E. eapply Permutation_in in He; [|exact Qt]. destruct (ix_eqb e o); rewrite !in_app_iff in *; cbn in *; tauto.
      * intros s1 s2 E. apply DA. intros e He. apply E. destruct (in_dec ix_dec e outs) as [K|K]; [|now rewrite lk_other]. rewrite !in_app_iff. right; left; left. now apply lk_in.
      * intros e [<-|[]] K. apply Ni. right. rewrite !in_app_iff in *. cbn in *. tauto.
      * intros e He K. rewrite !in_app_iff in K. cbn in K. destruct K as [K|[[<-|[<-|[]]]|[<-|[]]]].
        -- apply NoDup_app_iff in NN2. destruct NN2 as (_ & _ & N3). apply (N3 e K). rewrite !in_app_iff; auto.
        -- apply Ni. right. rewrite !in_app_iff; auto.
        -- apply No. rewrite !in_app_iff; auto.
        -- apply NoDup_app_iff in N'. destruct N' as (_ & _ & N3). apply (N3 m); [left; auto|]. rewrite !in_app_iff; auto.
Qed.
Lemma sum_fixed (g : ix -> ix) xs : forall E h s, dep E h -> (forall x, In x xs -> g x = x) -> (forall x y, In x xs -> In y E -> g y = x -> y = x) ->
  sum_over xs (fun v => h (fun e => v (g e))) s = sum_over xs h (fun e => s (g e)).
Proof.
  induction xs as [|x xs IH]; intros E h s H G1 G2; cbn [TensorSpec.sum_over]; auto. apply (sb_ext r0 radd). intros v _.
  rewrite (IH E); [|exact H|intros; apply G1; right; auto|intros a b Ha; apply G2; right; auto].
  apply (dep_sum r0 radd xs E E h H); [auto|]. intros e He. unfold override. destruct (ix_eqb x e) eqn:E1.
  - apply ix_eqb_spec in E1. subst e. rewrite G1 by (left; auto). now rewrite (proj2 (ix_eqb_spec x x) eq_refl).
  - destruct (ix_eqb x (g e)) eqn:E2; auto. apply ix_eqb_spec in E2. symmetry in E2. apply G2 in E2; [|left; auto|auto]. subst e. rewrite (proj2 (ix_eqb_spec x x) eq_refl) in E1. discriminate.
Qed.
Theorem traceC_spec A ins outs lA : is_mpo A ins outs lA -> map ixdim ins = map ixdim outs ->
  traceC r0 r1 radd rmul A = Ok (over ins (fun c => element A ins outs lA c c)).
Proof.
  intros HA D. pose proof (mpo_len _ _ _ _ HA) as (L1 & L2 & L3). pose proof HA as (LL & C & N). pose proof N as N0. rewrite app_assoc in N0.
  pose proof N0 as N1. apply NoDup_app_iff in N1. destruct N1 as (Nio & NlA & Nd). pose proof Nio as N2. apply NoDup_app_iff in N2. destruct N2 as (Ni & No & Nde).
  unfold traceC. set (P := map _ _).
  assert (F : Forall2 tr_of (combine A (combine ins outs)) P).
  { assert (G : forall n, n < length A -> Permutation (siteInds1 A (S n)) (nth n (pairs ins outs) [])) by (intros n Hn; now apply (siteInds1_chain A _ lA C (mpo_nodup _ _ _ _ HA))).
    unfold P, sites_of. clear -G L1 L2 L3.
    assert (K : forall (B : mps) m i o, length B = length i -> length i = length o -> (forall n, n < length B -> Permutation (siteInds1 A (m + n)) (nth n (pairs i o) [])) ->
      Forall2 tr_of (combine B (combine i o)) (map (fun p => tmul (fst p) (deltaT r0 r1 (siteInds1 A (snd p)))) (combine B (seq m (length B))))).
    { induction B as [|t B IH]; intros m [|a i] [|b o] H1 H2 H; try discriminate; cbn [combine map seq length]; constructor.
      - exists (siteInds1 A m). split; auto. cbn [fst snd]. specialize (H 0 ltac:(cbn; lia)). now rewrite Nat.add_0_r in H.
      - apply IH; [cbn in *; lia|cbn in *; lia|]. intros n Hn. specialize (H (S n) ltac:(cbn; lia)). now rewrite Nat.add_succ_r in H. }
    apply K; [lia|lia|]. intros n Hn. apply (G n Hn). }
  destruct (trace_chain A [] ins outs lA P C LL N0 D F) as [CP VP].
  assert (CN : concat (map (fun _ : ix => @nil ix) ins) = []) by (clear; induction ins; cbn; auto).
  rewrite (contract_net r0 r1 radd rmul rsub ropp RT P lA); auto.
  - f_equal. transitivity (sum_over lA (sum_over ins (fun v => prod A (fun e => v (lk outs ins e)))) (fun _ => 0)); [apply (sum_ext_in r0 radd); intros; apply VP|].
    rewrite <- (sum_app r0 radd).
    assert (DA : dep (ins ++ outs ++ lA) (prod A)). { eapply dep_incl'; [eapply dep_mprod; eassumption|]. intros e. rewrite !in_app_iff. tauto. }
    assert (DG : dep (ins ++ lA) (fun v => prod A (fun e => v (lk outs ins e)))).
    { intros s1 s2 E. apply DA. intros e He. apply E. destruct (in_dec ix_dec e outs) as [K|K]; [apply in_or_app; left; apply lk_in; auto|]. rewrite lk_other by auto. rewrite !in_app_iff in *. tauto. }
    assert (NlI : NoDup (lA ++ ins)).
    { apply NoDup_app_iff. split; auto. split; auto. intros e He K. apply (Nd e); auto. apply in_or_app; auto. }
    rewrite (sum_perm r0 r1 radd rmul rsub ropp RT _ (ins ++ lA) (ins ++ lA) _ _ DG) by (auto; apply Permutation_app_comm).
    rewrite (sum_app r0 radd). rewrite <- (over_sum r0 radd ins); auto.
    + apply (over_ext r0 radd). intros c Lc _. unfold InnerSpec.element.
      rewrite (sum_fixed (lk outs ins) lA (ins ++ outs ++ lA) (prod A)); auto.
      * apply (dep_sum r0 radd lA ((ins ++ outs) ++ lA) (ins ++ outs)); [now rewrite <- app_assoc| |].
        -- intros e He. apply in_app_or in He. tauto.
        -- intros e He. apply in_app_or in He. destruct (in_dec ix_dec e outs) as [K|K].
           ++ rewrite values_r by auto. apply values_lk; auto; lia.
           ++ rewrite lk_other by auto. destruct He as [He|He]; [|contradiction]. now rewrite values_l.
      * intros e He. apply lk_other. intros K. apply (Nd e); auto. apply in_or_app; auto.
      * intros e e' He He' E. destruct (in_dec ix_dec e' outs) as [K|K]; [|now rewrite lk_other in E]. exfalso. apply (Nd e); auto. apply in_or_app. left. rewrite <- E. apply lk_in; auto.
    + apply (dep_sum r0 radd lA (ins ++ lA) ins _ DG). intros e He. apply in_app_or in He. tauto.
  - destruct A as [|t A]; [cbn in *; lia|]. unfold P. cbn. discriminate.
  - intros t Ht. apply (chain_tensors P _ lA CP); auto. now rewrite CN.
  - pose proof (chain_concat P [] _ lA CP) as Q. cbn [app] in Q. now rewrite CN in Q.
Qed.
End InnerPairs.
