(** Inner products with operators, and traces. *)
From Coq Require Import List Arith Bool Lia Permutation Ring.
From Verif Require Import Util RangeModel RangeSpec RangeProofs TensorModel TensorSpec TensorProofs SemProofs BigSum InnerModel InnerSpec NetProofs ChainProofs InnerProofs.
Import ListNotations.
Local Open Scope outcome_scope.
Local Arguments Nat.sub : simpl never.

Section InnerOps.
Context {R : Type} (r0 r1 : R) (radd rmul rsub : R -> R -> R) (ropp : R -> R) (conj : R -> R).
Context (RT : ring_theory r0 r1 radd rmul rsub ropp eq).
Hypothesis conj0 : conj r0 = r0.
Hypothesis conj1 : conj r1 = r1.
Hypothesis conj_add : forall x y, conj (radd x y) = radd (conj x) (conj y).
Hypothesis conj_mul : forall x y, conj (rmul x y) = rmul (conj x) (conj y).
Add Ring RRio : RT.
Notation nt := (nt R).
Notation mps := (mps R).
Notation sum_over := (sum_over r0 radd ix_eqb ixdim).
Notation tmul := (tmul r0 radd rmul).
Notation tmuls := (tmuls r0 radd rmul).
Notation prod := (prod r1 rmul).
Notation contract_all := (contract_all r0 radd rmul).
Notation amplitude := (amplitude r0 r1 radd rmul).
Notation element := (element r0 r1 radd rmul).
Notation applied := (applied r0 r1 radd rmul).
Notation over := (over r0 radd).
Notation "x + y" := (radd x y). Notation "x * y" := (rmul x y).
Notation hom := (hom r0 r1 radd rmul).
Notation bra := (bra r0 r1 radd rmul conj conj0 conj1 conj_add conj_mul).

Lemma mpo_swap (A : mps) i o l : is_mpo A i o l -> is_mpo A o i l.
Proof.
  intros (L & H & N). split; [auto|]. split.
  - assert (G : forall (x : mps) left SS SS' M, Forall2 (@Permutation ix) SS SS' -> chain_on left x SS M -> chain_on left x SS' M).
    { clear. induction x as [|t x IH]; intros left SS SS' M F C; [cbn in C; destruct SS; contradiction|]. destruct F as [|s s' SS SS' P F]; [cbn in C; destruct x; contradiction|].
      destruct x as [|t' x].
      - destruct F as [|s1 s1' SS SS' P1 F]; [|cbn in C; destruct M; [contradiction|tauto]]. cbn in *. destruct C as (-> & C1 & C2). repeat split; auto. rewrite C2. now apply Permutation_app_head.
      - change (match M with l :: links' => proper t /\ Permutation (nis t) (left ++ s ++ [l]) /\ chain_on [l] (t' :: x) SS links' | [] => False end) in C.
        change (match M with l :: links' => proper t /\ Permutation (nis t) (left ++ s' ++ [l]) /\ chain_on [l] (t' :: x) SS' links' | [] => False end).
        destruct M as [|m M]; [contradiction|]. destruct C as (C1 & C2 & C3). split; auto. split; [|now apply (IH [m] SS)]. rewrite C2. apply Permutation_app_head. now apply Permutation_app_tail. }
    eapply G; [|exact H]. clear -L. revert o L. induction i as [|a i IH]; intros [|b o] L; cbn in *; try discriminate; constructor; auto. apply perm_swap.
  - rewrite app_assoc in *. eapply Permutation_NoDup; [|exact N]. apply Permutation_app_tail. apply Permutation_app_comm.
Qed.
Lemma mpo_site (A : mps) i o l : is_mpo A i o l -> forall n d, n < length A -> forall y, In y (siteInds1 A (S n)) <-> y = nth n i d \/ y = nth n o d.
Proof.
  intros HA n d Hn y. pose proof (mpo_len _ _ _ _ HA) as (L1 & L2 & L3). destruct HA as (LL & H & N).
  pose proof (siteInds1_chain A _ l H (mpo_nodup _ _ _ _ (Logic.conj LL (Logic.conj H N))) n Hn) as P. rewrite (nth_pairs _ _ _ d) in P by lia.
  split; intros K. - eapply Permutation_in in K; [|exact P]. cbn in K. intuition congruence.
  - eapply Permutation_in; [symmetry; exact P|]. cbn. intuition congruence.
Qed.
Lemma site_nodup (A : mps) i o l : is_mpo A i o l -> forall n, NoDup (siteInds1 A n).
Proof.
  intros HA n. pose proof (mpo_nodup _ _ _ _ HA) as N. destruct HA as (LL & H & _). apply NoDup_filter. eapply ninds_nodup; eauto.
Qed.
Lemma unique_split (A y : mps) n : uniqueInds (ninds A n) [ninds A (n-1); ninds A (n+1); ninds y n] = filter (fun e => negb (has (ninds y n) e)) (siteInds1 A n).
Proof.
  unfold siteInds1, uniqueInds. induction (ninds A n) as [|a l IH] ; cbn [filter]; auto.
  assert (E : has (concat [ninds A (n-1); ninds A (n+1); ninds y n]) a = has (concat [ninds A (n-1); ninds A (n+1)]) a || has (ninds y n) a).
  { unfold has. cbn [concat]. rewrite !app_nil_r, app_assoc, !existsb_app. reflexivity. }
  rewrite E. destruct (has (concat [ninds A (n-1); ninds A (n+1)]) a); cbn [orb negb filter].
  - apply IH. - destruct (has (ninds y n) a); cbn [negb]; [apply IH|f_equal; apply IH].
Qed.
Lemma uniqueSiteInds_spec (A y : mps) i o l : is_mpo A i o l -> length y = length A ->
  (forall n d, n < length A -> In (nth n i d) (ninds y (S n)) /\ ~ In (nth n o d) (ninds y (S n))) -> uniqueSiteInds A y = Ok o.
Proof.
  intros HA LY I. pose proof (mpo_len _ _ _ _ HA) as (L1 & L2 & L3). unfold uniqueSiteInds, sites_of. rewrite LY, <- L2.
  apply (mapM_seq _ (mkIx 0 0 0)). intros n Hn. change (1 + n)%nat with (S n). rewrite unique_split.
  rewrite (perm_one _ (nth n o (mkIx 0 0 0))); [reflexivity|apply NoDup_filter; now apply (site_nodup A i o l)|].
  intros e. rewrite filter_In, negb_true_iff, <- not_true_iff_false, has_In, (mpo_site A i o l HA n (mkIx 0 0 0)) by lia.
  destruct (I n (mkIx 0 0 0) ltac:(lia)) as [I1 I2]. split.
  - intros [[-> | ->] K]; [contradiction|auto]. - intros ->. split; auto.
Qed.
Lemma mps_has_site (y : mps) s l : is_mps y s l -> forall n d, n < length y -> In (nth n s d) (ninds y (S n)).
Proof.
  intros HY n d Hn. pose proof (mps_len _ _ _ HY) as [L _]. destruct HY as [H N]. apply (ninds_In y _ l H). split; auto. right; left.
  rewrite (nth_sing _ _ d) by lia. left; auto.
Qed.
Lemma mps_ninds_sub (y : mps) s l : is_mps y s l -> forall n e, In e (ninds y n) -> In e (s ++ l).
Proof.
  intros HY n e He. destruct n as [|n]; [contradiction|]. destruct HY as [H N]. apply (ninds_In y _ l H) in He. destruct He as [_ [K|[K|K]]]; apply in_or_app.
  - right. destruct n; [contradiction|]. now apply (optl_sub l n). - left. apply in_nth_concat in K. now rewrite concat_sing in K. - right. now apply (optl_sub l n).
Qed.
Lemma unique_mps (A y : mps) i o lA ly : is_mpo A i o lA -> is_mps y i ly -> length y = length A -> disjoint ly o -> uniqueSiteInds A y = Ok o.
Proof.
  intros HA HY LY D. apply (uniqueSiteInds_spec A y i o lA); auto. intros n d Hn. split; [apply (mps_has_site y i ly); auto; lia|].
  intros K. apply (mps_ninds_sub y i ly HY) in K. pose proof (mpo_len _ _ _ _ HA) as (L1 & L2 & L3).
  assert (Io : In (nth n o d) o) by (apply nth_In; lia). apply in_app_or in K. destruct K as [K|K]; [|apply (D _ K Io)].
  destruct HA as (_ & _ & N). apply NoDup_app_iff in N. destruct N as (_ & _ & N). apply (N _ K). apply in_or_app; auto.
Qed.
Lemma unique_is (A : mps) i o lA : is_mpo A i o lA -> uniqueSiteInds_is A i = Ok o.
Proof.
  intros HA. pose proof (mpo_len _ _ _ _ HA) as (L1 & L2 & L3). unfold uniqueSiteInds_is. rewrite (proj2 (Nat.eqb_eq _ _)) by lia. cbn [negb].
  apply (mapM_list _ (0, mkIx 0 0 0) (mkIx 0 0 0)). { unfold sites_of. rewrite combine_length, seq_length. lia. }
  intros n Hn. rewrite combine_nth by (unfold sites_of; rewrite seq_length; lia). cbn [fst snd]. unfold sites_of. rewrite seq_nth by lia. change (1 + n)%nat with (S n).
  rewrite (perm_one _ (nth n o (mkIx 0 0 0))); [reflexivity|apply NoDup_filter; now apply (site_nodup A i o lA)|].
  intros e. unfold uniqueInds. rewrite filter_In, negb_true_iff, <- not_true_iff_false, has_In, (mpo_site A i o lA HA n (mkIx 0 0 0)) by lia. cbn [concat app].
  assert (NE : nth n i (mkIx 0 0 0) <> nth n o (mkIx 0 0 0)).
  { destruct HA as (_ & _ & N). apply NoDup_app_iff in N. destruct N as (_ & _ & N). intros E. apply (N (nth n i (mkIx 0 0 0))); [apply nth_In; lia|]. rewrite E. apply in_or_app. left. apply nth_In. lia. }
  split. - intros [[-> | ->] K]; [exfalso; apply K; left; auto|auto]. - intros ->. split; auto. intros [K|[]]. auto.
Qed.
Lemma dep_amp (x : mps) s l : is_mps x s l -> dep s (sum_over l (prod x)).
Proof.
  intros [H _]. pose proof (chain_dep r1 rmul x _ l H) as D. rewrite concat_sing in D. apply (dep_sum r0 radd l (s ++ l)); auto. intros z Hz. apply in_app_or in Hz. tauto.
Qed.
Lemma dep_prod (x : mps) s l : is_mps x s l -> dep (s ++ l) (prod x).
Proof. intros [H _]. pose proof (chain_dep r1 rmul x _ l H) as D. now rewrite concat_sing in D. Qed.
Lemma dep_mprod (A : mps) i o l : is_mpo A i o l -> dep ((i ++ o) ++ l) (prod A).
Proof.
  intros (L & H & _). pose proof (chain_dep r1 rmul A _ l H) as D. eapply dep_incl; [|exact D]. intros z. rewrite !in_app_iff, (pairs_In i o z L), in_app_iff. tauto.
Qed.
Lemma dep_elt (A : mps) i o l : is_mpo A i o l -> dep (i ++ o) (sum_over l (prod A)).
Proof. intros H. apply (dep_sum r0 radd l ((i ++ o) ++ l)); [now apply dep_mprod|]. intros z Hz. apply in_app_or in Hz. tauto. Qed.
Lemma dep_incl' D D' g : dep D g -> incl D D' -> @dep R D' g.
Proof. intros H I. eapply dep_incl; eauto. Qed.
Lemma over_mul_l s k F : over s (fun c => k * F c) = k * over s F.
Proof. apply (csum_mul_l r0 r1 radd rmul rsub ropp RT). Qed.
Lemma over_mul_r s k F : over s (fun c => F c * k) = over s F * k.
Proof. apply (csum_mul_r r0 r1 radd rmul rsub ropp RT). Qed.
Lemma over_swap s t F : over s (fun c => over t (fun c' => F c c')) = over t (fun c' => over s (fun c => F c c')).
Proof.
  unfold InnerSpec.over. generalize (map ixdim s) as ds. generalize (map ixdim t) as dt. intros dt ds. revert F. induction dt as [|d dt IH]; intros F.
  - reflexivity.
  - cbn [csum]. rewrite (csum_bsum r0 r1 radd rmul rsub ropp RT). apply (bsum_ext r0 radd). intros v _. apply (IH (fun c c' => F c (v :: c'))).
Qed.
Lemma sum3 L1 L2 L3 E1 E2 E3 p1 p2 p3 s : dep E1 p1 -> dep E2 p2 -> dep E3 p3 ->
  disjoint L1 (E2 ++ E3) -> disjoint L2 (E1 ++ E3) -> disjoint L3 (E1 ++ E2) ->
  sum_over (L1 ++ L2 ++ L3) (fun t => p1 t * p2 t * p3 t) s = sum_over L1 p1 s * sum_over L2 p2 s * sum_over L3 p3 s.
Proof.
  intros H1 H2 H3 D1 D2 D3. transitivity (sum_over (L1 ++ (L2 ++ L3)) (fun t => p1 t * (p2 t * p3 t)) s); [apply (sum_ext_in r0 radd); intros; ring|].
  rewrite (sum_factor r0 r1 radd rmul rsub ropp RT L1 (L2 ++ L3) E1 (E2 ++ E3)); auto.
  - rewrite (sum_factor r0 r1 radd rmul rsub ropp RT L2 L3 E2 E3); auto; [ring| |]; intros z Hz K; [apply (D2 z Hz)|apply (D3 z Hz)]; apply in_or_app; auto.
  - apply dep_mul; eapply dep_incl'; eauto; intros z Hz; apply in_or_app; auto.
  - intros z Hz K. apply in_app_or in Hz. destruct Hz as [Hz|Hz]; [apply (D2 z Hz)|apply (D3 z Hz)]; apply in_or_app; auto.
Qed.
Lemma sum4 L1 L2 L3 L4 E1 E2 E3 E4 p1 p2 p3 p4 s : dep E1 p1 -> dep E2 p2 -> dep E3 p3 -> dep E4 p4 ->
  disjoint L1 (E2 ++ E3 ++ E4) -> disjoint L2 (E1 ++ E3 ++ E4) -> disjoint L3 (E1 ++ E2 ++ E4) -> disjoint L4 (E1 ++ E2 ++ E3) ->
  sum_over (L1 ++ L2 ++ L3 ++ L4) (fun t => p1 t * p2 t * p3 t * p4 t) s = sum_over L1 p1 s * sum_over L2 p2 s * sum_over L3 p3 s * sum_over L4 p4 s.
Proof.
  intros H1 H2 H3 H4 D1 D2 D3 D4. transitivity (sum_over (L1 ++ (L2 ++ L3 ++ L4)) (fun t => p1 t * (p2 t * p3 t * p4 t)) s); [apply (sum_ext_in r0 radd); intros; ring|].
  rewrite (sum_factor r0 r1 radd rmul rsub ropp RT L1 (L2 ++ L3 ++ L4) E1 (E2 ++ E3 ++ E4)); auto.
  - rewrite (sum3 L2 L3 L4 E2 E3 E4); auto; [ring| | |]; intros z Hz K; [apply (D2 z Hz)|apply (D3 z Hz)|apply (D4 z Hz)]; rewrite !in_app_iff in *; tauto.
  - intros u v E. rewrite (H2 u v), (H3 u v), (H4 u v); [reflexivity| | |]; intros z Hz; apply E; rewrite !in_app_iff; tauto.
  - intros z Hz K. rewrite !in_app_iff in Hz. destruct Hz as [Hz|[Hz|Hz]]; [apply (D2 z Hz)|apply (D3 z Hz)|apply (D4 z Hz)]; rewrite !in_app_iff; tauto.
Qed.
Lemma fresh_disjoint k l m : used_below k m -> disjoint (sims k l) m.
Proof. intros U z Hz K. apply sims_ge in Hz. specialize (U z K). lia. Qed.
Lemma values_l a b c c' : length c = length a -> forall y, In y a -> values (a ++ b) (c ++ c') y = values a c y.
Proof. intros. now apply values_app_l. Qed.
Lemma values_r a b c c' : NoDup (a ++ b) -> length c = length a -> forall y, In y b -> values (a ++ b) (c ++ c') y = values b c' y.
Proof. intros N L y Hy. apply values_app_r; auto. apply NoDup_app_iff in N. intros K. destruct N as (_ & _ & N). now apply (N y). Qed.

(** ** inner(x,A,y) *)
Theorem innerMPO_spec k x A y sx lx ins outs lA ly : is_mps x sx lx -> is_mpo A ins outs lA -> is_mps y ins ly -> map ixdim outs = map ixdim sx ->
  disjoint ly (outs ++ lA) -> disjoint outs lx -> used_below k (lx ++ ins ++ outs ++ lA ++ ly) ->
  innerMPO r0 radd rmul conj k x A y = Ok (over outs (fun c' => conj (amplitude x sx lx c') * applied A ins outs lA y ly c')).
Proof.
  intros HX HA HY D DJ DO U. pose proof (mps_len _ _ _ HX) as [L1 L2]. pose proof (mps_len _ _ _ HY) as [L3 L4]. pose proof (mpo_len _ _ _ _ HA) as (L5 & L6 & L7).
  assert (LN : length outs = length sx) by (rewrite <- (map_length ixdim outs), D; apply map_length).
  unfold innerMPO. rewrite !(proj2 (Nat.eqb_eq _ _)) by lia. cbn [negb orb].
  rewrite (unique_mps A y ins outs lA ly) by (auto; try lia; intros z Hz K; apply (DJ z Hz); apply in_or_app; auto). cbn [obind].
  destruct (replaceSiteInds_mps x sx lx outs HX D) as (x1 & E1 & F1). rewrite E1. cbn [obind].
  pose proof (img_trans _ _ _ _ _ _ _ F1 (img_dag conj x1)) as F. cbn beta in F.
  pose proof HA as (_ & CA & NA). pose proof NA as NA0. rewrite app_assoc in NA0. apply NoDup_app_iff in NA0. destruct NA0 as (Nio & NlA & NioA).
  pose proof Nio as Nio0. apply NoDup_app_iff in Nio0. destruct Nio0 as (Ni & No & Nd).
  destruct (bra k x (dag conj x1) sx lx outs HX F No D DO) as (xd & E2 & CX & NX & V).
  { intros z Hz. apply U. rewrite !in_app_iff in *. tauto. } rewrite E2. cbn [obind].
  set (lx' := sims k lx) in *. pose proof (chain_len _ _ _ _ CX) as [L8 _]. rewrite map_length in L8. pose proof (Logic.conj CX NX : is_mps xd outs lx') as HXd.
  assert (FR : disjoint lx' (ins ++ outs ++ lA ++ ly)). { apply fresh_disjoint. intros z Hz. apply U. rewrite !in_app_iff in *. tauto. }
  pose proof HY as [_ NY]. apply NoDup_app_iff in NY. destruct NY as (_ & Nly & Nyy).
  assert (DS : forall z, In z ly -> ~ In z ins /\ ~ In z outs /\ ~ In z lA).
  { intros z Hz. repeat split; intros K; [apply (Nyy z); auto| |]; apply (DJ z Hz); apply in_or_app; auto. }
  assert (DA : forall z, In z lA -> ~ In z ins /\ ~ In z outs). { intros z Hz. split; intros K; apply (NioA z); auto; apply in_or_app; auto. }
  assert (DX : forall z, In z lx' -> ~ In z ins /\ ~ In z outs /\ ~ In z lA /\ ~ In z ly). { intros z Hz. specialize (FR z Hz). rewrite !in_app_iff in FR. tauto. }
  set (DD := (ins ++ outs) ++ ly ++ lA ++ lx').
  assert (ND : NoDup DD).
  { unfold DD. repeat (apply NoDup_app_iff; split; [auto|split]); auto; [apply NoDup_app_iff in NX; tauto| | |]; intros z Hz K; rewrite ?in_app_iff in *; 
    specialize (DS z); specialize (DA z); specialize (DX z); tauto. }
  rewrite (contract_net r0 r1 radd rmul rsub ropp RT _ DD); auto.
  - f_equal. unfold DD. rewrite (sum_app r0 radd).
    transitivity (sum_over (ins ++ outs) (fun u => sum_over ly (prod y) u * sum_over lA (prod A) u * sum_over lx' (prod xd) u) (fun _ => 0)).
    + apply (sum_ext_in r0 radd). intros u _ _. rewrite <- (sum3 ly lA lx' (ins ++ ly) ((ins ++ outs) ++ lA) (outs ++ lx')).
      * apply (sum_ext_in r0 radd). intros t _ _. apply (zip3_prod r0 r1 radd rmul rsub ropp RT); lia.
      * now apply dep_prod. * now apply dep_mprod. * now apply dep_prod.
      * intros z Hz K. rewrite !in_app_iff in K. specialize (DS z Hz). specialize (DX z). tauto.
      * intros z Hz K. rewrite !in_app_iff in K. specialize (DA z Hz). specialize (DX z). specialize (DS z). tauto.
      * intros z Hz K. rewrite !in_app_iff in K. specialize (DX z Hz). tauto.
    + rewrite <- (over_sum r0 radd); auto.
      * rewrite (over_app r0 radd). rewrite over_swap. apply (over_ext r0 radd). intros c' Lc' _. unfold InnerSpec.applied. rewrite <- over_mul_l. apply (over_ext r0 radd). intros c Lc _.
        rewrite (V _ c') by (try lia; now apply values_r). rewrite (amplitude_at r0 r1 radd rmul y ins ly c) by (auto; now apply values_l).
        rewrite (element_at r0 r1 radd rmul A ins outs lA c c') by (first [assumption | now apply values_l | now apply values_r]). ring.
      * apply dep_mul; [apply dep_mul|].
        -- eapply dep_incl'; [eapply dep_amp; eassumption|]. intros z Hz. apply in_or_app; auto.
        -- now apply dep_elt.
        -- eapply dep_incl'; [eapply dep_amp; eassumption|]. intros z Hz. apply in_or_app; auto.
  - destruct y; [cbn in *; lia|]. destruct A; [cbn in *; lia|]. destruct xd; [cbn in *; lia|]. discriminate.
  - intros t Ht. apply zip3_In in Ht. destruct Ht as [Ht|[Ht|Ht]].
    + destruct HY as [CY NY]. apply (chain_tensors y _ ly CY); [now rewrite concat_sing|auto].
    + apply (chain_tensors A _ lA CA (mpo_nodup _ _ _ _ HA) t Ht).
    + apply (chain_tensors xd _ lx' CX); [now rewrite concat_sing|exact Ht].
  - rewrite zip3_nis by lia. rewrite (chain_perm y ins ly HY), (mpo_perm A ins outs lA HA), (chain_perm xd outs lx' HXd). unfold DD.
    apply (Permutation_count_occ ix_dec). intros e. rewrite !count_occ_app. lia.
Qed.

(** ** inner(x,A,B,y) *)
Lemma img_mpo h f (A A' : mps) i o l : is_mpo A i o l -> Forall2 (img h f) A A' -> NoDup (map f i ++ map f o ++ map f l) -> is_mpo A' (map f i) (map f o) (map f l).
Proof.
  intros (L & C & N) F N'. split; [rewrite !map_length; auto|]. split; [|exact N']. pose proof (chain_img h f A A' [] _ l F C) as C'. cbn [map] in C'.
  replace (map (map f) (map (fun p => [fst p; snd p]) (combine i o))) with (map (fun p : ix * ix => [fst p; snd p]) (combine (map f i) (map f o))) in C'; auto.
  clear. revert o; induction i as [|a i IH]; intros [|b o]; cbn; auto. f_equal. apply IH.
Qed.
(** An MPO with renamed sites i' and o' and fresh links. *)
Lemma mpo_sim k h f (A A1 : mps) i o l i' o' : is_mpo A i o l -> Forall2 (img h f) A A1 -> hom h -> map f i = i' -> map f o = o' -> (forall y, In y l -> f y = y) ->
  (forall y, In y (i ++ o) -> ixdim (f y) = ixdim y) -> NoDup (i' ++ o' ++ l) -> used_below k (i' ++ o' ++ l) ->
  exists A2, simLinks k A1 = Ok A2 /\ is_mpo A2 i' o' (sims k l) /\ Forall2 (img h (fun y => lk l (sims k l) (f y))) A A2 /\
    forall u c c', length c = length i -> length c' = length o -> (forall y, In y i' -> u y = values i' c y) -> (forall y, In y o' -> u y = values o' c' y) ->
      sum_over (sims k l) (prod A2) u = h (element A i o l c c').
Proof.
  intros HA F Hh Ei Eo FL FD N U. pose proof HA as (LL & C & N0). pose proof (mpo_len _ _ _ _ HA) as (L1 & L2 & L3).
  pose proof N0 as N1. apply NoDup_app_iff in N1. destruct N1 as (Ni & No & Nio). apply NoDup_app_iff in No. destruct No as (No & Nl & Nol).
  assert (ML : map f l = l) by (rewrite <- (map_id l) at 2; apply map_ext_in; auto).
  assert (PP : Permutation (map f (concat (map (fun p => [fst p; snd p]) (combine i o)))) (i' ++ o')) by (rewrite <- Ei, <- Eo, <- map_app; apply Permutation_map; now apply concat_pairs).
  destruct (sim_img r0 r1 radd rmul k A _ l h f A1 C F Hh) as (A2 & E & C2 & ND & FF & V); auto.
  - rewrite map_app, ML. eapply Permutation_NoDup; [|exact N]. rewrite app_assoc. apply Permutation_app_tail. now symmetry.
  - intros y Hy. apply FD. now apply (pairs_In i o y LL).
  - intros y Hy. apply U. apply in_app_or in Hy. rewrite app_assoc. apply in_or_app. destruct Hy as [Hy|Hy]; auto. left. eapply Permutation_in; eauto.
  - exists A2. split; [exact E|]. split; [|split; [exact FF|]].
    + split; [rewrite <- Ei, <- Eo, !map_length; auto|]. split.
      * replace (map (map f) (map (fun p => [fst p; snd p]) (combine i o))) with (map (fun p : ix * ix => [fst p; snd p]) (combine i' o')) in C2; auto.
        rewrite <- Ei, <- Eo. clear. revert o; induction i as [|a i IH]; intros [|b o]; cbn; auto. f_equal. apply IH.
      * rewrite app_assoc. eapply Permutation_NoDup; [|exact ND]. now apply Permutation_app_tail.
    + intros u c c' Lc Lc' Hi Ho. rewrite V. f_equal. rewrite app_assoc in N. apply NoDup_app_iff in N. destruct N as (N & _ & _). apply NoDup_app_iff in N. destruct N as (Ni' & No' & Nio').
      apply (element_at r0 r1 radd rmul A i o l c c'); auto; intros y Hy; apply (In_nth _ _ y) in Hy; destruct Hy as (n & Hn & <-); set (d := y).
      * rewrite Hi by (rewrite <- Ei; apply in_map; now apply nth_In). rewrite <- (map_nth f i d n). rewrite (nth_indep _ (f d) d) by now rewrite map_length. rewrite Ei.
        rewrite !values_nth; auto; [rewrite <- Ei, map_length; auto|rewrite <- Ei, map_length; auto].
      * rewrite Ho by (rewrite <- Eo; apply in_map; now apply nth_In). rewrite <- (map_nth f o d n). rewrite (nth_indep _ (f d) d) by now rewrite map_length. rewrite Eo.
        rewrite !values_nth; auto; [rewrite <- Eo, map_length; auto|rewrite <- Eo, map_length; auto].
Qed.

Theorem innerxABy_spec k x A B y sx lx sy t w lA lB ly : is_mps x sx lx -> is_mpo B sy t lB -> is_mpo A t w lA -> is_mps y sy ly ->
  2 <= length y -> map ixdim w = map ixdim sx -> disjoint ly (t ++ lB) -> used_below k (lx ++ sy ++ t ++ w ++ lA ++ lB ++ ly) ->
  innerxABy r0 radd rmul conj k x A B y =
    Ok (over w (fun d => conj (amplitude x sx lx d) * over t (fun c' => element A t w lA c' d * applied B sy t lB y ly c'))).
Proof.
  intros HX HB HA HY NN D DJ U. pose proof (mps_len _ _ _ HX) as [L1 L2]. pose proof (mps_len _ _ _ HY) as [L3 L4].
  pose proof (mpo_len _ _ _ _ HA) as (L5 & L6 & L7). pose proof (mpo_len _ _ _ _ HB) as (L9 & L10 & L11).
  assert (LN : length w = length sx) by (rewrite <- (map_length ixdim w), D; apply map_length).
  unfold innerxABy. rewrite !(proj2 (Nat.eqb_eq _ _)) by lia. cbn [negb orb].
  rewrite (unique_mps B y sy t lB ly) by (auto; try lia; intros z Hz K; apply (DJ z Hz); apply in_or_app; auto). cbn [obind].
  rewrite (unique_is A t w lA HA). cbn [obind]. set (w' := sims k w). set (k1 := (k + length w)%nat).
  assert (Lw : length w' = length w) by apply sims_len.
  pose proof HA as (_ & CA & NA). pose proof NA as NA0. apply NoDup_app_iff in NA0. destruct NA0 as (Nt & Nw & Ntw). apply NoDup_app_iff in Nw. destruct Nw as (Nw & NlA & NwA).
  assert (Fw : disjoint w' (lx ++ sy ++ t ++ w ++ lA ++ lB ++ ly)) by now apply fresh_disjoint.
  assert (Nw' : NoDup w') by apply sims_nodup.
  assert (Dw' : forall z, In z w' -> ~ In z lx /\ ~ In z sy /\ ~ In z t /\ ~ In z w /\ ~ In z lA /\ ~ In z lB /\ ~ In z ly).
  { intros z Hz. specialize (Fw z Hz). rewrite !in_app_iff in Fw. tauto. }
  destruct (replaceMPO_chain A _ lA w w' CA (mpo_nodup _ _ _ _ HA)) as (Ap & E1 & F1); auto.
  { apply sims_dim. }
  { intros n d Hn. rewrite (nth_pairs _ _ _ d) by lia. right; left; auto. }
  { destruct w' as [|z w''] eqn:Ew; [cbn in Lw; lia|]. exists z. split; [left; auto|]. specialize (Dw' z ltac:(left; auto)). rewrite in_app_iff, pairs_In by lia. rewrite in_app_iff. tauto. }
  rewrite E1. cbn [obind].
  assert (FLA : forall z, In z lA -> lk w w' z = z) by (intros z Hz; apply lk_other; intros K; apply (NwA z); auto).
  assert (FT : map (lk w w') t = t) by (apply map_other; intros z Hz K; apply (Ntw z Hz); apply in_or_app; auto).
  assert (FW : map (lk w w') w = w') by (apply lk_map; auto).
  assert (U1 : used_below k1 (t ++ w' ++ lA)).
  { intros z Hz. rewrite !in_app_iff in Hz. destruct Hz as [Hz|[Hz|Hz]]; [|apply sims_ge in Hz; unfold k1; lia|]; assert (ixid z < k) by (apply U; rewrite !in_app_iff; tauto); unfold k1; lia. }
  destruct (mpo_sim k1 (fun r => r) (lk w w') A Ap t w lA t w' HA F1) as (A2 & E2 & HA2 & _ & VA); auto.
  { apply hom_id. }
  { intros; apply lk_dim; apply sims_dim. }
  { apply NoDup_app_iff. split; auto. split; [apply NoDup_app_iff; split; [exact Nw'|split; [exact NlA|]]; intros z Hz K; specialize (Dw' z Hz); tauto|]. intros z Hz K. apply in_app_or in K. destruct K as [K|K]; [specialize (Dw' z K); tauto|apply (Ntw z Hz); apply in_or_app; auto]. }
  rewrite E2. cbn [obind]. set (lA' := sims k1 lA) in *. set (k2 := (k1 + length A)%nat).
  assert (Dx : map ixdim w' = map ixdim sx) by (unfold w'; rewrite sims_dim; auto).
  destruct (replaceSiteInds_mps x sx lx w' HX Dx) as (x1 & E3 & F3). rewrite E3. cbn [obind].
  pose proof (img_trans _ _ _ _ _ _ _ F3 (img_dag conj x1)) as F. cbn beta in F.
  destruct (bra k2 x (dag conj x1) sx lx w' HX F Nw' Dx) as (xd & E4 & CX & NX & V).
  { intros z Hz K. specialize (Dw' z Hz); tauto. }
  { intros z Hz. apply in_app_or in Hz. unfold k2, k1. destruct Hz as [Hz|Hz]; [apply sims_ge in Hz; lia|]. assert (ixid z < k) by (apply U; rewrite !in_app_iff; tauto). lia. }
  rewrite E4. cbn [obind]. set (lx' := sims k2 lx) in *. pose proof (Logic.conj CX NX : is_mps xd w' lx') as HXd.
  pose proof (mps_len _ _ _ HXd) as [L12 _]. pose proof (mpo_len _ _ _ _ HA2) as (L13 & _ & _).
  replace (length x =? 1) with false by (symmetry; apply Nat.eqb_neq; lia).
  pose proof HB as (_ & CB & NB). pose proof NB as NB0. rewrite app_assoc in NB0. apply NoDup_app_iff in NB0. destruct NB0 as (Nst & NlB & NstB).
  pose proof HY as [CY NY]. pose proof NY as NY0. apply NoDup_app_iff in NY0. destruct NY0 as (Ns & Nly & Nyy).
  assert (Kid : forall z, In z (lx ++ sy ++ t ++ w ++ lA ++ lB ++ ly) -> ixid z < k) by exact U.
  assert (DS : forall z, In z ly -> ~ In z sy /\ ~ In z t /\ ~ In z lB).
  { intros z Hz. repeat split; intros K; [apply (Nyy z); auto| |]; apply (DJ z Hz); apply in_or_app; auto. }
  assert (DB : forall z, In z lB -> ~ In z sy /\ ~ In z t). { intros z Hz. split; intros K; apply (NstB z); auto; apply in_or_app; auto. }
  assert (DA : forall z, In z lA' -> ~ In z sy /\ ~ In z t /\ ~ In z w' /\ ~ In z ly /\ ~ In z lB).
  { intros z Hz. apply sims_ge in Hz. unfold k1 in Hz. repeat split; intros K; try (specialize (Kid z ltac:(rewrite !in_app_iff; tauto)); lia). apply sims_ge in K. lia. }
  assert (DX : forall z, In z lx' -> ~ In z sy /\ ~ In z t /\ ~ In z w' /\ ~ In z ly /\ ~ In z lB /\ ~ In z lA').
  { intros z Hz. apply sims_ge in Hz. unfold k2, k1 in Hz. repeat split; intros K; try (specialize (Kid z ltac:(rewrite !in_app_iff; tauto)); lia); apply sims_ge in K; unfold k1 in K; lia. }
  set (DD := ((sy ++ t) ++ w') ++ ly ++ lB ++ lA' ++ lx').
  assert (NSW : NoDup ((sy ++ t) ++ w')). { apply NoDup_app_iff. split; auto. split; auto. intros z Hz K. specialize (Dw' z K). apply in_app_or in Hz. tauto. }
  assert (ND : NoDup DD).
  { unfold DD. apply NoDup_app_iff. split; [exact NSW|]. split.
    - repeat (apply NoDup_app_iff; split; [auto|split]); auto; try apply sims_nodup; intros z Hz K; rewrite ?in_app_iff in *; specialize (DS z); specialize (DB z); specialize (DA z); specialize (DX z); tauto.
    - intros z Hz K; rewrite ?in_app_iff in *; specialize (Dw' z); specialize (DS z); specialize (DB z); specialize (DA z); specialize (DX z); tauto. }
  rewrite (contract_net r0 r1 radd rmul rsub ropp RT _ DD); auto.
  - f_equal. unfold DD. rewrite (sum_app r0 radd).
    transitivity (sum_over ((sy ++ t) ++ w') (fun u => sum_over ly (prod y) u * sum_over lB (prod B) u * sum_over lA' (prod A2) u * sum_over lx' (prod xd) u) (fun _ => 0)).
    + apply (sum_ext_in r0 radd). intros u _ _. rewrite <- (sum4 ly lB lA' lx' (sy ++ ly) ((sy ++ t) ++ lB) ((t ++ w') ++ lA') (w' ++ lx')).
      * apply (sum_ext_in r0 radd). intros z _ _. apply (zip4_prod r0 r1 radd rmul rsub ropp RT); lia.
      * now apply dep_prod. * now apply dep_mprod. * now apply dep_mprod. * now apply dep_prod.
      * intros z Hz K. rewrite !in_app_iff in K. specialize (DS z Hz). specialize (Dw' z). specialize (DA z). specialize (DX z). tauto.
      * intros z Hz K. rewrite !in_app_iff in K. specialize (DB z Hz). specialize (DS z). specialize (Dw' z). specialize (DA z). specialize (DX z). tauto.
      * intros z Hz K. rewrite !in_app_iff in K. specialize (DA z Hz). specialize (DX z). tauto.
      * intros z Hz K. rewrite !in_app_iff in K. specialize (DX z Hz). tauto.
    + rewrite <- (over_sum r0 radd); auto.
      * rewrite !(over_app r0 radd).
        transitivity (over sy (fun c => over w' (fun d => over t (fun c' => conj (amplitude x sx lx d) * (element A t w lA c' d * (element B sy t lB c c' * amplitude y sy ly c)))))).
        -- apply (over_ext r0 radd). intros c Lc _. rewrite over_swap. apply (over_ext r0 radd). intros d Ld _. apply (over_ext r0 radd). intros c' Lc' _.
           assert (Vs : forall z, In z sy -> values ((sy ++ t) ++ w') ((c ++ c') ++ d) z = values sy c z).
           { intros z Hz. rewrite values_app_l by (rewrite ?app_length; try lia; apply in_or_app; auto). now apply values_app_l. }
           assert (Vt : forall z, In z t -> values ((sy ++ t) ++ w') ((c ++ c') ++ d) z = values t c' z).
           { intros z Hz. rewrite values_app_l by (rewrite ?app_length; try lia; apply in_or_app; auto). now apply values_r. }
           assert (Vw : forall z, In z w' -> values ((sy ++ t) ++ w') ((c ++ c') ++ d) z = values w' d z).
           { intros z Hz. apply values_r; auto. rewrite !app_length. lia. }
           rewrite (V _ d) by (auto; lia). rewrite (amplitude_at r0 r1 radd rmul y sy ly c) by auto.
           rewrite (element_at r0 r1 radd rmul B sy t lB c c') by auto. rewrite (VA _ c' d) by (auto; lia). ring.
        -- rewrite over_swap. unfold InnerSpec.over at 1. unfold w'. rewrite sims_dim. fold (over w). 
           apply (over_ext r0 radd). intros d Ld _. rewrite over_swap. rewrite <- over_mul_l. apply (over_ext r0 radd). intros c' Lc' _.
           unfold InnerSpec.applied. rewrite <- !over_mul_l. reflexivity.
      * apply dep_mul; [apply dep_mul; [apply dep_mul|]|].
        -- eapply dep_incl'; [eapply dep_amp; eassumption|]. intros z Hz. rewrite !in_app_iff. auto.
        -- eapply dep_incl'; [eapply dep_elt; eassumption|]. intros z Hz. apply in_or_app; auto.
        -- eapply dep_incl'; [now apply (dep_elt A2 t w' lA')|]. intros z Hz. rewrite !in_app_iff in *. tauto.
        -- eapply dep_incl'; [now apply (dep_amp xd w' lx')|]. intros z Hz. apply in_or_app; auto.
  - destruct y; [cbn in *; lia|]. destruct B; [cbn in *; lia|]. destruct A2; [cbn in *; lia|]. destruct xd; [cbn in *; lia|]. discriminate.
  - intros z Ht. apply zip4_In in Ht. destruct Ht as [Ht|[Ht|[Ht|Ht]]].
    + apply (chain_tensors y _ ly CY); [now rewrite concat_sing|auto].
    + apply (chain_tensors B _ lB CB (mpo_nodup _ _ _ _ HB) z Ht).
    + pose proof (mpo_nodup _ _ _ _ HA2) as N2. destruct HA2 as (_ & C2 & _). apply (chain_tensors A2 _ lA' C2 N2 z Ht).
    + apply (chain_tensors xd _ lx' CX); [now rewrite concat_sing|exact Ht].
  - rewrite zip4_nis by lia. rewrite (chain_perm y sy ly HY), (mpo_perm B sy t lB HB), (mpo_perm A2 t w' lA' HA2), (chain_perm xd w' lx' HXd). unfold DD.
    apply (Permutation_count_occ ix_dec). intros e. rewrite !count_occ_app. lia.
Qed.
End InnerOps.
