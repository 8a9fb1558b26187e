(** The inner products and traces are sums over all configurations. *)
From Coq Require Import List Arith Bool Lia Permutation Ring.
From Verif Require Import Util RangeModel RangeSpec RangeProofs TensorModel TensorSpec TensorProofs SemProofs BigSum InnerModel InnerSpec NetProofs ChainProofs.
Import ListNotations.
Local Open Scope outcome_scope.
Local Arguments Nat.sub : simpl never.

Section Inner.
Context {R : Type} (r0 r1 : R) (radd rmul rsub : R -> R -> R) (ropp : R -> R) (conj : R -> R).
Context (RT : ring_theory r0 r1 radd rmul rsub ropp eq).
Hypothesis conj0 : conj r0 = r0.
Hypothesis conj1 : conj r1 = r1.
Hypothesis conj_add : forall x y, conj (radd x y) = radd (conj x) (conj y).
Hypothesis conj_mul : forall x y, conj (rmul x y) = rmul (conj x) (conj y).
Add Ring RRip : RT.
Notation nt := (nt R).
Notation mps := (mps R).
Notation sum_over := (sum_over r0 radd ix_eqb ixdim).
Notation tmul := (tmul r0 radd rmul).
Notation tmuls := (tmuls r0 radd rmul).
Notation prod := (prod r1 rmul).
Notation contract_all := (contract_all r0 radd rmul).
Notation amplitude := (amplitude r0 r1 radd rmul).
Notation element := (element r0 r1 radd rmul).
Notation applied := (applied r0 r1 radd rmul).
Notation over := (over r0 radd).
Notation "x + y" := (radd x y). Notation "x * y" := (rmul x y).
Notation hom := (hom r0 r1 radd rmul).

Lemma hom_conj : hom conj.
Proof. repeat split; auto. Qed.

(** ** Zipping *)
Lemma zip2_prod x y u : length x = length y -> prod (zip2 x y) u = prod x u * prod y u.
Proof. revert y; induction x as [|a x IH]; intros [|b y] L; cbn [zip2]; try discriminate. - rewrite prod_nil. ring. - rewrite !prod_cons, IH by (cbn in L; lia). ring. Qed.
Lemma zip2_nis (x y : mps) : length x = length y -> Permutation (concat (map nis (zip2 x y))) (concat (map nis x) ++ concat (map nis y)).
Proof.
  revert y; induction x as [|a x IH]; intros [|b y] L; cbn in *; try discriminate; [constructor|]. rewrite IH by lia.
  rewrite <- app_assoc. apply Permutation_app_head. rewrite !app_assoc. apply Permutation_app_tail. apply Permutation_app_comm.
Qed.
Lemma zip2_In (x y : mps) t : In t (zip2 x y) -> In t x \/ In t y.
Proof. revert y; induction x as [|a x IH]; intros [|b y] H; cbn in *; try contradiction. destruct H as [<-|[<-|H]]; auto. destruct (IH y H); auto. Qed.
Lemma zip3_prod x y z u : length x = length y -> length x = length z -> prod (zip3 x y z) u = prod x u * prod y u * prod z u.
Proof.
  revert y z; induction x as [|a x IH]; intros [|b y] [|c z] L L'; cbn [zip3]; try discriminate. - rewrite prod_nil. ring.
  - rewrite !prod_cons, IH by (cbn in L, L'; lia). ring.
Qed.
Lemma zip3_nis (x y z : mps) : length x = length y -> length x = length z ->
  Permutation (concat (map nis (zip3 x y z))) (concat (map nis x) ++ concat (map nis y) ++ concat (map nis z)).
Proof.
  intros L1 L2. apply (Permutation_count_occ ix_dec). intros e. rewrite !count_occ_app. revert y z L1 L2.
  induction x as [|a x IH]; intros [|b y] [|c z] L L'; cbn in *; try discriminate; auto.
  rewrite !count_occ_app, IH by lia. lia.
Qed.
Lemma zip3_In (x y z : mps) t : In t (zip3 x y z) -> In t x \/ In t y \/ In t z.
Proof. revert y z; induction x as [|a x IH]; intros [|b y] [|c z] H; cbn in *; try contradiction. destruct H as [<-|[<-|[<-|H]]]; auto. destruct (IH y z H) as [|[|]]; auto. Qed.
Lemma zip4_prod x y z w u : length x = length y -> length x = length z -> length x = length w -> prod (zip4 x y z w) u = prod x u * prod y u * prod z u * prod w u.
Proof.
  revert y z w; induction x as [|a x IH]; intros [|b y] [|c z] [|d w] L L' L''; cbn [zip4]; try discriminate. - rewrite prod_nil. ring.
  - rewrite !prod_cons, IH by (cbn in L, L', L''; lia). ring.
Qed.
Lemma zip4_nis (x y z w : mps) : length x = length y -> length x = length z -> length x = length w ->
  Permutation (concat (map nis (zip4 x y z w))) (concat (map nis x) ++ concat (map nis y) ++ concat (map nis z) ++ concat (map nis w)).
Proof.
  intros L1 L2 L3. apply (Permutation_count_occ ix_dec). intros e. rewrite !count_occ_app. revert y z w L1 L2 L3.
  induction x as [|a x IH]; intros [|b y] [|c z] [|d w] L L' L''; cbn in *; try discriminate; auto.
  rewrite !count_occ_app, IH by lia. lia.
Qed.
Lemma zip4_In (x y z w : mps) t : In t (zip4 x y z w) -> In t x \/ In t y \/ In t z \/ In t w.
Proof. revert y z w; induction x as [|a x IH]; intros [|b y] [|c z] [|d w] H; cbn in *; try contradiction. destruct H as [<-|[<-|[<-|[<-|H]]]]; auto. destruct (IH y z w H) as [|[|[|]]]; auto. Qed.

(** ** A chain with fresh links *)
Lemma sim_img k (x : mps) SS L h f x1 : chain_on [] x SS L -> Forall2 (img h f) x x1 -> hom h ->
  NoDup (map f (concat SS ++ L)) -> (forall y, In y L -> f y = y) -> (forall y, In y (concat SS) -> ixdim (f y) = ixdim y) ->
  used_below k (map f (concat SS) ++ L) ->
  exists xd, simLinks k x1 = Ok xd /\ chain_on [] xd (map (map f) SS) (sims k L) /\
    NoDup (map f (concat SS) ++ sims k L) /\
    Forall2 (img h (fun y => lk L (sims k L) (f y))) x xd /\
    forall u, sum_over (sims k L) (prod xd) u = h (sum_over L (prod x) (fun y => u (f y))).
Proof.
  intros H F Hh N FL FD U.
  assert (ML : map f L = L) by (rewrite <- (map_id L) at 2; apply map_ext_in; auto).
  pose proof (chain_img h f x x1 [] SS L F H) as H1. cbn [map] in H1. rewrite ML in H1.
  assert (CM : concat (map (map f) SS) = map f (concat SS)) by (symmetry; apply concat_map).
  rewrite map_app, ML in N. pose proof N as N0. apply NoDup_app_iff in N0. destruct N0 as (N1 & N2 & N3).
  destruct (simLinks_chain k x1 (map (map f) SS) L H1) as (xd & E & F'); [now rewrite CM|]. 
  set (g := lk L (sims k L)) in *. exists xd. split; [exact E|].
  assert (GS : forall y, In y (map f (concat SS)) -> g y = y) by (intros y Hy; apply lk_other; auto).
  assert (GL : map g L = sims k L) by (apply lk_map; auto; apply sims_len).
  assert (GD : forall y, ixdim (g y) = ixdim y) by (intros y; apply lk_dim; apply sims_dim).
  pose proof (img_trans _ _ _ _ _ _ _ F F') as FF. cbn beta in FF.
  assert (MG : map (fun y => g (f y)) (concat SS ++ L) = map f (concat SS) ++ sims k L).
  { rewrite map_app. f_equal; [apply map_ext_in; intros y Hy; apply GS; now apply in_map|]. rewrite <- GL. apply map_ext_in. intros y Hy. now rewrite FL. }
  assert (ND : NoDup (map f (concat SS) ++ sims k L)).
  { apply NoDup_app_iff. split; [exact N1|]. split; [apply sims_nodup|]. intros y Hy Hs. apply sims_ge in Hs. specialize (U y ltac:(apply in_or_app; auto)). lia. }
  split; [|split; [exact ND|split; [exact FF|]]].
  - pose proof (chain_img _ g x1 xd [] _ _ F' H1) as H2. cbn [map] in H2. rewrite GL in H2.
    replace (map (map g) (map (map f) SS)) with (map (map f) SS) in H2; auto. rewrite map_map. apply map_ext_in. intros l Hl. rewrite map_map. apply map_ext_in. intros y Hy.
    symmetry. apply GS. apply in_map. apply in_concat. eauto.
  - intros u. pose proof (img_sum r0 r1 radd rmul h (fun y => g (f y)) x xd SS L u Hh H FF) as S1.
    replace (map (fun y => g (f y)) L) with (sims k L) in S1 by (rewrite <- GL; apply map_ext_in; intros y Hy; now rewrite FL). rewrite S1.
    + f_equal. apply (dep_sum r0 radd L (concat SS ++ L) (concat SS)).
      * now apply (chain_dep r1 rmul). * intros y Hy. apply in_app_or in Hy. tauto.
      * intros y Hy. f_equal. apply GS. now apply in_map.
    + rewrite MG. exact ND.
    + intros y Hy. rewrite GD. now rewrite FL.
Qed.

Lemma amplitude_at (x : mps) s l c u : is_mps x s l -> length c = length s -> (forall y, In y s -> u y = values s c y) ->
  sum_over l (prod x) u = amplitude x s l c.
Proof.
  intros [H N] L E. unfold InnerSpec.amplitude. apply (dep_sum r0 radd l (s ++ l) s).
  - pose proof (chain_dep r1 rmul x _ l H) as D. now rewrite concat_sing in D.
  - intros y Hy. apply in_app_or in Hy. tauto. - exact E.
Qed.
Lemma concat_pairs (a b : list ix) : length a = length b -> Permutation (concat (map (fun p => [fst p; snd p]) (combine a b))) (a ++ b).
Proof.
  revert b; induction a as [|x a IH]; intros [|y b] L; cbn in *; try discriminate; [constructor|]. rewrite IH by lia. constructor. apply Permutation_middle.
Qed.
Lemma pairs_In (a b : list ix) y : length a = length b -> In y (concat (map (fun p => [fst p; snd p]) (combine a b))) <-> In y (a ++ b).
Proof. intros L. split; apply Permutation_in; [|symmetry]; now apply concat_pairs. Qed.
Lemma nth_pairs (a b : list ix) n d : length a = length b -> n < length a -> nth n (map (fun p => [fst p; snd p]) (combine a b)) [] = [nth n a d; nth n b d].
Proof. revert b n; induction a as [|x a IH]; intros [|y b] [|n] L H; cbn in *; try lia; auto. apply IH; lia. Qed.
Lemma element_at (A : mps) ins outs l c c' u : is_mpo A ins outs l -> length c = length ins -> length c' = length outs ->
  (forall y, In y ins -> u y = values ins c y) -> (forall y, In y outs -> u y = values outs c' y) ->
  sum_over l (prod A) u = element A ins outs l c c'.
Proof.
  intros (LL & H & N) L L' E E'. unfold InnerSpec.element. apply (dep_sum r0 radd l ((ins ++ outs) ++ l) (ins ++ outs)).
  - pose proof (chain_dep r1 rmul A _ l H) as D. eapply dep_incl; [|exact D]. intros y. rewrite !in_app_iff, (pairs_In ins outs y LL), in_app_iff. tauto.
  - intros y Hy. apply in_app_or in Hy. tauto.
  - intros y Hy. destruct (in_dec ix_dec y ins) as [I|I].
    + rewrite values_app_l by auto. auto.
    + rewrite values_app_r by auto. apply in_app_or in Hy. destruct Hy; [contradiction|auto].
Qed.
Lemma mpo_nodup (A : mps) ins outs l : is_mpo A ins outs l -> NoDup (concat (map (fun p => [fst p; snd p]) (combine ins outs)) ++ l).
Proof.
  intros (LL & H & N). rewrite app_assoc in N. eapply Permutation_NoDup; [|exact N]. apply Permutation_app_tail. symmetry. now apply concat_pairs.
Qed.
Lemma mps_nodup (x : mps) s l : is_mps x s l -> NoDup (concat (map (fun a => [a]) s) ++ l).
Proof. intros [_ N]. now rewrite concat_sing. Qed.
Lemma chain_tensors (x : mps) SS l : chain_on [] x SS l -> NoDup (concat SS ++ l) -> forall t, In t x -> proper t /\ NoDup (nis t).
Proof. intros H N t Ht. split; [now apply (chain_proper x [] SS l H)|now apply (chain_nodup x SS l H N)]. Qed.

(** ** innerC(psi,phi) *)
Lemma lk_app_map s s' l : NoDup s -> length s' = length s -> (forall y, In y l -> ~ In y s) -> map (lk s s') (s ++ l) = s' ++ l.
Proof. intros N L D. rewrite map_app, lk_map by auto. f_equal. now apply map_other. Qed.

Lemma bra k (x x1 : mps) s l s' : is_mps x s l -> Forall2 (img conj (lk s s')) x x1 -> NoDup s' -> map ixdim s' = map ixdim s -> disjoint s' l ->
  used_below k (s' ++ l) ->
  exists xd, simLinks k x1 = Ok xd /\ chain_on [] xd (map (fun a => [a]) s') (sims k l) /\ NoDup (s' ++ sims k l) /\
    forall u c, length c = length s -> (forall y, In y s' -> u y = values s' c y) -> sum_over (sims k l) (prod xd) u = conj (amplitude x s l c).
Proof.
  intros HX F N D DJ U. pose proof HX as [H N0]. pose proof N0 as N1. apply NoDup_app_iff in N1. destruct N1 as (Ns & Nl & Nsl).
  assert (LN : length s' = length s) by (rewrite <- (map_length ixdim s'), D; apply map_length).
  assert (FL : forall y, In y l -> lk s s' y = y) by (intros y Hy; apply lk_other; intros K; apply (Nsl y); auto).
  destruct (sim_img k x (map (fun a => [a]) s) l conj (lk s s') x1 H F hom_conj) as (xd & E & C & ND & _ & V).
  - rewrite concat_sing, lk_app_map by (auto; intros y Hy K; apply (Nsl y); auto). apply NoDup_app_iff. auto.
  - exact FL.
  - intros. now apply lk_dim.
  - rewrite concat_sing, lk_map by auto. exact U.
  - rewrite concat_sing, lk_map in ND by auto. exists xd. split; [exact E|]. split; [|split; [exact ND|]].
    + replace (map (map (lk s s')) (map (fun a => [a]) s)) with (map (fun a => [a]) s') in C; auto.
      rewrite map_map. cbn [map]. rewrite <- (lk_map s s') at 1 by auto. now rewrite map_map.
    + intros u c Lc HU. rewrite V. f_equal. apply amplitude_at; auto. intros y Hy. rewrite HU by (pose proof (in_map (lk s s') s y Hy) as Q; rewrite lk_map in Q; auto). now apply values_lk.
Qed.
Lemma is_mps_dag x s l : is_mps x s l -> is_mps (dag conj x) s l.
Proof.
  intros [H N]. split; auto. pose proof (chain_img conj (fun y => y) x _ [] _ _ (img_dag conj x) H) as C. cbn [map] in C.
  rewrite map_id in C. replace (map (map (fun y => y)) (map (fun s0 => [s0]) s)) with (map (fun s0 : ix => [s0]) s) in C; auto.
  rewrite map_map. reflexivity.
Qed.
Lemma mps_len (x : mps) s l : is_mps x s l -> length s = length x /\ S (length l) = length x.
Proof. intros [H _]. apply chain_len in H. now rewrite map_length in H. Qed.
Lemma mpo_len (A : mps) i o l : is_mpo A i o l -> length i = length A /\ length o = length A /\ S (length l) = length A.
Proof. intros (LL & H & _). apply chain_len in H. rewrite map_length, combine_length in H. lia. Qed.
Lemma dag_len x : length (dag conj x) = length x.
Proof. apply map_length. Qed.
Lemma chain_perm (x : mps) s l : is_mps x s l -> Permutation (concat (map nis x)) (s ++ l ++ l).
Proof. intros [H _]. pose proof (chain_concat x [] _ l H) as P. cbn [app] in P. now rewrite concat_sing in P. Qed.
Lemma mpo_perm (A : mps) i o l : is_mpo A i o l -> Permutation (concat (map nis A)) ((i ++ o) ++ l ++ l).
Proof. intros (LL & H & _). pose proof (chain_concat A [] _ l H) as P. cbn [app] in P. rewrite P. apply Permutation_app_tail. now apply concat_pairs. Qed.

Theorem inner_spec k x y sx lx sy ly : is_mps x sx lx -> is_mps y sy ly -> map ixdim sy = map ixdim sx -> disjoint sy lx ->
  used_below k (lx ++ sy ++ ly) ->
  innerC r0 radd rmul conj k x y = Ok (over sy (fun c => conj (amplitude x sx lx c) * amplitude y sy ly c)).
Proof.
  intros HX HY D DJ U. pose proof (mps_len _ _ _ HX) as [L1 L2]. pose proof (mps_len _ _ _ HY) as [L3 L4].
  assert (LN : length sy = length sx) by (rewrite <- (map_length ixdim sy), D; apply map_length).
  unfold innerC. rewrite (proj2 (Nat.eqb_eq _ _)) by lia. cbn [negb]. rewrite (siteInds_mps y sy ly HY). cbn [obind].
  pose proof (is_mps_dag _ _ _ HX) as HXd. destruct (replaceSiteInds_mps (dag conj x) sx lx sy HXd D) as (x1 & E1 & F1). rewrite E1. cbn [obind].
  pose proof (img_trans _ _ _ _ _ _ _ (img_dag conj x) F1) as F. cbn beta in F.
  pose proof HY as [CY NY]. pose proof NY as NY0. apply NoDup_app_iff in NY0. destruct NY0 as (Ny & Nly & Nyy).
  destruct (bra k x x1 sx lx sy HX F Ny D DJ) as (xd & E2 & CX & NX & V).
  { intros z Hz. apply U. rewrite !in_app_iff in *. tauto. } rewrite E2. cbn [obind].
  set (lx' := sims k lx) in *. pose proof (chain_len _ _ _ _ CX) as [L5 _]. rewrite map_length in L5.
  assert (ND : NoDup (sy ++ ly ++ lx')).
  { rewrite app_assoc. apply NoDup_app_iff. split; [exact NY|]. split; [apply NoDup_app_iff in NX; tauto|]. intros z Hz Hz'. apply sims_ge in Hz'.
    specialize (U z ltac:(rewrite !in_app_iff in *; tauto)). lia. }
  rewrite (contract_net r0 r1 radd rmul rsub ropp RT _ (sy ++ ly ++ lx')); auto.
  - f_equal. pose proof (chain_dep r1 rmul y _ ly CY) as DY. rewrite concat_sing in DY. pose proof (chain_dep r1 rmul xd _ lx' CX) as DX. rewrite concat_sing in DX.
    rewrite (sum_app r0 radd).
    transitivity (sum_over sy (fun u => sum_over ly (prod y) u * sum_over lx' (prod xd) u) (fun _ => 0)).
    + apply (sum_ext_in r0 radd). intros u _ _. transitivity (sum_over (ly ++ lx') (fun t => prod y t * prod xd t) u).
      * apply (sum_ext_in r0 radd). intros t _ _. apply zip2_prod. lia.
      * apply (sum_factor r0 r1 radd rmul rsub ropp RT ly lx' (sy ++ ly) (sy ++ lx')); auto.
        -- intros z Hz K. apply in_app_or in K. destruct K as [K|K]; [apply (Nyy z); auto|]. apply sims_ge in K. specialize (U z ltac:(rewrite !in_app_iff in *; tauto)). lia.
        -- intros z Hz K. apply sims_ge in Hz. specialize (U z ltac:(rewrite !in_app_iff in *; tauto)). lia.
    + rewrite <- (over_sum r0 radd); auto.
      * apply (over_ext r0 radd). intros c Lc _. rewrite (V _ c) by (auto; lia). rewrite (amplitude_at y sy ly c) by auto. ring.
      * apply dep_mul; [apply (dep_sum r0 radd ly (sy ++ ly))|apply (dep_sum r0 radd lx' (sy ++ lx'))]; auto; intros z Hz; apply in_app_or in Hz; tauto.
  - destruct y; [cbn in *; lia|]. destruct xd; [cbn in *; lia|]. discriminate.
  - intros t Ht. apply zip2_In in Ht. destruct Ht as [Ht|Ht].
    + apply (chain_tensors y _ ly CY (mps_nodup _ _ _ HY) t Ht).
    + apply (chain_tensors xd _ lx' CX); [now rewrite concat_sing|exact Ht].
  - rewrite zip2_nis by lia. rewrite (chain_perm y sy ly HY), (chain_perm xd sy lx' (Logic.conj CX NX)).
    apply (Permutation_count_occ ix_dec). intros e. rewrite !count_occ_app. lia.
Qed.
End Inner.
