(** Hermitian diagonalisation of a dense tensor. *)
From Coq Require Import List Arith Lia Ring Bool Permutation.
From Verif Require Import Util RangeModel RangeSpec RangeProofs TensorModel TensorSpec TensorProofs SemProofs ContractModel DenseModel DenseProofs
  ContractProps QdSum CombinerModel CombinerProps QnModel QdModel QdAdd SvdModel SvdSpec SvdRank SvdMat SvdFactor SvdBlocks SvdDense HermSpec HermModel HermPairs HermMat.
Import ListNotations.
Open Scope outcome_scope.
Local Arguments Nat.sub : simpl never.

Section Dense.
Context {R : Type} (r0 r1 : R) (radd rmul rsub : R -> R -> R) (ropp : R -> R).
Context (RT : ring_theory r0 r1 radd rmul rsub ropp eq).
Add Ring RRhd : RT.
Context (conj : R -> R) (HC : conjugation radd rmul conj).
Context (heev : nat -> list R -> option (list R * list R)).
Hypothesis Hev : exact_heev r0 r1 radd rmul conj heev.
Context {J : Type} (jeq : J -> J -> bool) (jdim : J -> nat) (mk : nat -> nat -> J).
Hypothesis jeq_spec : forall a b, jeq a b = true <-> a = b.
Context (keep : list (list R) -> list nat) (clamp : R -> R).
Hypothesis Hkeep : keeps keep.
Hypothesis mk_dim : forall n d, jdim (mk n d) = d.
Hypothesis mk_inj : forall n n' d d', mk n d = mk n' d' -> n = n'.
Notation I := (J * nat)%type.
Notation ieq := (ieqp jeq).
Notation idim := (jdimp jdim).
Notation cm := (cm r0).
Notation elt := (elt r0 idim).
Notation tensor := (tensor idim).
Notation ieq_spec := (ieqp_spec jeq jeq_spec).
Notation diag2 := (diag2 r0 ropp conj heev jeq jdim mk keep clamp).
Notation ddiag := (ddiag r0 ropp conj heev jeq jdim mk keep clamp).
Notation factored := (factored r0 r1 radd rmul conj).
Notation sum := (sum_below r0 radd).

Lemma pdim p x : idim (primep p x) = idim x.
Proof. reflexivity. Qed.
Lemma active_pair (c : I) p is : 0 < p -> Permutation is [c; primep p c] -> exists i1 i2, is = [i1; i2] /\ active i1 i2 = (c, p).
Proof.
  intros Hp PM. assert (is = [c; primep p c] \/ is = [primep p c; c]) as [-> | ->].
  { pose proof (Permutation_length PM) as L. destruct is as [|a [|b [|]]]; try discriminate. apply Permutation_length_2_inv. now symmetry. }
  - do 2 eexists. split; [reflexivity|]. unfold active, primep. cbn [fst snd]. destruct (Nat.ltb_spec (snd c) (snd c + p)); [|lia]. f_equal. lia.
  - do 2 eexists. split; [reflexivity|]. unfold active, primep. cbn [fst snd]. destruct (Nat.ltb_spec (snd c + p) (snd c)); [lia|]. f_equal. lia.
Qed.

Lemma diag2_spec (tr : bool) is A (c : I) p : 0 < p -> tensor is A -> Permutation is [c; primep p c] ->
  (forall s s' : I -> nat, s' c = s (primep p c) -> s' (primep p c) = s c -> inrange idim is s -> elt is A s' = conj (elt is A s)) ->
  (exists (d U : list R), let ks := if tr then keep [d] else [length d] in let D := kept ks [d] in let l := (mk 0 (length D), 0) in
     diag2 tr is A = Ok (([c; l], U), (l, p, if tr then map clamp D else D)) /\ 0 < length D /\ length U = idim c * length D /\
     exists A2, (forall s, elt is A s = A2 (s c) (s (primep p c))) /\
       factored (idim c) (idim c) A2 (fun u x => conj (cm (idim c) U u x)) D (cm (idim c) U) (discarded ks [d]) /\
       (discarded ks [d] = [] -> forall i j, i < idim c -> j < idim c -> sum (length D) (fun r => rmul (conj (cm (idim c) U i r)) (cm (idim c) U j r)) = kron r0 r1 i j)) \/
  (diag2 tr is A = Err /\ heev_fails heev).
Proof.
  intros Hp HT PM HH. destruct (active_pair c p is Hp PM) as (i1 & i2 & EI & EA). 
  assert (DE : diag2 tr is A = let! M := toMatRefc ieq idim is A c (primep p c) in
      let! (u, d) := diagHc r0 ropp conj heev M in
      let k := if tr then nth 0 (keep [d]) 0 else length d in
      let l := (mk 0 k, 0) in
      Ok (([c; l], firstn (idim c * k) u), (l, p, if tr then map clamp (firstn k d) else d))) by (rewrite EI; unfold HermModel.diag2; rewrite EA; reflexivity).
  rewrite DE. clear DE.
  destruct (toMat_spec r0 ieq idim ieq_spec is A c (primep p c) HT PM) as (M & EM & GM & RM & CM & HA). rewrite EM. cbn [obind].
  rewrite pdim in CM. assert (NE : c <> primep p c) by (intros K; apply (f_equal snd) in K; cbn in K; lia).
  assert (HM : forall i j, i < rn M -> j < rn M -> velt r0 M i j = conj (velt r0 M j i)).
  { intros i j Hi Hj. set (st := fun (a b : nat) (x : I) => if ieq x c then a else b).
    assert (S1 : forall a b, st a b c = a) by (intros; unfold st; now rewrite (proj2 (ieq_spec _ _) eq_refl)).
    assert (S2 : forall a b, st a b (primep p c) = b) by (intros; unfold st; destruct (ieq (primep p c) c) eqn:E; auto; apply ieq_spec in E; congruence).
    pose proof (HA (st i j)) as K1. pose proof (HA (st j i)) as K2. rewrite S1, S2 in K1, K2. rewrite <- K1, <- K2. apply HH; rewrite ?S1, ?S2; auto.
    intros x Hx. apply (Permutation_in _ PM) in Hx as [<-|[<-|[]]]; rewrite ?S1, ?S2, ?pdim; lia. }
  destruct (diagHc_spec r0 r1 radd rmul rsub ropp RT conj HC heev Hev M GM ltac:(congruence) HM) as [(u & d & E & (L1 & L2 & HD & RO))|(E & K)]; rewrite E; cbn [obind]; auto.
  left. rewrite RM in *. set (n := idim c) in *. set (ks := if tr then keep [d] else [length d]).
  assert (NP : 0 < n) by (destruct GM as (_ & _ & K & _); rewrite RM in K; exact K).
  assert (exists k, ks = [k] /\ 0 < k <= length d) as (k & EK & K0 & K1).
  { unfold ks. destruct tr; [|exists (length d); split; [reflexivity|lia]]. destruct (Hkeep [d]) as (LK & BK & NK). cbn [length] in LK. destruct (keep [d]) as [|k [|]]; try discriminate. exists k. split; auto.
    split; [|exact (BK 0)]. destruct NK as (k' & Hk' & P); [|cbn in Hk'; destruct Hk' as [<-|[]]; exact P]. exists d. split; [now left|]. intros ->. cbn in L1. lia. }
  assert (EKK : (if tr then nth 0 (keep [d]) 0 else length d) = k) by (unfold ks in EK; destruct tr; [rewrite EK; reflexivity|injection EK; auto]).
  rewrite EKK. exists d, (firstn (n * k) u). cbv zeta. fold ks. rewrite EK. cbn [kept discarded]. rewrite !app_nil_r. rewrite firstn_length, Nat.min_l by lia.
  split; [|split; [exact K0|split; [|]]].
  - do 3 f_equal. destruct tr; auto. symmetry. apply firstn_all2. cbn in EKK. lia.
  - rewrite firstn_length, L2. apply Nat.min_l. apply Nat.mul_le_mono_l. lia.
  - exists (velt r0 M). split; [exact HA|]. split.
    + pose proof (dec_factored r0 r1 radd rmul rsub ropp RT conj HC M (map conj u) d u k HD K1) as F. rewrite RM, CM in F. fold n in F.
      destruct F as (K & EE & F1 & F2 & F3 & F4 & F5 & F6 & F7 & F8 & F9 & F10). exists K, EE. repeat (split; [assumption|]). split; [|assumption].
      intros i x Hi Hx. rewrite <- F9 by assumption. assert (Hx' : x < k) by (apply (f_equal (@length R)) in F7; rewrite firstn_length, map_length in F7; lia).
      rewrite !(cm_firstn r0) by assumption. symmetry. apply (cm_conj r0 conj n n); auto. lia.
    + intros ED i j Hi Hj. assert (KN : k = n) by (apply (f_equal (@length R)) in ED; rewrite skipn_length in ED; cbn in ED; lia). rewrite KN.
      rewrite <- RO by assumption. apply sum_ext. intros r Hr. rewrite !(cm_firstn r0) by lia. reflexivity.
Qed.

Lemma joint_primed p cs s : joint idim (map (primep p) cs) s = joint idim cs (primed p s).
Proof. unfold joint. rewrite !map_map. reflexivity. Qed.

Lemma ddiag_spec (debug tr : bool) p L AA A junk : tensor AA A -> paired p L AA -> hermitian conj idim p L AA (elt AA A) -> (forall n d k, ~ In (mk n d, k) AA) ->
  (exists is Uix U l D (d : list R), let ks := if tr then keep [d] else [length d] in let D0 := kept ks [d] in
     ddiag debug tr AA A junk = Ok ((Uix, U), (l, p, D)) /\ Permutation is L /\ D = (if tr then map clamp D0 else D0) /\
     tensor Uix U /\ ~ In l AA /\ ~ In (prime p l) AA /\ snd l = 0 /\ idim l = length D0 /\ 0 < length D0 /\ (forall x, In x Uix <-> x = l \/ In x L) /\
     eig_of r0 r1 radd rmul conj ieq idim rsub p AA is (elt AA A) (elt Uix U) l D0 [d] ks) \/
  (ddiag debug tr AA A junk = Err /\ heev_fails heev).
Proof.
  intros HT HP HH Hfr. pose proof HT as (ND & Hp & _). destruct (find_pairs_spec jeq jeq_spec p L AA ND HP) as (is & EF & PI). pose proof (paired_perm p L is AA PI HP) as HPi.
  assert (HHi : hermitian conj idim p is AA (elt AA A)).
  { intros s s' Hs Hx. apply HH; auto. intros x Hi. apply Hx. apply (Permutation_in _ (Permutation_sym PI)), Hi. }
  assert (PP : 0 < p) by (eapply p_pos; eauto).
  assert (I1 : incl is AA) by (intros x Hx; eapply inL; eauto). assert (I2 : incl (map (primep p) is) AA) by (intros x Hx; apply in_map_iff in Hx as (y & <- & Hy); apply (inLp p is AA HPi _ Hy)).
  assert (DJ : forall x, In x is -> ~ In x (map (primep p) is)) by (intros x Hx; eapply disjLp; eauto).
  pose proof (Permutation_NoDup (proj1 (proj2 HPi)) ND) as NDD. assert (N1 : NoDup is) by (eapply nda_l; eauto). assert (N2 : NoDup (map (primep p) is)) by (eapply nda_r; eauto).
  unfold HermModel.ddiag. rewrite EF. cbn [obind]. set (n := size (map idim is)). set (c := (mk 1 n, 0) : I).
  assert (isne : is <> []) by (destruct HPi; assumption).
  assert (CU : combiner_dim idim is = Ok n).
  { pose proof (prod_loop_spec idim is 1) as K. unfold combiner_dim. destruct is; [congruence|]. rewrite K, Nat.mul_1_l. reflexivity. }
  rewrite CU. cbn [obind]. fold c.
  assert (Dc : idim c = n) by apply mk_dim.
  assert (CBU : combines idim c is) by (split; [now rewrite Dc|constructor; auto; intros K; apply (Hfr 1 n 0), I1, K]).
  assert (CBV : combines idim (primep p c) (map (primep p) is)).
  { split; [|constructor; auto; intros K; apply (Hfr 1 n (0 + p)), I2, K]. rewrite pdim, Dc. pose proof (prod_loop_spec idim (map (primep p) is) 1) as K. unfold combiner_dim. destruct is; [congruence|]. cbn [map] in *. rewrite K, Nat.mul_1_l.
    unfold n. cbn [map]. rewrite map_map. reflexivity. }
  destruct (C17_combine r0 ieq idim ieq_spec debug AA A c is (junk 0) HT CBU (Hfr 1 n 0) I1) as (M1 & A1 & E1 & T1 & Q1 & V1). rewrite E1. cbn [obind].
  assert (cne : c <> primep p c) by (intros K; apply (f_equal snd) in K; cbn in K; lia).
  assert (HvN1 : ~ In (primep p c) M1) by (intros K; apply Q1 in K as [K|[K _]]; [congruence|]; apply (Hfr 1 n (0 + p)), K).
  assert (IVN : incl (map (primep p) is) M1) by (intros x Hx; apply Q1; right; split; [apply I2, Hx|intros K; exact (DJ x K Hx)]).
  destruct (C17_combine r0 ieq idim ieq_spec debug M1 A1 (primep p c) (map (primep p) is) (junk 1) T1 CBV HvN1 IVN) as (M2 & A2 & E2 & T2 & Q2 & V2). rewrite E2. cbn [obind].
  assert (P2 : Permutation M2 [c; primep p c]).
  { apply NoDup_Permutation; [apply T2| |].
    - constructor; [cbn; intuition congruence|constructor; [cbn; auto|constructor]].
    - intros x. rewrite Q2, Q1. cbn. split.
      + intros [->|[[->|[K1 K2]] K3]]; auto. exfalso. pose proof (Permutation_in _ (proj1 (proj2 HPi)) K1) as K. apply in_app_or in K. tauto.
      + intros [<-|[<-|[]]]; auto. right. split; auto. intros K. apply (Hfr 1 n 0), I2, K. }
  assert (NUm : numbering idim is n (joint idim is)) by (apply (numbering_joint ieq idim ieq_spec); auto).
  set (NN := joint idim is) in *.
  assert (EW : forall s, inrange idim AA s -> exists t, t c = NN s /\ t (primep p c) = Np p NN s /\ inrange idim M2 t /\ elt M2 A2 t = elt AA A s).
  { intros s Hs. exists (withc ieq idim (primep p c) (map (primep p) is) (withc ieq idim c is s)).
    assert (W1 : withc ieq idim (primep p c) (map (primep p) is) (withc ieq idim c is s) c = NN s).
    { unfold withc at 1. rewrite (override_ne ieq ieq_spec) by exact cne. unfold withc. apply (override_self ieq ieq_spec). }
    assert (W2 : withc ieq idim (primep p c) (map (primep p) is) (withc ieq idim c is s) (primep p c) = Np p NN s).
    { unfold withc at 1. rewrite (override_self ieq ieq_spec). rewrite (joint_withc ieq idim ieq_spec) by (intros K; apply (Hfr 1 n 0), I2, K). apply joint_primed. }
    split; [exact W1|]. split; [exact W2|].
    assert (B1 : NN s < n) by (apply NUm; intros x Hx; apply Hs, I1, Hx).
    assert (B2 : Np p NN s < n) by (apply NUm; intros x Hx; unfold primed; rewrite <- (pdim p); apply Hs; apply (inLp p is AA HPi x Hx)).
    split.
    - intros x Hx. apply (Permutation_in _ P2) in Hx as [<-|[<-|[]]]; rewrite ?W1, ?W2, ?pdim, Dc; assumption.
    - rewrite V2; [now apply V1|]. intros x Hx. apply Q1 in Hx as [->|[Hx _]].
      + unfold withc. rewrite (override_self ieq ieq_spec), Dc. exact B1.
      + unfold withc. rewrite (override_ne ieq ieq_spec); [apply Hs, Hx|]. intros ->. apply (Hfr 1 n 0), Hx. }
  assert (M2ext : forall t t', t c = t' c -> t (primep p c) = t' (primep p c) -> elt M2 A2 t = elt M2 A2 t').
  { intros t t' K1 K2. apply elt_ext. intros x Hx. apply (Permutation_in _ P2) in Hx as [<-|[<-|[]]]; assumption. }
  assert (HM2 : forall s s', s' c = s (primep p c) -> s' (primep p c) = s c -> inrange idim M2 s -> elt M2 A2 s' = conj (elt M2 A2 s)).
  { intros s s' K1 K2 Hs.
    assert (B1 : s c < n) by (rewrite <- Dc; apply Hs, (Permutation_in _ (Permutation_sym P2)); cbn; auto).
    assert (B2 : s (primep p c) < n) by (rewrite <- Dc, <- (pdim p); apply Hs, (Permutation_in _ (Permutation_sym P2)); cbn; auto).
    set (A2f := fun u v => elt M2 A2 (fun x => if ieq x c then u else v)).
    assert (S1 : forall t, elt M2 A2 t = A2f (t c) (t (primep p c))).
    { intros t. unfold A2f. apply M2ext; [now rewrite (proj2 (ieq_spec _ _) eq_refl)|]. destruct (ieq (primep p c) c) eqn:E; auto. apply ieq_spec in E. congruence. }
    rewrite !S1, K1, K2. apply (herm_mat conj ieq idim ieq_spec pdim p is AA n NN HPi ND NUm (elt AA A) A2f); auto.
    intros t Ht. destruct (EW t Ht) as (t' & W1 & W2 & _ & W4). rewrite <- W4, S1, W1, W2. reflexivity. }
  destruct (diag2_spec tr M2 A2 c p PP T2 P2 HM2) as [(d & U & E & kp & LU & AA2 & HA & HF & HCp)|(E & K1)]; cbv zeta in E; rewrite E; cbn [obind fst snd]; auto.
  set (ks := if tr then keep [d] else [length d]) in *. set (D := kept ks [d]) in *. set (k := length D) in *. set (l := (mk 0 k, 0) : I) in *.
  assert (Pn : 0 < n) by (apply size_pos; intros e He; apply in_map_iff in He as (x & <- & Hx); apply Hp, I1, Hx).
  assert (Dl : idim l = k) by apply mk_dim.
  assert (cl : c <> l) by (intros K; apply (f_equal fst) in K; cbn in K; apply mk_inj in K; discriminate).
  assert (TU : tensor [c; l] U).
  { split; [|split].
    - constructor; [cbn; intuition congruence|constructor; [cbn; auto|constructor]].
    - cbn. intros x [<-|[<-|[]]]; rewrite ?Dc, ?Dl; auto.
    - apply full2. now rewrite Dl. }
  destruct (C17_uncombine r0 ieq idim ieq_spec debug [c; l] U c is (junk 2) TU CBU) as (Uix & EU & TUx & MU & VU).
  { now left. }
  { intros x Hx. split; [|apply Hp, I1, Hx]. intros [<-|[<-|[]]]; eapply Hfr, I1, Hx. }
  rewrite EU. cbn [obind]. left. exists is, Uix, U, l, (if tr then map clamp D else D), d. cbv zeta. fold ks. fold D. split; [reflexivity|]. split; [exact PI|]. split; [reflexivity|]. split; [exact TUx|].
  assert (MU' : forall x, In x Uix <-> x = l \/ In x is).
  { intros x. rewrite MU. cbn. split; [intros [K|[[<-|[<-|[]]] K]]; tauto|]. intros [->|K]; auto. }
  split; [apply Hfr|]. split; [apply Hfr|]. split; [reflexivity|]. split; [exact Dl|]. split; [exact kp|].
  split; [intros x; rewrite MU'; split; (intros [K|K]; [auto|right; eapply Permutation_in; [|exact K]; auto using Permutation_sym])|].
  rewrite Dc in *.
  apply (eig_ok r0 r1 radd rmul rsub ropp RT conj HC ieq idim ieq_spec pdim p is AA n NN HPi ND Hp NUm _ _ AA2 (cm n U) l [d] ks HF); auto.
  - intros s Hs. destruct (EW s Hs) as (t & W1 & W2 & _ & W4). rewrite <- W4, HA, W1, W2. reflexivity.
  - intros s s' Hs. apply elt_ext. auto.
  - intros s x Hs Hx. rewrite VU.
    + rewrite elt2, Dc. f_equal.
      * unfold withc. rewrite (override_self ieq ieq_spec). apply NUm. intros y Hy. apply (override_ne ieq ieq_spec). intros ->. eapply Hfr, I1, Hy.
      * unfold withc. rewrite (override_ne ieq ieq_spec) by congruence. apply (override_self ieq ieq_spec).
    + intros y Hy. apply MU' in Hy as [->|Hy]; [rewrite (override_self ieq ieq_spec), Dl; exact Hx|].
      rewrite (override_ne ieq ieq_spec); [apply Hs, Hy|]. intros ->. eapply Hfr, I1, Hy.
Qed.
End Dense.
