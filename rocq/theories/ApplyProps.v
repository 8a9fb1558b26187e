(** C60: applyMPO returns the operator applied to the state, with its centre on site 1. *)
From Coq Require Import ZArith List Bool Arith Lia Ring.
From Verif Require Import Util BigSum MpsModel MpsTensor MpsSpec MpsProofs LocalSem OrtSpec OrtModel OrtProofs OrtProps ApplySpec ApplyModel ApplyProofs.
Import ListNotations.
Local Open Scope outcome_scope.

Section Props.
(** Numbers with a conjugation for which |x|^2 is definite. *)
Context {R : Type} (r0 r1 : R) (radd rmul rsub : R -> R -> R) (ropp : R -> R) (conj : R -> R).
Context (RT : ring_theory r0 r1 radd rmul rsub ropp eq).
Context (conj0 : conj r0 = r0) (conj1 : conj r1 = r1)
  (conj_add : forall x y, conj (radd x y) = radd (conj x) (conj y))
  (conj_mul : forall x y, conj (rmul x y) = rmul (conj x) (conj y))
  (conj_conj : forall x, conj (conj x) = x)
  (DEF : definite r0 radd rmul conj).
Add Ring RRapr : RT.
(** Indices, compared by neqb. *)
Context {N : Type} (neqb : N -> N -> bool) (NEQ : forall i j, neqb i j = true <-> i = j).
Notation tensor := (@tensor R).
Notation amp := (amplitude r0 r1 radd rmul).
Notation good := (MpsSpec.good r0 r1 radd rmul conj).
Notation applied := (applied r0 r1 radd rmul).
Notation norm2 := (norm2 r0 r1 radd rmul conj).
(** The eigensolver, the inverse of the norm and the method Fit. *)
Context (diag : option nat -> nat -> nat -> @pmatrix R -> outcome (nat * (nat -> nat -> nat -> R)))
  (DOK : diag_ok r0 r1 radd rmul conj diag) (invnorm : R -> R)
  (fit : list (mpoT R N) -> mps tensor -> list N -> outcome (mps tensor * list N)).
Notation applyMPO := (applyMPO r0 radd rmul conj neqb diag invnorm fit).
Notation apply_list := (apply_list r0 radd rmul conj diag invnorm).

Lemma orients_ok : forall ns (Ms : list (mpoT R N)) ns' ks, operator_on ns Ms ns' ks -> orients neqb ns Ms = Ok (List.combine ns' ks).
Proof.
  induction ns as [|n ns IH]; intros [|M Ms] [|n' ns'] [|K ks] H; cbn in H; try contradiction; [reflexivity|].
  destruct H as [A H]. cbn [orients List.combine]. unfold orient. destruct A as [(E & -> & ->)|(E1 & E2 & -> & ->)].
  - rewrite (proj2 (NEQ _ _) E). cbn [obind]. rewrite (IH _ _ _ H). reflexivity.
  - destruct (neqb (nA M) n) eqn:X; [apply NEQ in X; contradiction|]. rewrite (proj2 (NEQ _ _) E2). cbn [obind]. rewrite (IH _ _ _ H). reflexivity.
Qed.
Lemma operator_len : forall ns (Ms : list (mpoT R N)) ns' ks, operator_on ns Ms ns' ks -> length Ms = length ns /\ length ns' = length ns /\ length ks = length ns.
Proof.
  induction ns as [|n ns IH]; intros [|M Ms] [|n' ns'] [|K ks] H; cbn in H; try contradiction; [auto|]. destruct H as [_ H]. apply IH in H. cbn. lia.
Qed.
Lemma map_fst_combine {A B} : forall (l : list A) (m : list B), length l = length m -> map fst (List.combine l m) = l.
Proof. induction l as [|x l IH]; intros [|y m] H; try discriminate; cbn; [reflexivity|]. f_equal. apply IH. cbn in H. lia. Qed.
Lemma map_snd_combine {A B} : forall (l : list A) (m : list B), length l = length m -> map snd (List.combine l m) = m.
Proof. induction l as [|x l IH]; intros [|y m] H; try discriminate; cbn; [reflexivity|]. f_equal. apply IH. cbn in H. lia. Qed.

Lemma nth_error_same {A} : forall l m : list A, (forall k, nth_error l k = nth_error m k) -> l = m.
Proof.
  induction l as [|x l IH]; intros [|y m] H; [reflexivity|specialize (H 0%nat); discriminate|specialize (H 0%nat); discriminate|].
  pose proof (H 0%nat) as H0. cbn in H0. injection H0 as ->. f_equal. apply IH. intros k. apply (H (S k)).
Qed.
(** The two ends of a list of at least two tensors. *)
Lemma split_last {A} (l : list A) : 2 <= length l -> exists z y rest, rev l = z :: y :: rest /\ l = rev (y :: rest) ++ [z].
Proof.
  intros H. destruct (rev l) as [|z [|y rest]] eqn:E; try (apply (f_equal (@length _)) in E; rewrite rev_length in E; cbn in E; lia).
  exists z, y, rest. split; [reflexivity|]. rewrite <- (rev_involutive l), E. reflexivity.
Qed.
Lemma proper_ends (ts : list tensor) (ks : list (kten R)) y rest x K : List.combine ts ks = rev (y :: rest) ++ [(x, K)] -> length ks = length ts -> proper ts -> kproper ks ->
  linked 1 (rev (map fst (y :: rest))) (tl x) /\ klinked 1 (rev (map snd (y :: rest))) (kl K) /\ tr x = 1 /\ kr K = 1.
Proof.
  intros E LN P Q. unfold proper in P. unfold kproper in Q.
  rewrite <- (map_fst_combine ts ks) in P by lia. rewrite <- (map_snd_combine ts ks) in Q by lia. rewrite E, map_app in P, Q. cbn [map fst snd] in P, Q.
  apply linked_app in P as (e & P1 & P2 & P3). apply klinked_app in Q as (f & Q1 & Q2 & Q3). cbn in P3, Q3. rewrite <- !map_rev. subst. auto.
Qed.

Lemma apply_list_ok maxdim ts ks ts' : length ks = length ts -> proper ts -> kproper ks -> apply_list maxdim false (List.combine ts ks) = Ok ts' ->
  2 <= length ts /\ length ts' = length ts /\ proper ts' /\ sites ts' = outs ks /\
  Forall (right_orth r0 r1 radd rmul conj) (List.tl ts') /\ (forall k t, S k < length ts -> nth_error ts' k = Some t -> tj t = true) /\
  ((forall q, maxdim = Some q -> Forall (fun d => d <= q) (product_links ks ts)) -> forall c, Forall2 lt c (outs ks) -> amp ts' c = applied ks ts c).
Proof.
  intros LN P Q H. unfold ApplyModel.apply_list in H.
  assert (LC : length (List.combine ts ks) = length ts) by (rewrite combine_length; lia).
  destruct (le_lt_dec 2 (length ts)) as [N2|N2].
  2:{ exfalso. destruct (rev (List.combine ts ks)) as [|z [|y rest]] eqn:E; try discriminate. apply (f_equal (@length _)) in E. rewrite rev_length in E. cbn in E. lia. }
  destruct (split_last (List.combine ts ks) ltac:(lia)) as ((x, K) & y & rest & E & E'). rewrite E in H.
  destruct (proper_ends _ _ _ _ _ _ E' LN P Q) as (L & M & X1 & K1).
  destruct (aloop_ok r0 r1 radd rmul rsub ropp conj RT conj0 conj1 conj_add conj_mul conj_conj diag DOK DEF invnorm maxdim (y :: rest) true (olast r0 radd rmul (x, K)) [] ts' L M X1 (Forall_nil _) H)
    as (pre & E1 & Hl & Hro & Hlk & Hs & Hj & _ & HA). rewrite app_nil_r in E1, Hro. subst pre.
  assert (NN : length ts = S (S (length rest))) by (rewrite <- LC, E', app_length, rev_length; cbn; lia).
  assert (SITES : sites (rev (map (pt r0 radd rmul) (y :: rest)) ++ [enc (olast r0 radd rmul (x, K))]) = outs ks).
  { unfold MpsSpec.sites, outs. rewrite <- (map_snd_combine ts ks) by lia. rewrite E', !map_app, <- !map_rev, !map_map. cbn [map tp enc olast op snd]. f_equal.
    apply map_ext. intros (a & b). reflexivity. }
  split; [lia|]. split; [cbn in Hl; lia|]. split; [exact Hlk|]. split; [rewrite Hs; exact SITES|]. split; [assumption|]. split.
  - intros k t Hk. apply (Hj k t). cbn [length]. lia.
  - intros W c Hc. unfold amplitude. rewrite SITES in HA. rewrite HA; [| |exact Hc].
    2:{ intros q Eq. specialize (W q Eq). unfold product_links in W. rewrite Forall_map in W.
        assert (W' : Forall (fun p => tl (fst p) * kl (snd p) <= q) (List.combine ts ks)).
        { clear - W LN. revert ks LN W. induction ts as [|t ts IH]; intros [|k ks] LN W; try discriminate; [constructor|]. cbn in *. inversion W; subst. constructor; [assumption|]. apply IH; [lia|assumption]. }
        rewrite E' in W'. apply Forall_app in W' as [W1 W2]. inversion W2; subst. split; [assumption|]. rewrite Forall_forall in *. intros z Hz. apply W1. now apply -> in_rev. }
    pose proof (Forall2_length_eq _ _ _ Hc) as LCc. unfold outs in LCc. rewrite map_length in LCc.
    rewrite <- (amplitude_pt r0 r1 radd rmul rsub ropp RT ts ks c LN P Q) by lia. unfold amplitude. rewrite E', map_app, map_rev.
    apply (chain_teq r0 r1 radd rmul) with (d := 1) (b := 1).
    + apply Forall2_app; [apply Forall2_teq_refl|]. constructor; [|constructor]. split; [reflexivity|]. split; [reflexivity|].
      split; [cbn [enc olast pt tr orr]; lia|]. cbn [enc olast pt tl tp tr te oa ow op orr oe]. intros a s b Ha Hs' Hb. apply (bsum_ext r0 radd). intros s0 _.
      replace b with 0%nat by lia. rewrite X1. reflexivity.
    + apply linked_app. exists (tl x * kl K)%nat. split; [|split; [reflexivity|exact X1]]. rewrite <- map_rev, <- (Nat.mul_1_l 1). apply linked_pt; rewrite map_rev; assumption.
    + lia.
    + rewrite SITES. exact Hc.
Qed.

Lemma holds_collect s (ts : list tensor) : holds s ts -> collect (mA s) 1 (Z.to_nat (mN s)) = Ok ts.
Proof. intros [HN HA]. rewrite HN, Nat2Z.id. now apply collect_ok. Qed.
Definition result (s : mps tensor) (ts' : list tensor) : mps tensor :=
  mkMps (mN s) (fun j => if (1 <=? j)%Z && (j <=? mN s)%Z then nth_error ts' (Z.to_nat (j - 1)) else mA s j) 0 2 (matb s) (mdo s) (mdir s).
Lemma result_good s ts ts' : mdo s = false -> holds s ts -> 2 <= length ts -> length ts' = length ts -> Forall (right_orth r0 r1 radd rmul conj) (List.tl ts') ->
  (forall k t, S k < length ts -> nth_error ts' k = Some t -> tj t = true) -> good (result s ts') /\ holds (result s ts') ts'.
Proof.
  intros Ed [HN HA] N2 L RO J.
  assert (NT : forall j, (1 <= j <= Z.of_nat (length ts))%Z -> mA (result s ts') j = nth_error ts' (Z.to_nat (j - 1))).
  { intros j Hj. cbn [mA result]. rewrite HN. destruct (Z.leb_spec 1 j); [|lia]. destruct (Z.leb_spec j (Z.of_nat (length ts))); [reflexivity|lia]. }
  split.
  - split; [exact Ed|]. cbn [mN ml mr result]. split; [lia|]. split; [lia|]. split; [lia|]. split.
    + intros j Hj. cbn [mN result] in Hj. rewrite NT by lia. destruct (nth_error ts' (Z.to_nat (j - 1))) as [t|] eqn:Et; [|apply nth_error_None in Et; lia].
      exists t. split; [reflexivity|]. intros Hlt. cbn [mN result] in Hlt. apply (J (Z.to_nat (j - 1)) t); [lia|assumption].
    + split; [intros j t Hj; cbn in Hj; lia|]. intros j t Hj Et. cbn [mN mr result] in Hj. rewrite NT in Et by lia.
      rewrite Forall_forall in RO. apply RO. destruct ts' as [|t0 ts']; [cbn in L; lia|]. cbn [List.tl].
      destruct (Z.to_nat (j - 1)) as [|k] eqn:Ek; [lia|]. cbn in Et. apply (nth_error_In _ _ Et).
  - split; [cbn [mN result]; now rewrite L|]. intros k Hk. rewrite NT by lia. f_equal. lia.
Qed.
(** What the call comes down to when K acts on x. *)
Lemma apply_unfold meth maxdim nz Ms s ns ts ns' ks : meth = None \/ meth = Some DensityMatrix -> mdo s = false -> holds s ts -> length ns = length ts -> operator_on ns Ms ns' ks -> ts <> [] ->
  applyMPO meth maxdim nz Ms s ns = let! ts' := apply_list maxdim nz (List.combine ts ks) in Ok (result s ts', ns').
Proof.
  intros ME Ed HO LN OP NE. destruct (operator_len _ _ _ _ OP) as (L1 & L2 & L3). unfold ApplyModel.applyMPO.
  assert (0 < length ts) by (destruct ts; [congruence|cbn; lia]).
  destruct (Z.eqb_spec (mN s) 0); [destruct HO; lia|]. destruct (Nat.eqb_spec (length Ms) 0); [lia|].
  assert (E : density_apply r0 radd rmul conj neqb diag invnorm maxdim nz Ms s ns = let! ts' := apply_list maxdim nz (List.combine ts ks) in Ok (result s ts', ns')).
  { unfold density_apply. rewrite Ed, (orients_ok _ _ _ _ OP). cbn [obind]. rewrite (holds_collect s ts HO). cbn [obind]. rewrite map_snd_combine, map_fst_combine by lia.
    unfold result. rewrite Ed. reflexivity. }
  destruct ME as [-> | ->]; exact E.
Qed.

(** applyMPO(K,x) for an MPS x in memory holding the chain ts with site Indices ns, and an MPO K acting on
    it (its site Indices are, at every site, that of x and a new one): if it returns, the result has
    the new site Indices, every orthogonality claim is true of it, the centre is site 1, and, unless a
    MaxDim smaller than a product of link dimensions was passed, its amplitudes are those of K applied to x. *)
Theorem C60_apply : forall meth maxdim Ms s ns s' ns2 ts ns' ks,
  meth = None \/ meth = Some DensityMatrix -> mdo s = false -> holds s ts -> proper ts -> length ns = length ts -> operator_on ns Ms ns' ks -> kproper ks ->
  applyMPO meth maxdim false Ms s ns = Ok (s', ns2) ->
  ns2 = ns' /\ good s' /\ orthoCenter s' = Ok 1%Z /\
  exists ts', holds s' ts' /\ proper ts' /\ sites ts' = outs ks /\
    ((forall q, maxdim = Some q -> Forall (fun d => d <= q) (product_links ks ts)) ->
     forall c, Forall2 lt c (outs ks) -> amp ts' c = applied ks ts c).
Proof.
  intros meth maxdim Ms s ns s' ns2 ts ns' ks ME Ed HO P LN OP Q H. destruct (operator_len _ _ _ _ OP) as (L1 & L2 & L3).
  destruct ts as [|t0 ts0] eqn:Ets.
  { exfalso. unfold ApplyModel.applyMPO in H. destruct HO as [HN _]. rewrite HN in H. discriminate. }
  rewrite <- Ets in *. rewrite (apply_unfold meth maxdim false Ms s ns ts ns' ks) in H by (auto; congruence).
  destruct (apply_list maxdim false (List.combine ts ks)) as [ts'| |] eqn:E; cbn [obind] in H; try discriminate. injection H as <- <-.
  destruct (apply_list_ok maxdim ts ks ts' ltac:(lia) P Q E) as (N2 & L & P' & S' & RO & J & AM).
  destruct (result_good s ts ts' Ed HO N2 L RO J) as [G HO']. split; [reflexivity|]. split; [assumption|]. split; [reflexivity|]. exists ts'. auto.
Qed.

(** With Normalize the result is the same multiplied by the inverse of its norm. *)
Theorem C60_normalize : forall meth maxdim Ms s ns s' ns2 ts ns' ks,
  meth = None \/ meth = Some DensityMatrix -> mdo s = false -> holds s ts -> proper ts -> length ns = length ts -> operator_on ns Ms ns' ks -> kproper ks ->
  applyMPO meth maxdim false Ms s ns = Ok (s', ns2) ->
  exists s'', applyMPO meth maxdim true Ms s ns = Ok (s'', ns2) /\ good s'' /\ orthoCenter s'' = Ok 1%Z /\
    forall ts', holds s' ts' -> exists ts'', holds s'' ts'' /\ proper ts'' /\ sites ts'' = sites ts' /\
      (forall c, length c = length ts' -> amp ts'' c = rmul (invnorm (norm2 ts')) (amp ts' c)) /\
      (rmul (rmul (conj (invnorm (norm2 ts'))) (invnorm (norm2 ts'))) (norm2 ts') = r1 -> norm2 ts'' = r1).
Proof.
  intros meth maxdim Ms s ns s' ns2 ts ns' ks ME Ed HO P LN OP Q H. destruct (operator_len _ _ _ _ OP) as (L1 & L2 & L3).
  destruct ts as [|t0 ts0] eqn:Ets.
  { exfalso. unfold ApplyModel.applyMPO in H. destruct HO as [HN _]. rewrite HN in H. discriminate. }
  rewrite <- Ets in *. rewrite (apply_unfold meth maxdim false Ms s ns ts ns' ks) in H by (auto; congruence). rewrite (apply_unfold meth maxdim true Ms s ns ts ns' ks) by (auto; congruence).
  destruct (apply_list maxdim false (List.combine ts ks)) as [ts'| |] eqn:E; cbn [obind] in H; try discriminate. injection H as <- <-.
  destruct (apply_list_ok maxdim ts ks ts' ltac:(lia) P Q E) as (N2 & L & P' & S' & RO & J & AM).
  assert (E2 : apply_list maxdim true (List.combine ts ks) = Ok (match ts' with t :: l => rescaled r0 radd rmul conj invnorm t :: l | [] => [] end)).
  { unfold ApplyModel.apply_list in *. destruct (rev (List.combine ts ks)) as [|z [|y rest]]; try discriminate. rewrite aloop_norm, E. reflexivity. }
  rewrite E2. cbn [obind]. destruct ts' as [|t ts']; [cbn in L; lia|].
  set (t' := rescaled r0 radd rmul conj invnorm t) in *.
  destruct (result_good s ts (t' :: ts') Ed HO N2 L RO) as [G HO'].
  { intros [|k] x Hk Hx; [|apply (J (S k) x Hk Hx)]. cbn in Hx. injection Hx as <-. exact (J 0%nat t Hk eq_refl). }
  eexists. split; [reflexivity|]. split; [exact G|]. split; [reflexivity|]. intros ts2 HO2.
  assert (ts2 = t :: ts').
  { destruct (result_good s ts (t :: ts') Ed HO N2 L RO J) as [_ [HN1 HA1]]. destruct HO2 as [HN2 HA2].
    assert (EL : length ts2 = length (t :: ts')) by lia. apply nth_error_same. intros k.
    destruct (le_lt_dec (length ts2) k) as [Hk|Hk].
    - transitivity (@None tensor); [|symmetry]; apply nth_error_None; lia.
    - rewrite <- HA1, <- HA2 by lia. reflexivity. }
  subst ts2. exists (t' :: ts'). split; [exact HO'|].
  assert (P2 : proper (t' :: ts')) by exact P'.
  split; [exact P2|]. split; [reflexivity|].
  assert (T1 : tl t = 1) by (destruct P' as [X _]; exact X).
  assert (NT : norm2 (t :: ts') = BigSum.bsum r0 radd (tp t) (fun s0 => BigSum.bsum r0 radd (tr t) (fun k => rmul (conj (te t 0 s0 k)) (te t 0 s0 k)))).
  { change (t :: ts') with ([] ++ t :: ts') at 1. rewrite (norm2_center r0 r1 radd rmul rsub ropp conj RT conj_add conj_mul conj0 conj1 [] t ts' P' (Forall_nil _) RO). unfold tnorm2. rewrite T1. apply (bsum_1 r0 r1 radd rmul rsub ropp RT). }
  split.
  - intros [|s0 c] Hc; [discriminate|]. unfold amplitude. cbn [MpsSpec.chain]. cbn [t' rescaled te tr]. rewrite <- NT.
    rewrite <- (bsum_mul_l r0 r1 radd rmul rsub ropp RT). apply (bsum_ext r0 radd). intros. ring.
  - intros INV. change (t' :: ts') with ([] ++ t' :: ts'). rewrite (norm2_center r0 r1 radd rmul rsub ropp conj RT conj_add conj_mul conj0 conj1 [] t' ts' P2 (Forall_nil _) RO). unfold tnorm2. cbn [t' rescaled tl tp tr te]. rewrite T1, (bsum_1 r0 r1 radd rmul rsub ropp RT), <- NT.
    etransitivity; [|exact INV]. set (f := invnorm (norm2 (t :: ts'))). rewrite NT. rewrite <- (bsum_mul_l r0 r1 radd rmul rsub ropp RT). apply (bsum_ext r0 radd). intros s0 _. rewrite <- (bsum_mul_l r0 r1 radd rmul rsub ropp RT). apply (bsum_ext r0 radd). intros k _.
    rewrite conj_mul. ring.
Qed.

(** It cannot fail on two or more sites, if the eigensolver returns. *)
Theorem C60_returns : forall meth maxdim nz Ms s ns ts ns' ks,
  meth = None \/ meth = Some DensityMatrix -> mdo s = false -> holds s ts -> proper ts -> length ns = length ts -> operator_on ns Ms ns' ks -> kproper ks ->
  2 <= length ts -> (forall mx p r rho, gram r0 radd rmul conj p r rho -> exists x, diag mx p r rho = Ok x) ->
  exists s', applyMPO meth maxdim nz Ms s ns = Ok (s', ns').
Proof.
  intros meth maxdim nz Ms s ns ts ns' ks ME Ed HO P LN OP Q N2 TD. destruct (operator_len _ _ _ _ OP) as (L1 & L2 & L3).
  rewrite (apply_unfold meth maxdim nz Ms s ns ts ns' ks) by (try assumption; intros ->; cbn in N2; lia).
  unfold ApplyModel.apply_list. assert (LC : length (List.combine ts ks) = length ts) by (rewrite combine_length; lia).
  destruct (split_last (List.combine ts ks) ltac:(lia)) as ((x, K) & y & rest & E & E'). rewrite E.
  destruct (proper_ends _ _ _ _ _ _ E' ltac:(lia) P Q) as (L & M & X1 & K1).
  destruct (aloop_total r0 r1 radd rmul rsub ropp conj RT conj0 conj1 conj_add conj_mul diag invnorm maxdim nz (y :: rest) true (olast r0 radd rmul (x, K)) [] L M TD) as (ts' & ->).
  cbn [obind]. eauto.
Qed.

(** If at some site neither site Index of K is that of x, or K is shorter, or the method is not known, or a
    guess is passed to the method DensityMatrix, the call is refused. *)
Theorem C60_refused : forall maxdim nz Ms s ns,
  (forall meth k n, meth = None \/ meth = Some DensityMatrix -> nth_error ns k = Some n -> (forall M, nth_error Ms k = Some M -> nA M <> n /\ nB M <> n) -> applyMPO meth maxdim nz Ms s ns = Err) /\
  applyMPO (Some Other) maxdim nz Ms s ns = Err /\
  (forall n0, applyMPO_guess fit (Some DensityMatrix) Ms s ns n0 = Err /\ applyMPO_guess fit (Some Other) Ms s ns n0 = Err).
Proof.
  intros maxdim nz Ms s ns. split; [|split].
  - intros meth k n ME Hn HM.
    assert (O : orients neqb ns Ms = Err).
    { revert ns k Hn HM. induction Ms as [|M Ms IH]; intros ns k Hn HM; (destruct ns as [|n1 ns]; [destruct k; discriminate|]); [reflexivity|]. cbn [orients]. destruct k as [|k].
      - cbn in Hn. injection Hn as ->. destruct (HM M eq_refl) as [A B]. unfold orient.
        destruct (neqb (nA M) n) eqn:X; [apply NEQ in X; contradiction|]. destruct (neqb (nB M) n) eqn:Y; [apply NEQ in Y; contradiction|]. reflexivity.
      - assert (OO : orient neqb n1 M = Err \/ exists x, orient neqb n1 M = Ok x) by (unfold orient; destruct (neqb _ _); [eauto|]; destruct (neqb _ _); eauto).
        destruct OO as [-> | (x & ->)]; [reflexivity|]. cbn [obind]. rewrite (IH ns k Hn) by (intros M' HM'; apply (HM M' HM')). reflexivity. }
    unfold ApplyModel.applyMPO. destruct (mN s =? 0)%Z; [reflexivity|]. destruct (length Ms =? 0)%nat; [reflexivity|].
    assert (D : density_apply r0 radd rmul conj neqb diag invnorm maxdim nz Ms s ns = Err) by (unfold density_apply; destruct (mdo s); [reflexivity|]; rewrite O; reflexivity).
    destruct ME as [-> | ->]; exact D.
  - unfold ApplyModel.applyMPO. destruct (mN s =? 0)%Z; [reflexivity|]. destruct (length Ms =? 0)%nat; reflexivity.
  - intros n0. unfold ApplyModel.applyMPO_guess. destruct (mN s =? 0)%Z; [auto|]. destruct (length Ms =? 0)%nat; [auto|]. destruct (n0 =? 0)%Z; auto.
Qed.

(** On one site the method DensityMatrix always fails. *)
Theorem C60_one_site_refuted : forall meth maxdim nz Ms s ns t, meth = None \/ meth = Some DensityMatrix -> holds s [t] -> applyMPO meth maxdim nz Ms s ns = Err.
Proof.
  intros meth maxdim nz Ms s ns t ME HO. unfold ApplyModel.applyMPO. destruct (mN s =? 0)%Z; [reflexivity|]. destruct (length Ms =? 0)%nat; [reflexivity|].
  assert (D : density_apply r0 radd rmul conj neqb diag invnorm maxdim nz Ms s ns = Err).
  { unfold density_apply. destruct (mdo s); [reflexivity|].
    assert (O : orients neqb ns Ms = Err \/ exists l, orients neqb ns Ms = Ok l).
    { revert Ms. induction ns as [|n ns IH]; intros Ms; cbn [orients]; [eauto|]. destruct Ms as [|M Ms]; [auto|]. unfold orient. destruct (neqb (nA M) n); cbn [obind].
      - destruct (IH Ms) as [-> | (l & ->)]; cbn [obind]; eauto.
      - destruct (neqb (nB M) n); cbn [obind]; auto. destruct (IH Ms) as [-> | (l & ->)]; cbn [obind]; eauto. }
    destruct O as [-> | (l & ->)]; [reflexivity|]. cbn [obind]. rewrite (holds_collect s [t] HO). cbn [obind].
    destruct (map snd l) as [|K ks]; cbn [List.combine]; [reflexivity|]. destruct ks; reflexivity. }
  destruct ME as [-> | ->]; exact D.
Qed.
End Props.

(** On two sites: 3|00> + 10|11> and the operator that flips the first spin and multiplies by 2 where the
    second is up, an MPO with a link of dimension 2: 2^s * flip + 0.  Site Indices are numbers; K(2) stores
    its Index out first. *)
Section Example.
Local Open Scope Z_scope.
Definition exx : list (@tensor Z) :=
  [mkT 1 2 2 true (fun _ s b => if (s =? b)%nat then Z.of_nat s + 1 else 0);
   mkT 2 2 1 false (fun a s _ => if (a =? s)%nat then 3 + 2 * Z.of_nat s else 0)].
Definition exK : list (mpoT Z nat) :=
  [mkM 1 1%nat 2 11%nat 2 2 (fun _ s s' v => if (s =? s')%nat then 0 else if (v =? 0)%nat then 1 else 0);
   mkM 2 12%nat 2 2%nat 2 1 (fun w s' s _ => if (s =? s')%nat then (if (w =? 0)%nat then 1 + Z.of_nat s else 7) else 0)].
Definition exs : mps (@tensor Z) := mkMps 2 (fun j => if 1 <=? j then nth_error exx (Z.to_nat (j - 1)) else None) 0 3 1 false 0%nat.
Definition exfit : list (mpoT Z nat) -> mps (@tensor Z) -> list nat -> outcome (mps (@tensor Z) * list nat) := fun _ _ _ => Err.
Definition exrun (nz : bool) := applyMPO 0 Z.add Z.mul (fun x => x) Nat.eqb exdiag (fun n => n) exfit None None nz exK exs [1; 2]%nat.
Example C60_nonvacuous :
  definite 0 Z.add Z.mul (fun x => x) /\ diag_ok 0 1 Z.add Z.mul (fun x => x) exdiag /\ holds exs exx /\ proper exx /\
  (exists ks, operator_on [1; 2]%nat exK [11; 12]%nat ks /\ kproper ks /\ applied 0 1 Z.add Z.mul ks exx [0; 1]%nat = 20) /\
  exists s', exrun false = Ok (s', [11; 12]%nat) /\
    forall ts', holds s' ts' -> amplitude 0 1 Z.add Z.mul ts' [0; 1]%nat = 20 /\ amplitude 0 1 Z.add Z.mul ts' [1; 0]%nat = 3.
Proof.
  split; [exact Zdefinite|]. split; [exact exdiag_ok|]. split.
  { split; [reflexivity|]. intros k Hk. cbn in Hk. destruct k as [|[|k]]; try lia; reflexivity. }
  split; [vm_compute; auto|]. split.
  { eexists [_; _]. split; [|split; [|]].
    - cbn [operator_on exK]. split; [left; repeat split|]. split; [right; repeat split; discriminate|]. exact I.
    - vm_compute. auto.
    - vm_compute. reflexivity. }
  eexists. split; [vm_compute; reflexivity|]. intros ts' [HN HT].
  assert (HL : length ts' = 2%nat) by (apply Nat2Z.inj; rewrite <- HN; reflexivity).
  destruct ts' as [|x1 [|x2 [|]]]; try discriminate HL.
  pose proof (HT 0 ltac:(cbn; lia))%nat as H1. pose proof (HT 1 ltac:(cbn; lia))%nat as H2.
  cbn [nth_error] in H1, H2. injection H1 as <-. injection H2 as <-. split; vm_compute; reflexivity.
Qed.
(** |01> with that operator has norm 2, not invertible here; with the operator that only flips it has norm 1. *)
Definition exy : list (@tensor Z) :=
  [mkT 1 2 1 true (fun _ s _ => if (s =? 0)%nat then 1 else 0); mkT 1 2 1 false (fun _ s _ => if (s =? 1)%nat then 1 else 0)].
Definition exF : list (mpoT Z nat) :=
  [mkM 1 1%nat 2 11%nat 2 1 (fun _ s s' v => if (s =? s')%nat then 0 else 1); mkM 1 2%nat 2 12%nat 2 1 (fun _ s s' _ => if (s =? s')%nat then 0 else -1)].
Definition exsy : mps (@tensor Z) := mkMps 2 (fun j => if 1 <=? j then nth_error exy (Z.to_nat (j - 1)) else None) 0 3 1 false 0%nat.
Example C60_normalize_nonvacuous :
  exists s' ts', applyMPO 0 Z.add Z.mul (fun x => x) Nat.eqb exdiag (fun n => n) exfit None None false exF exsy [1; 2]%nat = Ok (s', [11; 12]%nat) /\ holds s' ts' /\
    amplitude 0 1 Z.add Z.mul ts' [1; 0]%nat = -1 /\ norm2 0 1 Z.add Z.mul (fun x => x) ts' = 1.
Proof.
  eexists. eexists [_; _]. split; [vm_compute; reflexivity|]. split.
  - split; [reflexivity|]. intros k Hk. cbn in Hk. destruct k as [|[|k]]; try lia; reflexivity.
  - split; vm_compute; reflexivity.
Qed.
End Example.

Print Assumptions C60_apply.
Print Assumptions C60_normalize.
Print Assumptions C60_returns.
Print Assumptions C60_refused.
Print Assumptions C60_one_site_refuted.
