(** C55: MPS::orthogonalize returns the same state, with its centre on site 1. *)
From Coq Require Import ZArith List Bool Arith Lia Ring.
From Verif Require Import Util BigSum MpsModel MpsTensor MpsSpec MpsProofs LocalSem SumModel SumProps OrtSpec OrtModel OrtProofs.
Import ListNotations.
Local Open Scope outcome_scope.

Section Props.
(** Numbers with a conjugation for which |x|^2 is definite. *)
Context {R : Type} (r0 r1 : R) (radd rmul rsub : R -> R -> R) (ropp : R -> R) (conj : R -> R).
Context (RT : ring_theory r0 r1 radd rmul rsub ropp eq).
Context (conj0 : conj r0 = r0) (conj1 : conj r1 = r1)
  (conj_add : forall x y, conj (radd x y) = radd (conj x) (conj y))
  (conj_mul : forall x y, conj (rmul x y) = rmul (conj x) (conj y))
  (conj_conj : forall x, conj (conj x) = x)
  (DEF : definite r0 radd rmul conj).
Notation tensor := (@tensor R).
Notation amp := (amplitude r0 r1 radd rmul).
Notation good := (good r0 r1 radd rmul conj).
(** The eigensolver, and the MaxDim argument if there is one. *)
Context (diag : option nat -> nat -> nat -> @pmatrix R -> outcome (nat * (nat -> nat -> nat -> R)))
  (DOK : diag_ok r0 r1 radd rmul conj diag) (maxdim : option nat).
Notation orthogonalize := (orthogonalize r0 radd rmul conj diag maxdim).
Notation orth_list := (orth_list r0 radd rmul conj diag maxdim).

Lemma collect_ok : forall (f : Z -> option tensor) ts j, (forall k, k < length ts -> f (j + Z.of_nat k)%Z = nth_error ts k) -> collect f j (length ts) = Ok ts.
Proof.
  intros f ts. induction ts as [|t ts IH]; intros j H; [reflexivity|]. cbn [length collect].
  pose proof (H 0 ltac:(cbn; lia)) as H0. rewrite Z.add_0_r in H0. rewrite H0. cbn [nth_error].
  rewrite IH; [reflexivity|]. intros k Hk. rewrite <- Z.add_assoc. replace (1 + Z.of_nat k)%Z with (Z.of_nat (S k)) by lia. apply (H (S k)). cbn. lia.
Qed.
Lemma orth_list_ok ts ts' : proper ts -> orth_list ts = Ok ts' ->
  2 <= length ts /\ length ts' = length ts /\ proper ts' /\ sites ts' = sites ts /\
  Forall (right_orth r0 r1 radd rmul conj) (List.tl ts') /\ (forall k t, S k < length ts -> nth_error ts' k = Some t -> tj t = true) /\
  ((forall q, maxdim = Some q -> Forall (fun t => tl t <= q) ts) -> forall c, Forall2 lt c (sites ts) -> amp ts' c = amp ts c).
Proof.
  intros P H. unfold OrtModel.orth_list in H. destruct (rev ts) as [|O [|t rest]] eqn:Er; try discriminate.
  assert (Et : ts = rev (t :: rest) ++ [O]) by (rewrite <- (rev_involutive ts), Er; reflexivity).
  assert (L : linked 1 (rev (t :: rest)) (tl O) /\ tr O = 1).
  { unfold proper in P. rewrite Et in P. apply linked_app in P as (e & L1 & L2 & L3). cbn in L3. rewrite L2. auto. }
  destruct L as [L L3].
  destruct (oloop_ok r0 r1 radd rmul rsub ropp conj RT conj0 conj1 conj_add conj_mul conj_conj DEF diag DOK maxdim (t :: rest) true O [] ts' L L3 (Forall_nil _) H)
    as (pre & E & Hl & Hro & Hlk & Hs & Hj & _ & HA). rewrite app_nil_r in E, Hro. subst pre.
  assert (N : length ts = S (S (length rest))) by (rewrite Et, app_length, rev_length; cbn; lia).
  split; [lia|]. split; [cbn in Hl; lia|]. split; [exact Hlk|]. split; [now rewrite Hs, Et|]. split; [assumption|]. split.
  - intros k x Hk. apply (Hj k x). cbn [length]. lia.
  - intros W c Hc. rewrite Et in *. apply HA; [|assumption]. intros q Eq. specialize (W q Eq).
    rewrite Forall_forall in *. intros x Hx. apply W. apply in_or_app. cbn in Hx. rewrite <- in_rev. cbn. tauto.
Qed.

(** Calling orthogonalize on an MPS in memory that holds the chain ts: every orthogonality claim is
    true of the result, the centre is site 1, and the sites are the same.  Unless a MaxDim smaller
    than a link dimension was passed, all amplitudes are the same. *)
Theorem C55_orthogonalize : forall s s' ts, holds s ts -> proper ts -> orthogonalize s = Ok s' ->
  good s' /\ orthoCenter s' = Ok 1%Z /\
  exists ts', holds s' ts' /\ proper ts' /\ sites ts' = sites ts /\
    ((forall q, maxdim = Some q -> Forall (fun t => tl t <= q) ts) ->
     forall c, Forall2 lt c (sites ts) -> amp ts' c = amp ts c).
Proof.
  intros s s' ts [HN HA] P H. unfold OrtModel.orthogonalize in H. destruct (mdo s) eqn:Ed; [discriminate|].
  rewrite HN, Nat2Z.id, (collect_ok _ ts 1 HA) in H. cbn [obind] in H.
  destruct (orth_list ts) as [ts'| |] eqn:E; cbn [obind] in H; try discriminate. injection H as <-.
  destruct (orth_list_ok _ _ P E) as (N2 & L & P' & S' & RO & J & AM).
  assert (NT : forall j, (1 <= j <= Z.of_nat (length ts))%Z -> (if (1 <=? j)%Z && (j <=? Z.of_nat (length ts))%Z then nth_error ts' (Z.to_nat (j - 1)) else mA s j) = nth_error ts' (Z.to_nat (j - 1))).
  { intros j Hj. destruct (Z.leb_spec 1 j); [|lia]. destruct (Z.leb_spec j (Z.of_nat (length ts))); [reflexivity|lia]. }
  split; [|split; [reflexivity|]].
  - split; [reflexivity|]. cbn [mN ml mr mA]. split; [lia|]. split; [lia|]. split; [lia|]. split.
    + intros j Hj. cbn [mN mA] in *. rewrite NT by assumption. destruct (nth_error ts' (Z.to_nat (j - 1))) as [t|] eqn:Et; [|apply nth_error_None in Et; lia].
      exists t. split; [reflexivity|]. intros Hlt. apply (J (Z.to_nat (j - 1)) t); [lia|assumption].
    + split; [intros j t Hj; cbn in Hj; lia|]. intros j t Hj Et. cbn [mN mr mA] in *. rewrite NT in Et by lia.
      rewrite Forall_forall in RO. apply RO. destruct ts' as [|t0 ts']; [cbn in L; lia|]. cbn [List.tl].
      destruct (Z.to_nat (j - 1)) as [|k] eqn:Ek; [lia|]. cbn in Et. apply (nth_error_In _ _ Et).
  - exists ts'. split; [|auto]. split; cbn [mN mA]; [now rewrite L|]. intros k Hk. rewrite NT by lia. f_equal. lia.
Qed.

(** It cannot fail on two or more sites, if the eigensolver returns. *)
Theorem C55_returns : forall s ts, holds s ts -> proper ts -> mdo s = false -> 2 <= length ts ->
  (forall mx p r rho, gram r0 radd rmul conj p r rho -> exists x, diag mx p r rho = Ok x) ->
  exists s', orthogonalize s = Ok s'.
Proof.
  intros s ts [HN HA] P Ed N TD. unfold OrtModel.orthogonalize. rewrite Ed, HN, Nat2Z.id, (collect_ok _ ts 1 HA). cbn [obind]. unfold OrtModel.orth_list.
  destruct (rev ts) as [|O [|t rest]] eqn:Er.
  - apply (f_equal (@length _)) in Er. rewrite rev_length in Er. cbn in Er. lia.
  - apply (f_equal (@length _)) in Er. rewrite rev_length in Er. cbn in Er. lia.
  - assert (Et : ts = rev (t :: rest) ++ [O]) by (rewrite <- (rev_involutive ts), Er; reflexivity).
    unfold proper in P. rewrite Et in P. apply linked_app in P as (e & L1 & L2 & L3).
    destruct (oloop_total r0 r1 radd rmul rsub ropp conj RT conj0 conj1 conj_add conj_mul diag maxdim (t :: rest) true O [] ltac:(now rewrite L2) TD) as (ts' & ->).
    cbn [obind]. eauto.
Qed.

(** The sum of MPS (C41) may rely on it: this orthogonalize is what C41 assumes of one. *)
Theorem C55_serves_sum : maxdim = None -> orthogonalize_ok r0 r1 radd rmul (fun ts => let! ts' := orth_list ts in Ok (Some ts')).
Proof.
  intros M ts P. destruct (orth_list ts) as [ts'| |] eqn:E; cbn [obind]; auto.
  destruct (orth_list_ok _ _ P E) as (N2 & L & P' & S' & RO & J & AM). split; [assumption|]. split; [assumption|]. apply AM. congruence.
Qed.

(** On one site it always fails. *)
Theorem C55_one_site_refuted : forall s t, holds s [t] -> orthogonalize s = Err.
Proof.
  intros s t [HN HA]. unfold OrtModel.orthogonalize. destruct (mdo s); [reflexivity|]. rewrite HN, Nat2Z.id, (collect_ok _ [t] 1 HA). reflexivity.
Qed.
End Props.

(** A superposition of two product states on three sites, over the integers, with an eigensolver
    for diagonal matrices. *)
Section Example.
Local Open Scope Z_scope.
Definition peqb (i j : nat * nat) : bool := (fst i =? fst j)%nat && (snd i =? snd j)%nat.
Lemma peqb_eq i j : peqb i j = true <-> i = j.
Proof. unfold peqb. rewrite andb_true_iff, !Nat.eqb_eq. destruct i, j; cbn. split; [intros [-> ->]; reflexivity|intros [= -> ->]; auto]. Qed.
Definition el (rho : @pmatrix Z) (i j : nat * nat) : Z := rho (fst i) (snd i) (fst j) (snd j).
Definition kept (p r : nat) (rho : @pmatrix Z) : list (nat * nat) := filter (fun i => negb (el rho i i =? 0)) (pairs p r).
Definition exdiag (mx : option nat) (p r : nat) (rho : @pmatrix Z) : outcome (nat * (nat -> nat -> nat -> Z)) :=
  if forallb (fun i => forallb (fun j => peqb i j || (el rho i j =? 0)) (pairs p r)) (pairs p r)
  then Ok (length (kept p r rho), fun s k q => match nth_error (kept p r rho) q with Some i => if peqb i (s, k) then 1 else 0 | None => 0 end)
  else Err.
Lemma pick {A} (eqb : A -> A -> bool) (EQ : forall a b, eqb a b = true <-> a = b) (l : list A) j f : NoDup l ->
  lsum 0 Z.add l (fun i => if eqb j i then f i else 0) = if existsb (eqb j) l then f j else 0.
Proof.
  intros ND. induction ND as [|x l N ND IH]; [reflexivity|]. cbn [lsum existsb]. rewrite IH. destruct (eqb j x) eqn:E; cbn [orb].
  - apply EQ in E. subst x. destruct (existsb (eqb j) l) eqn:X; [|ring]. exfalso. apply existsb_exists in X as (y & Hy & Ey). apply EQ in Ey. subst y. contradiction.
  - ring.
Qed.
Lemma nodup_app {A} (l m : list A) : NoDup l -> NoDup m -> (forall x, In x l -> ~ In x m) -> NoDup (l ++ m).
Proof.
  intros H M D. induction H as [|x l N H IH]; [assumption|]. cbn. constructor.
  - rewrite in_app_iff. intros [K|K]; [contradiction|]. apply (D x); [now left|assumption].
  - apply IH. intros y Hy. apply D. now right.
Qed.
Lemma pairs_nodup p r : NoDup (pairs p r).
Proof.
  unfold pairs. assert (H : NoDup (seq 0 p)) by apply seq_NoDup. induction H as [|x l N ND IH]; [constructor|]. cbn [flat_map].
  apply nodup_app; [|assumption|].
  - apply FinFun.Injective_map_NoDup; [intros a b [= ->]; reflexivity|apply seq_NoDup].
  - intros [a b] Ha Hb. apply in_map_iff in Ha as (k & [= <- <-] & _). apply in_flat_map in Hb as (y & Hy & Hb). apply in_map_iff in Hb as (k' & [= -> _] & _). contradiction.
Qed.
Let ZT : ring_theory 0 1 Z.add Z.mul Z.sub Z.opp eq := Zth.
Lemma exdiag_ok : diag_ok 0 1 Z.add Z.mul (fun x => x) exdiag.
Proof.
  intros mx p r rho m U _ H. unfold exdiag in H. destruct (forallb _ _) eqn:D; [|discriminate]. injection H as <- <-.
  assert (ND : NoDup (kept p r rho)) by apply NoDup_filter, pairs_nodup.
  assert (OFF : forall i j, In i (pairs p r) -> In j (pairs p r) -> i <> j -> el rho i j = 0).
  { intros i j Hi Hj N. rewrite forallb_forall in D. specialize (D i Hi). rewrite forallb_forall in D. specialize (D j Hj). apply orb_true_iff in D as [D|D].
    - apply peqb_eq in D. contradiction.
    - now apply Z.eqb_eq. }
  split.
  - intros q q' Hq Hq'. rewrite <- (lsum_pairs 0 1 Z.add Z.mul Z.sub Z.opp ZT p r (fun i => match nth_error (kept p r rho) q with Some j => if peqb j i then 1 else 0 | None => 0 end *
      match nth_error (kept p r rho) q' with Some j => if peqb j i then 1 else 0 | None => 0 end)).
    destruct (nth_error (kept p r rho) q) as [i|] eqn:Ei; [|apply nth_error_None in Ei; lia].
    destruct (nth_error (kept p r rho) q') as [j|] eqn:Ej; [|apply nth_error_None in Ej; lia].
    transitivity (lsum 0 Z.add (pairs p r) (fun k => if peqb i k then (if peqb j k then 1 else 0) else 0)).
    { apply lsum_ext. intros k _. destruct (peqb i k); [apply Z.mul_1_l|reflexivity]. }
    rewrite (pick peqb peqb_eq) by apply pairs_nodup.
    replace (existsb (peqb i) (pairs p r)) with true.
    2:{ symmetry. apply existsb_exists. exists i. split; [|now apply peqb_eq]. apply nth_error_In in Ei. apply filter_In in Ei. tauto. }
    unfold delta. destruct (Nat.eqb_spec q q') as [->|N].
    + rewrite Ei in Ej. injection Ej as ->. destruct (peqb j j) eqn:E; [reflexivity|]. assert (peqb j j = true) by (now apply peqb_eq). congruence.
    + destruct (peqb j i) eqn:E; [|reflexivity]. apply peqb_eq in E. subst j. exfalso. apply N.
      apply (proj1 (NoDup_nth_error (kept p r rho)) ND); [assumption|congruence].
  - intros _. exists (fun q => match nth_error (kept p r rho) q with Some i => el rho i i | None => 0 end).
    intros s k s' k' Hs Hk Hs' Hk'. rewrite (bsum_lsum 0 1 Z.add Z.mul Z.sub Z.opp ZT).
    transitivity (lsum 0 Z.add (kept p r rho) (fun i => if peqb (s, k) i then (if peqb i (s', k') then el rho i i else 0) else 0)).
    + rewrite (pick peqb peqb_eq) by assumption. change (rho s k s' k') with (el rho (s, k) (s', k')).
      assert (I1 : In (s, k) (pairs p r)) by (apply in_pairs; cbn; lia). assert (I2 : In (s', k') (pairs p r)) by (apply in_pairs; cbn; lia).
      destruct (existsb (peqb (s, k)) (kept p r rho)) eqn:X.
      * destruct (peqb (s, k) (s', k')) eqn:E; [apply peqb_eq in E; now rewrite <- E|]. apply OFF; try assumption. intros F. apply peqb_eq in F. congruence.
      * destruct (peqb (s, k) (s', k')) eqn:E.
        -- apply peqb_eq in E. rewrite <- E. destruct (Z.eq_dec (el rho (s, k) (s, k)) 0) as [Z|N]; [assumption|]. exfalso.
           assert (existsb (peqb (s, k)) (kept p r rho) = true); [|congruence]. apply existsb_exists. exists (s, k). split; [|now apply peqb_eq]. apply filter_In. split; [assumption|].
           apply negb_true_iff. now apply Z.eqb_neq.
        -- apply OFF; try assumption. intros F. apply peqb_eq in F. congruence.
    + rewrite (lsum_nth 0 1 Z.add Z.mul Z.sub Z.opp ZT (kept p r rho) (0, 0)%nat), (bsum_lsum 0 1 Z.add Z.mul Z.sub Z.opp ZT). apply lsum_ext. intros q Hq. apply in_seq in Hq.
      rewrite (nth_error_nth' (kept p r rho) (0, 0)%nat) by lia. set (i := nth q (kept p r rho) (0, 0)%nat).
      replace (peqb (s, k) i) with (peqb i (s, k)) by (unfold peqb; now rewrite (Nat.eqb_sym (fst i)), (Nat.eqb_sym (snd i))).
      destruct (peqb i (s, k)), (peqb i (s', k')); lia.
Qed.
Lemma Zdefinite : definite 0 Z.add Z.mul (fun x => x).
Proof.
  intros l. assert (N : forall l, 0 <= square_sum 0 Z.add Z.mul (fun x => x) l).
  { clear. induction l as [|x l IH]; cbn; [lia|]. pose proof (Z.square_nonneg x). lia. }
  induction l as [|x l IH]; intros H; [constructor|]. cbn in H. pose proof (N l). pose proof (Z.square_nonneg x). constructor; [nia|]. apply IH. lia.
Qed.
(** A_1 = (1 2) on the diagonal, A_2 the copy tensor, A_3 = (3 5) on the diagonal: 3|000> + 10|111>. *)
Definition exts : list (@tensor Z) :=
  [mkT 1 2 2 true (fun _ s b => if (s =? b)%nat then Z.of_nat s + 1 else 0);
   mkT 2 2 2 true (fun a s b => if (a =? s)%nat && (s =? b)%nat then 1 else 0);
   mkT 2 2 1 false (fun a s _ => if (a =? s)%nat then 3 + 2 * Z.of_nat s else 0)].
Definition exmps : mps (@tensor Z) := mkMps 3 (fun j => if 1 <=? j then nth_error exts (Z.to_nat (j - 1)) else None) 0 4 1 false 0%nat.
Example C55_nonvacuous :
  definite 0 Z.add Z.mul (fun x => x) /\ diag_ok 0 1 Z.add Z.mul (fun x => x) exdiag /\ holds exmps exts /\ proper exts /\
  ~ right_orth 0 1 Z.add Z.mul (fun x => x) (nth 2 exts (mkT 0 0 0 false (fun _ _ _ => 0))) /\
  exists s', orthogonalize 0 Z.add Z.mul (fun x => x) exdiag None exmps = Ok s' /\
    forall ts', holds s' ts' -> amplitude 0 1 Z.add Z.mul ts' [1; 1; 1]%nat = 10 /\ amplitude 0 1 Z.add Z.mul ts' [0; 0; 0]%nat = 3.
Proof.
  split; [exact Zdefinite|]. split; [exact exdiag_ok|]. split.
  { split; [reflexivity|]. intros k Hk. cbn in Hk. destruct k as [|[|[|k]]]; try lia; reflexivity. }
  split; [vm_compute; auto|]. split.
  { intros H. specialize (H 0 0 ltac:(cbn; lia) ltac:(cbn; lia))%nat. vm_compute in H. discriminate. }
  eexists. split; [reflexivity|]. intros ts' [HN HT].
  assert (HL : length ts' = 3%nat) by (apply Nat2Z.inj; rewrite <- HN; reflexivity).
  destruct ts' as [|x1 [|x2 [|x3 [|]]]]; try discriminate HL.
  pose proof (HT 0 ltac:(cbn; lia))%nat as H1. pose proof (HT 1 ltac:(cbn; lia))%nat as H2. pose proof (HT 2 ltac:(cbn; lia))%nat as H3.
  cbn [nth_error] in H1, H2, H3. injection H1 as <-. injection H2 as <-. injection H3 as <-. split; vm_compute; reflexivity.
Qed.
End Example.

Print Assumptions C55_orthogonalize.
Print Assumptions C55_returns.
Print Assumptions C55_serves_sum.
Print Assumptions C55_one_site_refuted.
