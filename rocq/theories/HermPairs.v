(** The analysis of the prime levels finds the pairs of indices. *)
From Coq Require Import List ZArith Lia Bool Arith Permutation Sorted.
From Verif Require Import Util TensorModel TensorSpec SvdSpec HermSpec HermModel.
Import ListNotations.
Open Scope outcome_scope.
Local Arguments Nat.sub : simpl never.

Lemma ins_perm x l : Permutation (ins x l) (x :: l).
Proof. induction l as [|y l IH]; cbn; auto. destruct (x <=? y); auto. rewrite IH. apply perm_swap. Qed.
Lemma isort_perm l : Permutation (isort l) l.
Proof. induction l as [|x l IH]; cbn; auto. rewrite ins_perm. auto. Qed.
Lemma ins_sorted x l : StronglySorted le l -> StronglySorted le (ins x l).
Proof.
  induction l as [|y l IH]; intros H; cbn; [repeat constructor|]. inversion H as [|? ? H1 H2]; subst. destruct (Nat.leb_spec x y).
  - constructor; auto. constructor; auto. rewrite Forall_forall in *. intros z Hz. specialize (H2 z Hz). lia.
  - constructor; [apply IH; auto|]. rewrite Forall_forall in *. intros z Hz. apply (Permutation_in _ (ins_perm x l)) in Hz as [<-|Hz]; [lia|auto].
Qed.
Lemma isort_sorted l : StronglySorted le (isort l).
Proof. induction l; cbn; [constructor|now apply ins_sorted]. Qed.
Lemma sorted_uniq : forall l l', StronglySorted le l -> StronglySorted le l' -> Permutation l l' -> l = l'.
Proof.
  induction l as [|x l IH]; intros [|y l'] H H' P; auto; [apply Permutation_length in P; discriminate|apply Permutation_length in P; discriminate|].
  inversion H as [|? ? H1 H2]; subst. inversion H' as [|? ? H1' H2']; subst. rewrite Forall_forall in *.
  assert (x = y).
  { assert (K1 : In x (y :: l')) by (apply (Permutation_in _ P); now left). assert (K2 : In y (x :: l)) by (apply (Permutation_in _ (Permutation_sym P)); now left).
    destruct K1 as [K1|K1]; auto. destruct K2 as [K2|K2]; auto. specialize (H2 y K2). specialize (H2' x K1). lia. }
  subst y. f_equal. apply IH; auto. eapply Permutation_cons_inv; eauto.
Qed.
Lemma sorted_app l l' : StronglySorted le l -> StronglySorted le l' -> (forall a b, In a l -> In b l' -> a <= b) -> StronglySorted le (l ++ l').
Proof.
  induction l as [|x l IH]; intros H H' K; cbn; auto. inversion H as [|? ? H1 H2]; subst. constructor; [apply IH; auto; intros; apply K; auto; now right|].
  apply Forall_app. split; auto. apply Forall_forall. intros b Hb. apply K; auto. now left.
Qed.
Lemma sorted_shift p l : StronglySorted le l -> StronglySorted le (map (fun a => a + p) l).
Proof.
  induction 1 as [|x l H IH F]; cbn; constructor; auto. rewrite Forall_forall in *. intros z Hz. apply in_map_iff in Hz as (y & <- & Hy). specialize (F y Hy). lia.
Qed.
Lemma sorted_last x l : StronglySorted le (x :: l) -> x <= last (x :: l) 0.
Proof.
  intros H. inversion H as [|? ? H1 H2]; subst. assert (K : In (last (x :: l) 0) (x :: l)).
  { destruct (@exists_last _ (x :: l) ltac:(discriminate)) as (a & b & E). rewrite E, last_last. apply in_or_app. cbn; auto. }
  destruct K as [K|K]; [lia|]. rewrite Forall_forall in H2. now apply H2.
Qed.
Lemma last_nth' (l : list nat) : nth (length l - 1) l 0 = last l 0.
Proof.
  destruct l as [|x l]; auto. destruct (@exists_last _ (x :: l) ltac:(discriminate)) as (a & b & E). rewrite E, last_last, app_length. cbn. rewrite app_nth2 by lia. replace (length a + 1 - 1 - length a) with 0 by lia. reflexivity.
Qed.
Lemma last_app' (a b : list nat) : b <> [] -> last (a ++ b) 0 = last b 0.
Proof. intros H. destruct (exists_last H) as (c & d & ->). rewrite app_assoc, !last_last. reflexivity. Qed.
Lemma last_map' p (l : list nat) : l <> [] -> last (map (fun a => a + p) l) 0 = last l 0 + p.
Proof. intros H. destruct (exists_last H) as (c & d & ->). rewrite map_app. cbn. rewrite !last_last. reflexivity. Qed.
Lemma filter_perm {A} (f : A -> bool) l l' : Permutation l l' -> Permutation (filter f l) (filter f l').
Proof.
  induction 1; cbn; auto; [destruct (f x); auto|destruct (f x), (f y); auto; apply perm_swap|]. etransitivity; eauto.
Qed.
Lemma filter_map' {A B} (f : B -> bool) (g : A -> B) l : filter f (map g l) = map g (filter (fun x => f (g x)) l).
Proof. induction l as [|x l IH]; cbn; auto. destruct (f (g x)); cbn; congruence. Qed.

Section Pairs.
Context {J : Type} (jeq : J -> J -> bool) (jeq_spec : forall a b, jeq a b = true <-> a = b).
Notation I := (J * nat)%type.
Notation ieq := (ieqp jeq).

Lemma ieqp_spec (a b : I) : ieq a b = true <-> a = b.
Proof.
  destruct a as [a n], b as [b m]. unfold ieqp. cbn. rewrite andb_true_iff, jeq_spec, Nat.eqb_eq. split; [intros [-> ->]; auto|]. intros E; injection E; auto.
Qed.
Lemma prime_inj p (x y : I) : prime p x = prime p y -> x = y.
Proof. destruct x, y. unfold prime. cbn. intros E. injection E as -> E. f_equal. lia. Qed.

(** One index j of AA matches i exactly when prime(i,p) is in AA. *)
Lemma match_one p (i : I) AA : NoDup AA ->
  flat_map (fun j => if jeq (fst i) (fst j) && (snd i + p =? snd j) then [i] else []) AA = if existsb (ieq (prime p i)) AA then [i] else [].
Proof.
  assert (E0 : forall j : I, jeq (fst i) (fst j) && (snd i + p =? snd j) = ieq (prime p i) j) by reflexivity.
  induction AA as [|j AA IH]; intros ND; cbn [flat_map existsb]; auto. inversion ND as [|? ? H1 H2]; subst. rewrite IH, E0 by auto.
  destruct (ieq (prime p i) j) eqn:E; cbn [orb app]; auto. apply ieqp_spec in E. subst j.
  destruct (existsb (ieq (prime p i)) AA) eqn:X; auto. apply existsb_exists in X as (y & Hy & K). apply ieqp_spec in K. subst y. contradiction.
Qed.
Lemma match_all p AA : NoDup AA ->
  flat_map (fun i => flat_map (fun j : I => if jeq (fst i) (fst j) && (snd i + p =? snd j) then [i] else []) AA) AA = filter (fun i => existsb (ieq (prime p i)) AA) AA.
Proof.
  intros ND. assert (G : forall l, flat_map (fun i => flat_map (fun j : I => if jeq (fst i) (fst j) && (snd i + p =? snd j) then [i] else []) AA) l = filter (fun i => existsb (ieq (prime p i)) AA) l).
  { induction l as [|i l IH]; cbn [flat_map filter]; auto. rewrite IH, match_one by exact ND. destruct (existsb _ AA); reflexivity. }
  apply G.
Qed.

Lemma find_pairs_spec p L AA : NoDup AA -> paired p L AA -> exists is, find_pairs jeq AA = Ok (p, is) /\ Permutation is L.
Proof.
  intros ND (Hne & PM & HG).
  assert (EXI : forall x l, existsb (ieq x) l = true <-> In x l).
  { intros x l. rewrite existsb_exists. split; [intros (y & Hy & E); apply ieqp_spec in E; congruence|]. intros H. exists x. split; auto. now apply ieqp_spec. }
  assert (LEN : length AA = length L + length L) by (rewrite (Permutation_length PM), app_length, map_length; reflexivity).
  destruct AA as [|k AA']; [apply Permutation_length in PM; destruct L; [congruence|discriminate]|]. set (AA := k :: AA') in *.
  unfold find_pairs. fold AA. unfold AA at 1. 
  set (B := filter (fun i : I => jeq (fst i) (fst k)) L).
  assert (PB : Permutation (map snd (filter (fun i : I => jeq (fst i) (fst k)) AA)) (map snd B ++ map (fun a => a + p) (map snd B))).
  { rewrite (filter_perm _ _ _ PM), filter_app, map_app, filter_map', !map_map. fold B. apply Permutation_refl. }
  set (s := isort (map snd B)).
  assert (BI : forall a, In a s <-> In (fst k, a) L).
  { intros a. unfold s. split.
    - intros H. apply (Permutation_in _ (isort_perm _)) in H. apply in_map_iff in H as ([j n] & <- & H). unfold B in H. apply filter_In in H as [H E]. cbn in E. apply jeq_spec in E. cbn. now subst j.
    - intros H. apply (Permutation_in _ (Permutation_sym (isort_perm _))). apply in_map_iff. exists (fst k, a). split; auto. apply filter_In. split; auto. cbn. now apply jeq_spec. }
  assert (SE : isort (map snd (filter (fun i : I => jeq (fst i) (fst k)) AA)) = s ++ map (fun a => a + p) s).
  { apply sorted_uniq; [apply isort_sorted| |].
    - apply sorted_app; [apply isort_sorted|apply sorted_shift, isort_sorted|]. intros a b Ha Hb. apply in_map_iff in Hb as (b' & <- & Hb). apply BI in Ha, Hb. specialize (HG _ _ _ Hb Ha). lia.
    - rewrite isort_perm, PB. unfold s. apply Permutation_app; [symmetry; apply isort_perm|]. apply Permutation_map. symmetry. apply isort_perm. }
  rewrite SE.
  assert (SN : exists h t, s = h :: t).
  { assert (K : In k (L ++ map (prime p) L)) by (apply (Permutation_in _ PM); now left).
    assert (exists a, In a s) as (a & Ha).
    { apply in_app_or in K as [K|K]; [exists (snd k); apply BI; now destruct k|]. apply in_map_iff in K as (x & <- & K). exists (snd x). apply BI. now destruct x. }
    destruct s as [|h t]; [contradiction|]. eauto. }
  destruct SN as (h & t & ES). pose proof (sorted_last h t) as SL. rewrite <- ES in SL. specialize (SL (isort_sorted _)). fold s in SL.
  assert (SP : 0 < length s) by (rewrite ES; cbn; lia).
  rewrite app_length, map_length. replace (length s + length s) with (length s * 2) by lia. rewrite Nat.mod_mul, Nat.div_mul by lia.
  destruct (Nat.leb_spec (length s * 2) 1); [lia|]. cbn [orb negb Nat.eqb].
  rewrite app_nth1 by lia. rewrite last_nth', last_app' by (rewrite ES; discriminate). rewrite last_map' by (rewrite ES; discriminate).
  assert (HH : hd 0 (s ++ map (fun a => a + p) s) = h) by (rewrite ES; reflexivity). rewrite HH.
  replace (last s 0 + p - h - (last s 0 - h)) with p by lia.
  rewrite match_all by exact ND.
  assert (PF : Permutation (filter (fun i => existsb (ieq (prime p i)) AA) AA) L).
  { apply NoDup_Permutation.
    - now apply NoDup_filter.
    - pose proof (Permutation_NoDup PM ND) as K. clear -K. induction L as [|x L IH]; [constructor|]. cbn in K. inversion K as [|? ? H1 H2]; subst. constructor; [intros Q; apply H1, in_or_app; auto|].
      apply IH. apply (Permutation_NoDup (Permutation_app_comm _ _)) in H2. cbn in H2. inversion H2; subst. apply (Permutation_NoDup (Permutation_app_comm _ _)). auto.
    - intros x. rewrite filter_In, EXI. split.
      + intros [H1 H2]. apply (Permutation_in _ PM) in H1, H2. apply in_app_or in H1 as [H1|H1]; auto. exfalso. apply in_map_iff in H1 as ([j a] & <- & H1).
        unfold prime in H2. cbn in H2. apply in_app_or in H2 as [H2|H2].
        * specialize (HG _ _ _ H1 H2). lia.
        * apply in_map_iff in H2 as ([j' b] & E & H2). unfold prime in E. cbn in E. injection E as -> E. specialize (HG _ _ _ H1 H2). lia.
      + intros HX. split; apply (Permutation_in _ (Permutation_sym PM)), in_or_app; auto. right. now apply in_map. }
  rewrite (Permutation_length PF), LEN. replace (length L + length L) with (length L * 2) by lia. rewrite Nat.div_mul, Nat.eqb_refl by lia.
  destruct (Nat.eqb_spec (length L) 0) as [E|_]; [destruct L; [congruence|discriminate]|]. cbn [orb negb]. eexists. split; [reflexivity|exact PF].
Qed.
Lemma paired_perm p (L is AA : list I) : Permutation is L -> paired p L AA -> paired p is AA.
Proof.
  intros P (H1 & H2 & H3). split; [intros ->; apply Permutation_nil in P; congruence|]. split.
  - rewrite H2. apply Permutation_app; [now symmetry|]. apply Permutation_map. now symmetry.
  - intros j a b Ha Hb. apply (H3 j); eapply Permutation_in; eauto.
Qed.
(** An error unless the levels of the front index come in pairs. *)
Lemma find_pairs_none AA : AA <> [] -> (exists p is, find_pairs jeq AA = Ok (p, is)) \/ find_pairs jeq AA = Err.
Proof.
  intros H. destruct AA as [|k AA]; [congruence|]. unfold find_pairs. match goal with |- context [if ?b then Err else ?e] => destruct b; auto end. cbv zeta.
  match goal with |- context [if ?b then Err else ?e] => destruct b; eauto end.
Qed.
End Pairs.
