(** C45: the direct sum of two dense tensors over lists of indices.  Vocabulary: TensorSpec.v;
    [tensor] is the well-formedness of ContractProps.v.  The model is DirectSumModel.v. *)
From Coq Require Import List ZArith Lia Bool Arith Permutation Ring.
From Verif Require Import Util RangeModel RangeSpec RangeProofs TensorModel TensorSpec TensorProofs SemProofs
  ContractModel ContractProofs ContractSem LabelProofs DenseModel DenseProofs ContractProps DenseProps
  DiagModel DiagSpec DiagProofs DiagProps DirectSumModel.
Import ListNotations.
Local Arguments Nat.sub : simpl never.

Section Props.
Context {R : Type} (r0 r1 : R) (radd rmul : R -> R -> R) (is0 is1 : R -> bool).
Context (SR : semi_ring_theory r0 r1 radd rmul (@eq R)).
Context (is0_spec : forall x, is0 x = true -> x = r0).
Context (is1_spec : forall x, is1 x = true -> x = r1).
Add Ring RRds : SR.
Context {I : Type} (ieq : I -> I -> bool) (idim : I -> nat).
Hypothesis ieq_spec : forall a b, ieq a b = true <-> a = b.
Notation elt := (elt r0 idim).
Notation sum_over := (sum_over r0 radd ieq idim).
Notation sumn := (sumn r0 radd).
Notation tensor := (tensor idim).
Notation directSum := (directSum r0 r1 radd rmul is0 is1 ieq idim).

(** ** the specification *)
(** The choice s with the index is[n] given the value f n (ks[n]), where ks are the summed indices. *)
Fixpoint put (f : I -> nat -> nat) (is ks : list I) (s : I -> nat) : I -> nat :=
  match is, ks with
  | i :: is', k :: ks' => override ieq (put f is' ks' s) i (f i (s k))
  | _, _ => s
  end.
(** Every summed index has a value in A's part (below dim of A's index), or every one in B's part. *)
Definition in_first (is ks : list I) (s : I -> nat) : Prop := Forall2 (fun i k => s k < idim i) is ks.
Definition in_second (is ks : list I) (s : I -> nat) : Prop := Forall2 (fun i k => idim i <= s k) is ks.
(** The element of A, and of B, that the choice s of values of the summed indices addresses. *)
Definition first_part (is ks : list I) (s : I -> nat) : I -> nat := put (fun _ v => v) is ks s.
Fixpoint second_part (is js ks : list I) (s : I -> nat) : I -> nat :=
  match is, js, ks with
  | i :: is', j :: js', k :: ks' => override ieq (second_part is' js' ks' s) j (s k - idim i)
  | _, _, _ => s
  end.
(** The summed indices have the dimensions dim(i)+dim(j). *)
Inductive sums : list I -> list I -> list I -> Prop :=
| sums_nil : sums [] [] []
| sums_cons i j k is js ks : idim k = sum_dim (idim i) (idim j) -> sums is js ks -> sums (i :: is) (j :: js) (k :: ks).

(** ** the matrix of the second tensor *)
Lemma fill_ok di dj : 0 < dj -> forall jjs M, (forall jj, In jj jjs -> jj < dj) -> length M = dj * (di + dj) ->
  exists M', fill_S r1 di dj jjs M = Ok M' /\ length M' = length M /\
    forall p, nth p M' r0 = if existsb (fun jj => p =? jj + dj * (di + jj)) jjs then r1 else nth p M r0.
Proof.
  intros Hd. induction jjs as [|jj jjs IH]; intros M Hj HL.
  - exists M. auto.
  - cbn [fill_S]. assert (Hjj : jj < dj) by (apply Hj; now left). assert (jj + dj * (di + jj) < length M) by nia.
    rewrite oupd_ok by auto. cbn [obind].
    destruct (IH (upd (jj + dj * (di + jj)) r1 M)) as (M' & E & L & H'). { intros; apply Hj; now right. } { now rewrite upd_length. }
    exists M'. split; [exact E|]. split; [now rewrite L, upd_length|]. intros p. rewrite H'. cbn [existsb].
    destruct (existsb _ jjs); [now rewrite orb_true_r|]. rewrite orb_false_r.
    destruct (Nat.eqb_spec p (jj + dj * (di + jj))) as [->|N]; [now rewrite nth_upd_eq|]. rewrite nth_upd_neq by congruence. reflexivity.
Qed.

Lemma mat_S_ok i j k : j <> k -> 0 < idim j -> idim k = sum_dim (idim i) (idim j) ->
  exists M, mat_S r0 r1 (idim i) (idim j) (idim k) = Ok M /\ full idim [j; k] M /\
    forall s, s j < idim j -> elt [j; k] M s = if s k =? idim i + s j then r1 else r0.
Proof.
  intros Njk Pj Ek. assert (Ek' : idim k = idim i + idim j) by (rewrite Ek; unfold sum_dim; destruct (Nat.eqb_spec (idim i + idim j) 0); lia).
  unfold mat_S. rewrite Ek'.
  destruct (fill_ok (idim i) (idim j) Pj (seq 0 (idim j)) (repeat r0 (idim j * (idim i + idim j)))) as (M & E & L & H).
  { intros jj Hjj. apply in_seq in Hjj. lia. } { apply repeat_length. }
  exists M. split; [exact E|]. split.
  { unfold full. rewrite L, repeat_length. cbn. rewrite Ek'. lia. }
  intros s Hs. unfold TensorSpec.elt. cbn [map colmajor]. rewrite Nat.mul_0_r, Nat.add_0_r, H.
  replace (nth _ (repeat r0 _) r0) with r0 by (symmetry; apply nth_repeat).
  assert (EE : existsb (fun jj => s j + idim j * s k =? jj + idim j * (idim i + jj)) (seq 0 (idim j)) = (s k =? idim i + s j)).
  { apply eq_true_iff_eq. rewrite existsb_exists, Nat.eqb_eq. split.
    - intros (jj & Hjj & E2). apply in_seq in Hjj. apply Nat.eqb_eq in E2.
      assert (s j = jj /\ s k = idim i + jj) as [-> ->]; [|reflexivity].
      assert (s j = jj).
      { rewrite <- (Nat.mod_small (s j) (idim j)), <- (Nat.mod_small jj (idim j)) by lia.
        rewrite <- (Nat.mod_add (s j) (s k) (idim j)), <- (Nat.mod_add jj (idim i + jj) (idim j)) by lia. f_equal. lia. }
      subst jj. split; auto. nia.
    - intros ->. exists (s j). split; [apply in_seq; lia|apply Nat.eqb_refl]. }
  now rewrite EE.
Qed.

(** ** one step *)
Lemma second_step L B i j k junk : tensor L B -> In j L -> ~ In k L -> idim k = sum_dim (idim i) (idim j) -> 
  exists M N C, mat_S r0 r1 (idim i) (idim j) (idim k) = Ok M /\
    times r0 r1 radd rmul is0 ieq idim L B [j; k] M junk = Ok (N, C) /\ tensor N C /\
    (forall x, In x N <-> x = k \/ (In x L /\ x <> j)) /\
    forall s, inrange idim N s -> elt N C s = if idim i <=? s k then elt L B (override ieq s j (s k - idim i)) else r0.
Proof.
  intros TB Hj Hk Ek. pose proof TB as (NL & PL & FL). assert (Njk : j <> k) by congruence. assert (Pj : 0 < idim j) by auto.
  assert (Ek' : idim k = idim i + idim j) by (rewrite Ek; unfold sum_dim; destruct (Nat.eqb_spec (idim i + idim j) 0); lia).
  destruct (mat_S_ok i j k Njk Pj Ek) as (M & EM & FM & HM).
  assert (TM : tensor [j; k] M).
  { split; [constructor; [intros [K|[]]; congruence|constructor; [intros []|constructor]]|]. split; [|exact FM].
    intros x [<-|[<-|[]]]; auto. lia. }
  destruct (C14_product r0 r1 radd rmul is0 SR is0_spec ieq idim ieq_spec L B [j; k] M junk TB TM) as (N & C & E & TN & HN & HE).
  exists M, N, C. split; [exact EM|]. split; [exact E|]. split; [exact TN|].
  assert (HN' : forall x, In x N <-> x = k \/ (In x L /\ x <> j)).
  { intros x. rewrite HN. cbn [In]. split.
    - intros [[H1 H2]|[[H1|[H1|[]]] H2]].
      + right. split; auto.
      + exfalso. apply H2. now rewrite <- H1.
      + left. auto.
    - intros [->|[H1 H2]]; [right; auto|left; split; auto; intros [K|[K|[]]]; subst; contradiction]. }
  split; [exact HN'|]. intros s Hs. rewrite HE by auto.
  assert (Hsk : s k < idim k) by (apply Hs, HN'; auto).
  assert (EC : Permutation (common ieq L [j; k]) [j]).
  { apply NoDup_Permutation; [now apply NoDup_filter|constructor; [intros []|constructor]|]. intros x.
    rewrite (in_common ieq ieq_spec). cbn [In]. split.
    - intros [H1 [H2|[H2|[]]]]; auto. subst. contradiction.
    - intros [<-|[]]. auto. }
  rewrite (sum_over_perm r0 r1 radd rmul SR ieq idim ieq_spec (common ieq L [j; k]) [j]); auto.
  2:{ intros u v Huv. f_equal; apply elt_ext; auto. }
  2:{ now apply NoDup_filter. }
  cbn [TensorSpec.sum_over].
  assert (EK : forall v, override ieq s j v k = s k).
  { intros v. unfold override. now rewrite (ieq_neq ieq ieq_spec). }
  assert (EJ : forall v, override ieq s j v j = v).
  { intros v. unfold override. now rewrite (ieq_refl ieq ieq_spec). }
  transitivity (sumn (idim j) (fun v => if s k =? idim i + v then elt L B (override ieq s j v) else r0)).
  { apply sumn_ext. intros v Hv. rewrite HM by (now rewrite EJ). rewrite EK, EJ. destruct (s k =? idim i + v); ring. }
  destruct (Nat.leb_spec (idim i) (s k)) as [Lk|Lk].
  - rewrite <- (sumn_pick r0 r1 radd rmul SR (idim j) (s k - idim i) (fun v => elt L B (override ieq s j v))) by lia.
    apply sumn_ext. intros v Hv. destruct (Nat.eqb_spec (s k) (idim i + v)); destruct (Nat.eqb_spec v (s k - idim i)); auto; lia.
  - apply (sumn_zero r0 r1 radd rmul SR). intros v Hv. destruct (Nat.eqb_spec (s k) (idim i + v)); auto; lia.
Qed.

Definition all_first (is ks : list I) (s : I -> nat) : bool := forallb (fun p => s (snd p) <? idim (fst p)) (combine is ks).
Definition all_second (is ks : list I) (s : I -> nat) : bool := forallb (fun p => idim (fst p) <=? s (snd p)) (combine is ks).

Lemma sums_len is js ks : sums is js ks -> length is = length ks /\ length js = length ks.
Proof. induction 1; cbn; auto. lia. Qed.
Lemma all_first_iff is js ks s : sums is js ks -> all_first is ks s = true <-> in_first is ks s.
Proof.
  unfold all_first, in_first. induction 1 as [|i j k is js ks E H IH]; cbn [combine forallb fst snd]; [split; auto|].
  rewrite andb_true_iff, IH, Nat.ltb_lt. split; [intros [? ?]; now constructor|intros K; inversion K; subst; auto].
Qed.
Lemma all_second_iff is js ks s : sums is js ks -> all_second is ks s = true <-> in_second is ks s.
Proof.
  unfold all_second, in_second. induction 1 as [|i j k is js ks E H IH]; cbn [combine forallb fst snd]; [split; auto|].
  rewrite andb_true_iff, IH, Nat.leb_le. split; [intros [? ?]; now constructor|intros K; inversion K; subst; auto].
Qed.

Lemma put_other f is ks s x : ~ In x is -> put f is ks s x = s x.
Proof.
  revert ks. induction is as [|i is IH]; intros ks Hx; [now destruct ks|]. destruct ks as [|k ks]; [reflexivity|]. cbn [put].
  unfold override at 1. rewrite (ieq_neq ieq ieq_spec); [apply IH; intros ?; apply Hx; now right|intros ->; apply Hx; now left].
Qed.
Lemma second_other is js ks s x : ~ In x js -> second_part is js ks s x = s x.
Proof.
  revert is ks. induction js as [|j js IH]; intros is ks Hx; [now destruct is|]. destruct is as [|i is], ks as [|k ks]; try reflexivity.
  cbn [second_part].
  unfold override at 1. rewrite (ieq_neq ieq ieq_spec); [apply IH; intros ?; apply Hx; now right|intros ->; apply Hx; now left].
Qed.
Lemma first_in is js ks s x : sums is js ks -> in_first is ks s -> In x is -> first_part is ks s x < idim x.
Proof.
  unfold first_part, in_first. induction 1 as [|i j k is js ks E H IH]; intros HF Hx; [destruct Hx|]. inversion HF; subst. cbn [put].
  unfold override. destruct (ieq i x) eqn:Exi; [apply ieq_spec in Exi; subst; assumption|]. apply IH; auto.
  destruct Hx as [->|]; auto. now rewrite (ieq_refl ieq ieq_spec) in Exi.
Qed.
Lemma second_in is js ks s x : sums is js ks -> in_second is ks s -> (forall k, In k ks -> s k < idim k) -> (forall j, In j js -> 0 < idim j) ->
  In x js -> second_part is js ks s x < idim x.
Proof.
  unfold in_second. induction 1 as [|i j k is js ks E H IH]; intros HF Hk Hj Hx; [destruct Hx|]. inversion HF; subst. cbn [second_part].
  unfold override. destruct (ieq j x) eqn:Exi.
  - apply ieq_spec in Exi. subst x. assert (s k < idim k) by (apply Hk; now left). assert (0 < idim j) by (apply Hj; now left).
    rewrite E in *. unfold sum_dim in *. destruct (Nat.eqb_spec (idim i + idim j) 0); lia.
  - apply IH; auto; [intros; apply Hk; now right|intros; apply Hj; now right|].
    destruct Hx as [->|]; auto. now rewrite (ieq_refl ieq ieq_spec) in Exi.
Qed.

Lemma find_dir_ok is x : In x is -> find_dir ieq is x = Ok tt.
Proof.
  intros H. unfold find_dir. replace (existsb (ieq x) is) with true; auto. symmetry. apply existsb_exists. exists x.
  split; auto. now apply ieq_spec.
Qed.

Lemma loop_ok junk Ais Bis is js ks : sums is js ks -> forall LA A LB B, tensor LA A -> tensor LB B ->
  NoDup is -> NoDup js -> NoDup ks -> incl is LA -> incl js LB -> incl is Ais -> incl js Bis ->
  (forall k, In k ks -> ~ In k LA /\ ~ In k LB /\ ~ In k is /\ ~ In k js) ->
  (forall i, In i is -> exists x, In x LA /\ x <> i) ->
  exists NA CA NB CB,
    ds_loop r0 r1 radd rmul is0 is1 ieq idim Ais Bis is js ks (LA, A) (LB, B) junk = Ok ((NA, CA), (NB, CB)) /\
    tensor NA CA /\ tensor NB CB /\
    (forall x, In x NA <-> In x ks \/ (In x LA /\ ~ In x is)) /\
    (forall x, In x NB <-> In x ks \/ (In x LB /\ ~ In x js)) /\
    (forall s, inrange idim NA s -> elt NA CA s = if all_first is ks s then elt LA A (first_part is ks s) else r0) /\
    (forall s, inrange idim NB s -> elt NB CB s = if all_second is ks s then elt LB B (second_part is js ks s) else r0).
Proof.
  induction 1 as [|i j k is js ks Ek H IH]; intros LA A LB B TA TB Ni Nj Nk Ii Ij Ii' Ij' Hk Hx.
  - exists LA, A, LB, B. cbn [ds_loop]. split; [reflexivity|]. split; [exact TA|]. split; [exact TB|].
    cbn [In]. split; [tauto|]. split; [tauto|]. split; intros s Hs; reflexivity.
  - cbn [ds_loop fst snd]. rewrite (find_dir_ok Ais i), (find_dir_ok Bis j) by (apply Ii' || apply Ij'; now left). cbn [obind].
    inversion Ni as [|? ? Ni1 Ni2]; subst. inversion Nj as [|? ? Nj1 Nj2]; subst. inversion Nk as [|? ? Nk1 Nk2]; subst.
    destruct (Hk k) as (K1 & K2 & K3 & K4); [now left|].
    assert (Hi : In i LA) by (apply Ii; now left). assert (Hj : In j LB) by (apply Ij; now left).
    assert (Pi : 0 < idim i) by (destruct TA as (_ & P & _); auto).
    assert (Pk : 0 < idim k) by (rewrite Ek; unfold sum_dim; destruct (Nat.eqb_spec (idim i + idim j) 0); lia).
    destruct (second_step LB B i j k junk TB Hj K2 Ek) as (M & N2 & C2 & EM & E2 & T2 & HN2 & HE2).
    rewrite EM. cbn [obind].
    destruct (C49_replace r0 r1 radd rmul is1 SR is1_spec ieq idim ieq_spec false LA A i k TA Hi K1 Pk) as (N1 & C1 & E1 & T1 & HN1 & HE1).
    { destruct (Hx i) as (x & X1 & X2); [now left|]. intros EO.
      assert (KX : In x (only ieq LA [i; k])). { apply (in_only ieq ieq_spec). split; auto. intros [->|[->|[]]]; auto. }
      rewrite EO in KX. destruct KX. }
    rewrite E1. cbn [obind]. rewrite E2. cbn [obind].
    destruct (IH N1 C1 N2 C2 T1 T2 Ni2 Nj2 Nk2) as (NA & CA & NB & CB & EL & TA' & TB' & HNA & HNB & HA & HB).
    { intros x Hxi. apply HN1. right. split; [apply Ii; now right|congruence]. }
    { intros x Hxi. apply HN2. right. split; [apply Ij; now right|congruence]. }
    { intros x Hxi. apply Ii'. now right. } { intros x Hxi. apply Ij'. now right. }
    { intros k' Hk'. destruct (Hk k') as (Q1 & Q2 & Q3 & Q4); [now right|]. repeat split.
      - rewrite HN1. intros [->|[? ?]]; contradiction.
      - rewrite HN2. intros [->|[? ?]]; contradiction.
      - intros ?; apply Q3; now right.
      - intros ?; apply Q4; now right. }
    { intros i' Hi'. exists k. split; [apply HN1; auto|]. intros ->. apply K3. now right. }
    exists NA, CA, NB, CB. split; [exact EL|]. split; [exact TA'|]. split; [exact TB'|].
    assert (HNA' : forall x, In x NA <-> In x (k :: ks) \/ (In x LA /\ ~ In x (i :: is))).
    { intros x. rewrite HNA, HN1. cbn [In]. split.
      - intros [Q|[[->|[Q1 Q2]] Q3]]; auto. right. split; auto. intros [->|]; auto.
      - intros [[->|Q]|[Q1 Q2]].
        + right. split; auto. intros Q; apply K3; now right.
        + now left.
        + right. split; [right; split; auto; intros ->|intros ?]; apply Q2; auto. }
    assert (HNB' : forall x, In x NB <-> In x (k :: ks) \/ (In x LB /\ ~ In x (j :: js))).
    { intros x. rewrite HNB, HN2. cbn [In]. split.
      - intros [Q|[[->|[Q1 Q2]] Q3]]; auto. right. split; auto. intros [->|]; auto.
      - intros [[->|Q]|[Q1 Q2]].
        + right. split; auto. intros Q; apply K4; now right.
        + now left.
        + right. split; [right; split; auto; intros ->|intros ?]; apply Q2; auto. }
    split; [exact HNA'|]. split; [exact HNB'|]. split.
    + intros s Hs. rewrite HA by auto. unfold all_first at 2. cbn [combine forallb fst snd]. fold (all_first is ks s).
      destruct (all_first is ks s) eqn:EF; [|now rewrite andb_false_r].
      pose proof (proj1 (all_first_iff is js ks s H) EF) as EF'. rewrite andb_true_r.
      rewrite HE1.
      * unfold first_part. rewrite (put_other _ is ks s k) by (intros ?; apply K3; now right). reflexivity.
      * intros x Hx1. destruct (in_dec (ieq_dec ieq ieq_spec) x is) as [Q|Q]; [now apply (first_in is js)|].
        unfold first_part. rewrite put_other by auto. apply Hs. apply HNA. auto.
    + intros s Hs. rewrite HB by auto. unfold all_second at 2. cbn [combine forallb fst snd]. fold (all_second is ks s).
      destruct (all_second is ks s) eqn:EF; [|now rewrite andb_false_r].
      pose proof (proj1 (all_second_iff is js ks s H) EF) as EF'. rewrite andb_true_r.
      rewrite HE2.
      * rewrite (second_other is js ks s k) by (intros ?; apply K4; now right). reflexivity.
      * intros x Hx1. destruct (in_dec (ieq_dec ieq ieq_spec) x js) as [Q|Q].
        { apply (second_in is js); auto. - intros k' Hk'. apply Hs, HNB. auto. - intros j' Hj'. destruct TB as (_ & P & _). apply P, Ij. now right. }
        rewrite second_other by auto. apply Hs. apply HNB. auto.
Qed.

(** ** C45 *)
(** The direct sum of A and B over the indices Is of A and Js of B: the other indices agree, each
    summed index has dimension dim(i)+dim(j); where all summed values lie in A's part the elements
    are A's, where all lie in B's part they are B's (the values shifted by dim(i)), and elsewhere
    they are zero. *)
Theorem C45_direct_sum A_is A B_is B Is Js IJs junk :
  tensor A_is A -> tensor B_is B -> sums Is Js IJs -> NoDup Is -> NoDup Js -> NoDup IJs ->
  incl Is A_is -> incl Js B_is -> (forall k, In k IJs -> ~ In k A_is /\ ~ In k B_is) ->
  (forall x, (In x A_is /\ ~ In x Is) <-> (In x B_is /\ ~ In x Js)) ->
  2 <= length A_is ->
  exists N C, directSum A_is A B_is B Is Js IJs junk = Ok (N, C) /\ tensor N C /\
    (forall x, In x N <-> In x IJs \/ (In x A_is /\ ~ In x Is)) /\
    forall s, inrange idim N s ->
      (Is <> [] -> in_first Is IJs s -> elt N C s = elt A_is A (first_part Is IJs s)) /\
      (Is <> [] -> in_second Is IJs s -> elt N C s = elt B_is B (second_part Is Js IJs s)) /\
      (~ in_first Is IJs s -> ~ in_second Is IJs s -> elt N C s = r0).
Proof.
  intros TA TB HS NI NJ NK II IJ HK HO HL. unfold DirectSumModel.directSum.
  destruct (sums_len _ _ _ HS) as [L1 L2]. replace (length Is =? length Js) with true by (symmetry; apply Nat.eqb_eq; congruence). cbn [negb].
  destruct (loop_ok junk A_is B_is Is Js IJs HS A_is A B_is B TA TB NI NJ NK II IJ II IJ) as (NA & CA & NB & CB & E & TA' & TB' & HNA & HNB & HA & HB).
  { intros k Hk. destruct (HK k Hk) as [Q1 Q2]. repeat split; auto. }
  { intros i Hi. destruct TA as (ND & _). destruct A_is as [|x [|y A_is]]; cbn in HL; try lia.
    destruct (ieq_dec ieq ieq_spec x i) as [->|Q]; [|exists x; split; [now left|auto]].
    exists y. split; [right; now left|]. intros ->. inversion ND as [|? ? K _]. apply K. now left. }
  rewrite E. cbn [obind fst snd].
  assert (HP : Permutation NB NA).
  { apply NoDup_Permutation; [apply TB'|apply TA'|]. intros x. rewrite HNA, HNB, HO. reflexivity. }
  destruct (C16_plus r0 r1 radd rmul SR ieq idim ieq_spec false NA CA NB CB TA' TB' HP) as (C & EC & TC & HC); [discriminate|].
  rewrite EC. cbn [obind]. exists NA, C. split; [reflexivity|]. split; [exact TC|]. split; [exact HNA|].
  intros s Hs. rewrite HC by auto.
  assert (Hs' : inrange idim NB s). { intros x Hx. apply Hs. eapply Permutation_in; [exact HP|exact Hx]. }
  rewrite HA, HB by auto.
  pose proof (all_first_iff Is Js IJs s HS) as F1. pose proof (all_second_iff Is Js IJs s HS) as F2.
  assert (F12 : Is <> [] -> in_first Is IJs s -> in_second Is IJs s -> False).
  { intros Ne Q1 Q2. destruct Q1; [congruence|]. inversion Q2; subst. lia. }
  split; [|split].
  - intros Ne Q1. rewrite (proj2 F1 Q1). destruct (all_second Is IJs s); [exfalso; apply (F12 Ne Q1), F2; auto|ring].
  - intros Ne Q1. rewrite (proj2 F2 Q1). destruct (all_first Is IJs s); [exfalso; apply (F12 Ne); auto; apply F1; auto|ring].
  - intros Q1 Q2. destruct (all_first Is IJs s); [exfalso; apply Q1, F1; auto|]. destruct (all_second Is IJs s); [exfalso; apply Q2, F2; auto|ring].
Qed.

(** Lists of different lengths, and an index that a tensor lacks, are errors. *)
Theorem C45_lengths A_is A B_is B Is Js IJs junk : length Is <> length Js -> directSum A_is A B_is B Is Js IJs junk = Err.
Proof. intros H. unfold DirectSumModel.directSum. now replace (length Is =? length Js) with false by (symmetry; now apply Nat.eqb_neq). Qed.
Theorem C45_missing A_is A B_is B i Is j Js k IJs junk : ~ In i A_is \/ ~ In j B_is ->
  directSum A_is A B_is B (i :: Is) (j :: Js) (k :: IJs) junk = Err.
Proof.
  intros H. unfold DirectSumModel.directSum. destruct (_ =? _); [|reflexivity]. cbn [negb ds_loop].
  assert (F : forall is x, ~ In x is -> find_dir ieq is x = Err).
  { intros is x Hx. unfold find_dir. destruct (existsb (ieq x) is) eqn:E; auto. apply existsb_exists in E. destruct E as (y & Hy & E).
    apply ieq_spec in E. subst. contradiction. }
  destruct (in_dec (ieq_dec ieq ieq_spec) i A_is) as [Q|Q]; [|now rewrite (F _ _ Q)].
  rewrite (find_dir_ok _ _ Q). cbn [obind]. destruct H as [H|H]; [contradiction|]. now rewrite (F _ _ H).
Qed.
End Props.

(** ** A case that meets the hypotheses *)
Definition dim45 (i : nat) : nat := match i with 1 => 2 | 2 => 3 | 3 => 2 | 4 => 5 | _ => 2 end.
Notation dsum45 := (directSum 0%Z 1%Z Z.add Z.mul (Z.eqb 0) (Z.eqb 1) Nat.eqb dim45).

(** Finding: two vectors.  The sum of a vector of dimension 2 and one of dimension 3 over their only
    indices has an index of dimension 5 but only the two numbers of A: B is lost, and the elements
    from 3 on lie outside the storage (without DEBUG nothing is reported). *)
Theorem C45_vector_refuted :
  ContractProps.tensor dim45 [1] [1; 2]%Z /\ ContractProps.tensor dim45 [2] [5; 6; 7]%Z /\
  sums dim45 [1] [2] [4] /\
  dsum45 [1] [1; 2]%Z [2] [5; 6; 7]%Z [1] [2] [4] (fun _ => 77%Z) = Ok ([4], [1; 2]%Z) /\
  dim45 4 = 5 /\ oget [1; 2]%Z 2 = UB.
Proof.
  assert (N1 : forall x, NoDup [x : nat]) by (intros; constructor; [intros []|constructor]).
  split; [|split; [|split; [|split; [|split]]]]; try (vm_compute; reflexivity).
  - split; [apply N1|]. split; [intros x [<-|[]]; cbn; lia|reflexivity].
  - split; [apply N1|]. split; [intros x [<-|[]]; cbn; lia|reflexivity].
  - constructor; [reflexivity|constructor].
Qed.

Example C45_nonvacuous :
  ContractProps.tensor dim45 [1; 3] [1; 2; 3; 4]%Z /\ ContractProps.tensor dim45 [3; 2] [5; 6; 7; 8; 9; 10]%Z /\
  sums dim45 [1] [2] [4] /\ (forall k, In k [4] -> ~ In k [1; 3] /\ ~ In k [3; 2]) /\
  (forall x, (In x [1; 3] /\ ~ In x [1]) <-> (In x [3; 2] /\ ~ In x [2])) /\
  dsum45 [1; 3] [1; 2; 3; 4]%Z [3; 2] [5; 6; 7; 8; 9; 10]%Z [1] [2] [4] (fun _ => 77%Z) =
    Ok ([3; 4], [1; 3; 2; 4; 5; 6; 7; 8; 9; 10]%Z) /\
  in_first dim45 [1] [4] (fun _ => 1) /\ in_second dim45 [1] [4] (fun x => if x =? 4 then 3 else 0) /\
  in_second dim45 [1; 1] [4; 5] (fun x => if x =? 4 then 3 else 2) /\
  ~ in_first dim45 [1; 1] [4; 5] (fun x => if x =? 4 then 3 else 0) /\ ~ in_second dim45 [1; 1] [4; 5] (fun x => if x =? 4 then 3 else 0).
Proof.
  split. { split; [repeat constructor; cbn; lia|]. split; [intros x [<-|[<-|[]]]; cbn; lia|reflexivity]. }
  split. { split; [repeat constructor; cbn; lia|]. split; [intros x [<-|[<-|[]]]; cbn; lia|reflexivity]. }
  split. { constructor; [reflexivity|constructor]. }
  split. { cbn. intros k. lia. } split. { cbn. intros x. lia. } split; [vm_compute; reflexivity|].
  repeat split; unfold in_first, in_second; try (repeat constructor; cbn; lia).
  - intros K. inversion K; subst. cbn in *. lia.
  - intros K. inversion K as [|? ? ? ? ? K2]; subst. inversion K2; subst. cbn in *. lia.
Qed.

Print Assumptions C45_direct_sum.
Print Assumptions C45_lengths.
Print Assumptions C45_missing.
Print Assumptions C45_vector_refuted.
