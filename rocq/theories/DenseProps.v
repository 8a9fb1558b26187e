(** C13, C16, C18: element access, addition, reordering and the non-contracting product of dense
    tensors.  Vocabulary: TensorSpec.v; [tensor] is the well-formedness of ContractProps.v. *)
From Coq Require Import List ZArith Lia Bool Arith Permutation Ring.
From Verif Require Import Util RangeModel RangeSpec RangeProofs TensorModel TensorSpec TensorProofs SemProofs
  ContractModel ContractProofs ContractSem LabelProofs DenseModel DenseProofs ContractProps.
Import ListNotations.

Section Props.
Context {R : Type} (r0 r1 : R) (radd rmul : R -> R -> R).
Context (SR : semi_ring_theory r0 r1 radd rmul (@eq R)).
Add Ring RR6 : SR.
Context {I : Type} (ieq : I -> I -> bool) (idim : I -> nat).
Hypothesis ieq_spec : forall a b, ieq a b = true <-> a = b.
Notation elt := (elt r0 idim).
Notation tensor := (tensor idim).

(** The IndexVals of the assignment [s] (0-based) on the indices [xs]: values are 1-based. *)
Definition ivals (xs : list I) (s : I -> nat) : list (I * Z) := map (fun x => (x, Z.of_nat (s x) + 1)%Z) xs.

(** C13.  Reading: whatever order the IndexVals are given in, the element at that assignment. *)
Theorem C13_elt (is : list I) (A : list R) (xs : list I) (s : I -> nat) junk :
  tensor is A -> Permutation xs is -> inrange idim is s ->
  telt ieq idim is A (ivals xs s) junk = Ok (elt is A s).
Proof.
  intros (ND & _ & F) HP Hs. apply (telt_spec ieq idim ieq_spec r0); auto.
  - unfold ivals. rewrite map_map. cbn [fst]. now rewrite map_id.
  - intros x v H. apply in_map_iff in H as (y & E & _). injection E as <- <-. lia.
Qed.

(** C13.  Writing: the addressed element becomes v, all others stay. *)
Theorem C13_set (is : list I) (A : list R) (xs : list I) (s : I -> nat) v :
  tensor is A -> Permutation xs is -> inrange idim is s ->
  exists A', tset ieq idim is A (ivals xs s) v = Ok A' /\ tensor is A' /\ elt is A' s = v /\
    forall t, inrange idim is t -> (exists x, In x is /\ t x <> s x) -> elt is A' t = elt is A t.
Proof.
  intros (ND & HP & F) HPm Hs. eexists. split.
  - apply (tset_spec ieq idim ieq_spec is A (ivals xs s) s v); auto.
    + unfold ivals. rewrite map_map. cbn [fst]. now rewrite map_id.
    + intros x w H. apply in_map_iff in H as (y & E & _). injection E as <- <-. lia.
  - split; [split; [auto|split; [auto|]]; unfold full in *; now rewrite upd_length|]. split.
    + rewrite (elt_upd idim r0 is A s s v) by auto.
      destruct (list_eq_dec _ _ _); congruence.
    + intros t Ht (x & Hx & Hd). rewrite (elt_upd idim r0 is A s t v) by auto.
      destruct (list_eq_dec _ _ _) as [E|]; auto. exfalso. apply Hd.
      symmetry. revert x Hx Hd E. clear. induction is as [|y l IH]; simpl; intros x Hx Hd E; [contradiction|]. injection E as E1 E2. destruct Hx as [<-|Hx]; eauto.
Qed.

(** C13.  A later read, in any order, sees exactly the last write. *)
Theorem C13_set_elt (is : list I) (A : list R) (xs ys : list I) (s t : I -> nat) v junk A' :
  tensor is A -> Permutation xs is -> Permutation ys is -> inrange idim is s -> inrange idim is t ->
  tset ieq idim is A (ivals xs s) v = Ok A' ->
  ((forall x, In x is -> t x = s x) -> telt ieq idim is A' (ivals ys t) junk = Ok v) /\
  ((exists x, In x is /\ t x <> s x) -> telt ieq idim is A' (ivals ys t) junk = telt ieq idim is A (ivals ys t) junk).
Proof.
  intros TA HX HY Hs Ht E. destruct (C13_set is A xs s v TA HX Hs) as (A2 & E2 & T2 & H1 & H2).
  assert (A2 = A') by congruence. subst A2. split.
  - intros H. rewrite C13_elt by auto. f_equal. rewrite <- H1. apply elt_ext. auto.
  - intros H. rewrite !C13_elt by auto. f_equal. now apply H2.
Qed.

(** C13.  A wrong number of IndexVals, or an IndexVal of an index the tensor lacks, is an error. *)
Theorem C13_errors (is : list I) (A : list R) (ivs : list (I * Z)) v junk :
  length ivs <> length is \/ (exists x w, In (x, w) ivs /\ ~ In x is) ->
  tset ieq idim is A ivs v = Err /\ telt ieq idim is A ivs junk = Err.
Proof.
  intros H. unfold tset, telt. destruct (Nat.eqb_spec (length ivs) (length is)) as [E|E]; [|split; reflexivity].
  destruct H as [H|(x & w & H1 & H2)]; [contradiction|].
  assert (HN : ~ incl (map fst ivs) is).
  { intros Q. apply H2, Q. change x with (fst (x, w)). now apply in_map. }
  cbn [negb]. rewrite !(permute_map_err ieq ieq_spec); auto.
  - now rewrite map_length, seq_length.
  - now rewrite repeat_length.
Qed.

(** C16.  L += alpha*R matches elements by index whatever the storage orders. *)
Theorem C16_daxpy (L : list I) (A : list R) (M : list I) (B : list R) alpha :
  tensor L A -> tensor M B -> Permutation M L ->
  exists A', daxpy radd rmul ieq idim L A M B alpha = Ok A' /\ tensor L A' /\
    forall s, inrange idim L s -> elt L A' s = radd (elt L A s) (rmul alpha (elt M B s)).
Proof.
  intros (NL & PL & FL) (NM & PM & FM) HP.
  destruct (daxpy_spec ieq idim ieq_spec r0 radd rmul L A M B alpha) as (A' & E & F & H); auto.
  exists A'. split; [exact E|]. split; [split; auto|exact H].
Qed.

(** C16.  A + B; when both are the same object, A *= 2 gives the same. *)
Theorem C16_plus (same : bool) (L : list I) (A : list R) (M : list I) (B : list R) :
  tensor L A -> tensor M B -> Permutation M L -> (same = true -> M = L /\ B = A) ->
  exists A', plus_eq r1 radd rmul ieq idim same L A M B = Ok A' /\ tensor L A' /\
    forall s, inrange idim L s -> elt L A' s = radd (elt L A s) (elt M B s).
Proof.
  intros TA TB HP Hsame. unfold plus_eq. destruct same.
  - destruct (Hsame eq_refl) as [-> ->]. eexists. split; [reflexivity|]. split.
    + destruct TA as (? & ? & F). split; [auto|split; [auto|]]. unfold full, mult_dense in *. now rewrite map_length.
    + intros s _. unfold TensorSpec.elt. rewrite (nth_mult r0 r1 radd rmul SR). ring.
  - destruct (C16_daxpy L A M B r1 TA TB HP) as (A' & E & T & H). exists A'. split; [exact E|]. split; [exact T|].
    intros s Hs. rewrite H by auto. ring.
Qed.

(** C16.  A - B: adding B back gives A.  [neg1] is the number -1. *)
Theorem C16_minus neg1 (same : bool) (L : list I) (A : list R) (M : list I) (B : list R) :
  radd neg1 r1 = r0 ->
  tensor L A -> tensor M B -> Permutation M L -> (same = true -> M = L /\ B = A) ->
  exists A', minus_eq r0 radd rmul neg1 ieq idim same L A M B = Ok A' /\ tensor L A' /\
    forall s, inrange idim L s -> radd (elt L A' s) (elt M B s) = elt L A s.
Proof.
  intros Hn TA TB HP Hsame. unfold minus_eq. destruct same.
  - destruct (Hsame eq_refl) as [-> ->]. eexists. split; [reflexivity|]. split.
    + destruct TA as (? & ? & F). split; [auto|split; [auto|]]. unfold full, mult_dense in *. now rewrite map_length.
    + intros s _. unfold TensorSpec.elt. rewrite (nth_mult r0 r1 radd rmul SR). ring.
  - destruct (C16_daxpy L A M B neg1 TA TB HP) as (A' & E & T & H). exists A'. split; [exact E|]. split; [exact T|].
    intros s Hs. rewrite H by auto.
    transitivity (radd (elt L A s) (rmul (radd neg1 r1) (elt M B s))); [ring|]. rewrite Hn. ring.
Qed.

(** C16.  Adding tensors with different index sets is an error. *)
Theorem C16_errors (L : list I) (A : list R) (M : list I) (B : list R) alpha :
  NoDup L -> NoDup M -> ~ Permutation M L -> daxpy radd rmul ieq idim L A M B alpha = Err.
Proof.
  intros NL NM HP. apply (daxpy_err ieq idim ieq_spec). intros [E H]. apply HP. symmetry.
  apply NoDup_Permutation_bis; auto. lia.
Qed.

(** C16.  permute keeps every element and gives exactly the requested index order; an index list
    that is not a reordering of the tensor's indices is an error. *)
Theorem C16_permute (L : list I) (A : list R) (M : list I) :
  tensor L A -> Permutation M L ->
  exists B, tpermute ieq idim L A M = Ok (M, B) /\ tensor M B /\
    forall s, inrange idim M s -> elt M B s = elt L A s.
Proof.
  intros (NL & PL & FL) HP.
  destruct (tpermute_spec ieq idim ieq_spec r0 L A M) as (B & E & F & H); auto. { now symmetry. }
  exists B. split; [exact E|]. split; [|exact H]. split; [|split; [|exact F]].
  - eapply Permutation_NoDup; [symmetry; exact HP|auto].
  - intros x Hx. apply PL. eapply Permutation_in; eauto.
Qed.
Theorem C16_permute_error (L : list I) (A : list R) (M : list I) :
  NoDup L -> NoDup M -> ~ Permutation M L -> tpermute ieq idim L A M = Err.
Proof.
  intros NL NM HP. apply (tpermute_err ieq idim ieq_spec). intros [E H]. apply HP.
  apply NoDup_Permutation_bis; auto. lia.
Qed.

(** C16.  Addition is commutative and associative up to index order. *)
Theorem C16_plus_commutes (L : list I) (A : list R) (M : list I) (B : list R) :
  tensor L A -> tensor M B -> Permutation M L ->
  exists S T, plus_eq r1 radd rmul ieq idim false L A M B = Ok S /\
    plus_eq r1 radd rmul ieq idim false M B L A = Ok T /\
    tpermute ieq idim M T L = Ok (L, S).
Proof.
  intros TA TB HP.
  destruct (C16_plus false L A M B TA TB HP) as (S & ES & TS & HS); [discriminate|].
  destruct (C16_plus false M B L A TB TA) as (T & ET & TT & HT); [now symmetry|discriminate|].
  exists S, T. split; [exact ES|]. split; [exact ET|].
  destruct (C16_permute M T L TT) as (S' & E' & T' & H'); [now symmetry|]. rewrite E'. do 2 f_equal.
  destruct TS as (NL & PL & FS), T' as (_ & _ & FS').
  apply (nth_ext _ _ r0 r0); [unfold full in *; congruence|]. intros k Hk.
  assert (Hk' : k < size (map idim L)) by (rewrite size_fold; unfold full in FS'; lia).
  destruct (tuple_assign ieq idim ieq_spec L (decode (map idim L) k) NL) as (s & Hsv).
  { rewrite decode_length, map_length. reflexivity. }
  assert (Hin : inrange idim L s) by (apply inrange_valid; rewrite Hsv; now apply decode_valid).
  assert (Hin' : inrange idim M s) by (intros x Hx; apply Hin; eapply Permutation_in; eauto).
  assert (G : elt L S' s = elt L S s).
  { rewrite H', HS, HT by auto. ring. }
  unfold TensorSpec.elt in G. rewrite Hsv, colmajor_enc, enc_decode in G by auto. exact G.
Qed.

(** C18.  A / B: no index is summed; the result has every index of either operand once, and its
    element is the product of the elements at the same values. *)
Theorem C18_ncprod (L : list I) (A : list R) (M : list I) (B : list R) junk :
  tensor L A -> tensor M B -> L <> [] \/ M <> [] ->
  exists N C, slash rmul ieq idim L A M B junk = Ok (N, C) /\ tensor N C /\
    (forall x, In x N <-> In x L \/ In x M) /\
    forall s, inrange idim N s -> elt N C s = rmul (elt L A s) (elt M B s).
Proof.
  intros (NL & PL & FL) (NM & PM & FM) HN.
  destruct (slash_spec r0 rmul ieq idim ieq_spec L A M B junk) as (C & E & F & H); auto.
  { intros x [Hx|Hx]; auto. }
  set (N := common ieq L M ++ only ieq L M ++ only ieq M L) in *.
  assert (HNx : forall x, In x N <-> In x L \/ In x M).
  { intros x. unfold N. rewrite !in_app_iff, (in_common ieq ieq_spec), !(in_only ieq ieq_spec).
    destruct (in_dec (ieq_dec ieq ieq_spec) x L), (in_dec (ieq_dec ieq ieq_spec) x M); tauto. }
  exists N, C. split; [exact E|]. split; [|split; [exact HNx|exact H]]. split; [|split; [|exact F]].
  - unfold N. apply NoDup_app_intro; [now apply NoDup_filter| |].
    + apply NoDup_app_intro; [now apply NoDup_filter|now apply NoDup_filter|].
      intros x H1 H2. apply (in_only ieq ieq_spec) in H1, H2. tauto.
    + intros x H1 H2. rewrite in_app_iff in H2. rewrite (in_common ieq ieq_spec) in H1.
      rewrite !(in_only ieq ieq_spec) in H2. tauto.
  - intros x Hx. apply HNx in Hx as [Hx|Hx]; auto.
Qed.
End Props.

(** ** concrete cases *)
Definition exd (i : nat) : nat := match i with 2 => 3 | _ => 2 end.
Example C13_nonvacuous :
  let A := [10; 20; 30; 40; 50; 60]%Z in
  telt Nat.eqb exd [1; 2] A [(2, 3%Z); (1, 1%Z)] (fun _ => 7%Z) = Ok 50%Z /\
  tset Nat.eqb exd [1; 2] A [(2, 2%Z); (1, 2%Z)] 99%Z = Ok [10; 20; 30; 99; 50; 60]%Z /\
  telt Nat.eqb exd [1; 2] A [(2, 3%Z)] (fun _ => 7%Z) = Err /\
  ivals [2; 1] (fun i => i) = [(2, 3%Z); (1, 2%Z)].
Proof. repeat split. Qed.
Example C16_nonvacuous :
  plus_eq 1%Z Z.add Z.mul Nat.eqb exd false [1; 2] [10; 20; 30; 40; 50; 60]%Z [2; 1] [1; 2; 3; 4; 5; 6]%Z
    = Ok [11; 24; 32; 45; 53; 66]%Z /\
  minus_eq 0%Z Z.add Z.mul (-1)%Z Nat.eqb exd false [1; 2] [10; 20; 30; 40; 50; 60]%Z [2; 1] [1; 2; 3; 4; 5; 6]%Z
    = Ok [9; 16; 28; 35; 47; 54]%Z /\
  tpermute Nat.eqb exd [1; 2] [1; 2; 3; 4; 5; 6]%Z [2; 1] = Ok ([2; 1], [1; 3; 5; 2; 4; 6]%Z).
Proof. repeat split. Qed.
Example C18_nonvacuous :
  slash Z.mul Nat.eqb exd [1; 2] [1; 2; 3; 4; 5; 6]%Z [2; 3] [1; 0; 2; 3; 1; 1]%Z (fun _ => 0%Z)
    = Ok ([2; 1; 3], [1; 0; 10; 2; 0; 12; 3; 3; 5; 6; 4; 6]%Z).
Proof. vm_compute. reflexivity. Qed.

(** Finding: an out-of-range value is not detected and addresses another element
    (the check in IndexVal's constructor is commented out, and offset does not check). *)
Theorem C13_out_of_range_refuted :
  exists (is : list nat) (A : list Z) ivs A',
    tensor exd is A /\ map fst ivs = is /\ (exists x v, In (x, v) ivs /\ (v > Z.of_nat (exd x))%Z) /\
    tset Nat.eqb exd is A ivs 99%Z = Ok A' /\ A' <> A.
Proof.
  exists [1; 2], [10; 20; 30; 40; 50; 60]%Z, [(1, 3%Z); (2, 1%Z)], [10; 20; 99; 40; 50; 60]%Z.
  split; [split; [repeat constructor; simpl; intuition lia|split; [intros x [<-|[<-|[]]]; simpl; lia|reflexivity]]|].
  split; [reflexivity|]. split; [exists 1, 3%Z; simpl; split; [auto|lia]|]. split; [reflexivity|discriminate].
Qed.

(** Finding: the right number of IndexVals with one index given twice and one missing is not an
    error: set writes as if the missing value were 1, and elt reads an uninitialised position. *)
Theorem C13_repeated_index_refuted :
  (exists (is : list nat) (A : list Z) ivs A',
     tensor exd is A /\ length ivs = length is /\ (exists x, In x is /\ ~ In x (map fst ivs)) /\
     tset Nat.eqb exd is A ivs 99%Z = Ok A' /\ A' <> A) /\
  (exists (is : list nat) (A : list Z) ivs junk junk',
     tensor exd is A /\ length ivs = length is /\ (exists x, In x is /\ ~ In x (map fst ivs)) /\
     telt Nat.eqb exd is A ivs junk <> telt Nat.eqb exd is A ivs junk').
Proof.
  assert (T : tensor exd [1; 2] [10; 20; 30; 40; 50; 60]%Z).
  { split; [repeat constructor; simpl; intuition lia|split; [intros x [<-|[<-|[]]]; simpl; lia|reflexivity]]. }
  split.
  - exists [1; 2], [10; 20; 30; 40; 50; 60]%Z, [(1, 2%Z); (1, 2%Z)], [10; 99; 30; 40; 50; 60]%Z.
    split; [exact T|]. split; [reflexivity|]. split; [exists 2; simpl; intuition lia|]. split; [reflexivity|discriminate].
  - exists [1; 2], [10; 20; 30; 40; 50; 60]%Z, [(1, 2%Z); (1, 2%Z)], (fun _ => 0%Z), (fun _ => 1%Z).
    split; [exact T|]. split; [reflexivity|]. split; [exists 2; simpl; intuition lia|]. vm_compute. discriminate.
Qed.

(** Finding: dividing an order-0 tensor by an order-0 tensor runs off the end of a zero-length
    counter. *)
Theorem C18_scalars_refuted :
  forall (a b : Z) junk, slash Z.mul Nat.eqb exd [] [a] [] [b] junk = UB.
Proof. intros. reflexivity. Qed.

Print Assumptions C13_elt.
Print Assumptions C13_set.
Print Assumptions C13_set_elt.
Print Assumptions C13_errors.
Print Assumptions C13_out_of_range_refuted.
Print Assumptions C13_repeated_index_refuted.
Print Assumptions C16_daxpy.
Print Assumptions C16_plus.
Print Assumptions C16_minus.
Print Assumptions C16_errors.
Print Assumptions C16_permute.
Print Assumptions C16_permute_error.
Print Assumptions C16_plus_commutes.
Print Assumptions C18_ncprod.
Print Assumptions C18_scalars_refuted.
