(** C59: qr(A,Q,R) decomposes every tensor. *)
From Coq Require Import List ZArith Arith Lia Ring Bool Permutation Sorted.
From Verif Require Import Util RangeModel RangeSpec RangeProofs TensorModel TensorSpec TensorProofs SemProofs ContractModel DenseModel DenseProofs ContractProps
  SmallStringModel SmallStringProofs QnModel QnSpec QnProofs QnProps QdModel QdSpec QdProofs QdFlux QdAdd QdSum CombinerModel CombinerProps QCombModel QCombProps QdProps
  SvdModel SvdSpec SvdRank SvdMat SvdFactor SvdDense SvdQn SvdQ2 SvdQsvd SvdProps QrSpec QrModel QrMat QrFactor QrBlocks QrQn QrQqr.
Import ListNotations.
Open Scope outcome_scope.

(** The one new index l, shared by Q and R. *)
Definition new_link {I} (dim : I -> nat) (AA Qi Ri Qix Rix : list I) (l : I) (k : nat) : Prop :=
  ~ In l AA /\ dim l = k /\ 0 < k /\ (forall x, In x Qix <-> x = l \/ In x Qi) /\ (forall x, In x Rix <-> x = l \/ In x Ri).

Section Props.
Context {R : Type} (r0 r1 : R) (radd rmul rsub : R -> R -> R) (ropp : R -> R).
Context (RT : ring_theory r0 r1 radd rmul rsub ropp eq).
Context (conj : R -> R) (HC : conjugation radd rmul conj).
(** [neg x]: the real part of x is negative. *)
Context (neg : R -> bool).
Hypothesis neg_opp : forall x, neg x = true -> neg (ropp x) = false.
(** LAPACK may fail on any matrix; when it succeeds its result is exact. *)
Context (lap : nat -> nat -> nat -> list R -> option (list R * list R)).
Hypothesis Hlap : exact_qr r0 r1 radd rmul conj lap.
Context {I : Type} (ieq : I -> I -> bool) (ieq_spec : forall a b, ieq a b = true <-> a = b).

Section Dense.
Context (idim : I -> nat) (mk : nat -> nat -> I).
Hypothesis mk_dim : forall n d, idim (mk n d) = d.
Hypothesis mk_inj : forall n n' d d', mk n d = mk n' d' -> n = n'.
Notation dqr := (dqr r0 ropp neg lap ieq idim mk).
Notation dims L := (fold_right Nat.mul 1 (map idim L)).

(** C59 (no quantum numbers).  Q gets the indices asked for, R the others, and they share one new index of
    the smaller of the two dimensions, or of the rows' if complete; Q*R is A, dag(Q)*Q the identity, Q
    unitary if complete, R upper triangular when its other indices are numbered the first one fastest,
    its diagonal not negative if asked for. *)
Theorem C59_dense : forall debug upper complete positive AA A Qis Ris junk, tensor idim AA A -> (forall n d, ~ In (mk n d) AA) ->
  (exists x, In x AA /\ to_U Qis Ris x) -> (exists x, In x AA /\ ~ to_U Qis Ris x) -> complete = true \/ upper = true ->
  (exists Qix Q l k Rix Rm Qi Ri, dqr debug upper complete positive AA A Qis Ris junk = Ok ((Qix, Q), (Rix, Rm)) /\
     shared AA Qis Ris Qi Ri /\ tensor idim Qix Q /\ tensor idim Rix Rm /\ new_link idim AA Qi Ri Qix Rix l k /\
     k = (if complete then dims Qi else Nat.min (dims Qi) (dims Ri)) /\
     qr_of r0 r1 radd rmul conj ieq idim AA Qi (joint idim Ri) neg complete positive (elt r0 idim AA A) (elt r0 idim Qix Q) l (elt r0 idim Rix Rm) k) \/
  (dqr debug upper complete positive AA A Qis Ris junk = Err /\ qr_fails lap).
Proof.
  intros debug upper complete positive AA A Qis Ris junk HT Hfr HU HV Hcu. destruct (svd_split_sides ieq ieq_spec debug AA Qis Ris (proj1 HT) HU HV) as (Qi & Ri & E & NU & NV & SH).
  destruct (dqr_spec r0 r1 radd rmul rsub ropp RT conj HC neg neg_opp lap Hlap ieq idim mk ieq_spec mk_dim mk_inj debug upper complete positive AA A Qis Ris junk Qi Ri HT Hfr E NU NV Hcu)
    as [(Qix & Q & l & k & Rix & Rm & H1 & H2 & H3 & H4 & H5 & H6 & H7 & H8 & H9 & H10)|K]; [left|now right].
  exists Qix, Q, l, k, Rix, Rm, Qi, Ri. unfold new_link. split; [exact H1|]. split; [exact SH|]. split; [exact H2|]. split; [exact H3|]. split; [auto 10|]. split; [|exact H10].
  rewrite H7. unfold qr_rows. change (size (map idim Qi)) with (dims Qi). change (size (map idim Ri)) with (dims Ri).
  destruct (Nat.ltb_spec (dims Qi) (dims Ri)), complete; auto; lia.
Qed.

(** C59.  A thin decomposition that need not be upper triangular is refused. *)
Theorem C59_dense_thin_needs_upper : forall debug positive AA A Qis Ris junk res, dqr debug false false positive AA A Qis Ris junk <> Ok res.
Proof.
  intros debug positive AA A Qis Ris junk res. unfold QrModel.dqr. destruct (svd_split ieq debug AA Qis Ris) as [[[|x Qi] [|y Ri]]| |]; cbn [obind]; try discriminate.
  destruct (combiner_dim idim (x :: Qi)) as [nu| |]; cbn [obind]; try discriminate. destruct (times_combiner _ _ _ _ _ _ _ _) as [[N1 A1]| |]; cbn [obind]; try discriminate.
  destruct (combiner_dim idim (y :: Ri)) as [nv| |]; cbn [obind]; try discriminate. destruct (times_combiner _ _ _ _ _ _ _ _) as [[N2 A2]| |]; cbn [obind]; try discriminate.
  unfold QrModel.qrOrd2. destruct (negb _); cbn; discriminate.
Qed.

(** C59.  Every index on one side: an error. *)
Theorem C59_dense_one_side : forall debug upper complete positive AA A Qis Ris junk, (forall x, In x AA -> to_U Qis Ris x) \/ (forall x, In x AA -> ~ to_U Qis Ris x) ->
  dqr debug upper complete positive AA A Qis Ris junk = Err.
Proof.
  intros debug upper complete positive AA A Qis Ris junk H. unfold QrModel.dqr. destruct (svd_split ieq debug AA Qis Ris) as [[Qi Ri]| |] eqn:E.
  - destruct (split_spec ieq ieq_spec _ _ _ _ _ _ E) as (HU & HV & _). cbn [obind]. destruct Qi as [|x Qi]; [reflexivity|]. destruct Ri as [|y Ri]; [reflexivity|]. exfalso.
    destruct (proj1 (HU x) (or_introl eq_refl)). destruct (proj1 (HV y) (or_introl eq_refl)). destruct H as [H|H]; [specialize (H y)|specialize (H x)]; tauto.
  - reflexivity.
  - unfold svd_split in E. destruct Qis, Ris; try discriminate. destruct debug; discriminate.
Qed.
End Dense.

Section QN.
Context (bs : I -> list nat) (qns : I -> list QN) (M : SmallString -> Z) (Sx : list SmallString) (Sch : Scheme M Sx).
Context (mk : nat -> list (QN * nat) -> I).
Hypothesis mk_bs : forall n q, bs (mk n q) = map snd q.
Hypothesis mk_qns : forall n q, qns (mk n q) = map fst q.
Hypothesis mk_inj : forall n n' q q', mk n q = mk n' q' -> n = n'.
Notation qqr := (qqr r0 r1 ropp neg lap ieq bs qns mk).
Notation qtensor := (qtensor bs qns M Sx).

(** C59 (quantum numbers, upper triangular).  The same, for the order in which the values of R's indices
    appear in its combined index; Q has flux zero, R that of A, both keep the arrows of A, and the new
    index has opposite arrows on Q and R.  A tensor without blocks is an error.  Missing: the function may
    fail as soon as R's indices have three different charges. *)
Theorem C59_qn_partial : forall debug complete positive dir AA (A : qd R) q Qis Ris, qtensor dir AA A q -> (forall x, In x AA -> dir x <> ArrNeither) -> (forall n d, ~ In (mk n d) AA) ->
  (exists x, In x AA /\ to_U Qis Ris x) -> (exists x, In x AA /\ ~ to_U Qis Ris x) ->
  (exists Qix Q l k Rix Rm J qR Qi Ri dirQ dirR, qqr debug true complete positive dir AA A Qis Ris = Ok ((Qix, Q), (Rix, Rm)) /\
     shared AA Qis Ris Qi Ri /\ new_link (total bs) AA Qi Ri Qix Rix l k /\
     qtensor dirQ Qix Q qn0 /\ (forall x, In x Qi -> dirQ x = dir x) /\
     qtensor dirR Rix Rm qR /\ (forall x, In x Ri -> dirR x = dir x) /\ dirQ l = arrow_neg (dirR l) /\ dirR l <> ArrNeither /\
     ((exists s, ranged bs AA s /\ qval r0 bs AA A s <> r0) -> qn_eqb qR q = true) /\
     numbering (total bs) Ri (fold_right Nat.mul 1 (map (total bs) Ri)) J /\
     qr_of r0 r1 radd rmul conj ieq (total bs) AA Qi J neg complete positive (qval r0 bs AA A) (qval r0 bs Qix Q) l (qval r0 bs Rix Rm) k) \/
  (qqr debug true complete positive dir AA A Qis Ris = Err /\ ((forall s, ranged bs AA s -> qval r0 bs AA A s = r0) \/ qr_fails lap)) \/
  (qqr debug true complete positive dir AA A Qis Ris = UB /\ exists Qi Ri, shared AA Qis Ris Qi Ri /\ three_charges bs qns M dir Ri).
Proof.
  intros debug complete positive dir AA A q Qis Ris HT Hd Hfr HU HV. destruct (svd_split_sides ieq ieq_spec debug AA Qis Ris (proj1 (proj1 HT)) HU HV) as (Qi & Ri & E & NU & NV & SH).
  destruct (qqr_spec r0 r1 radd rmul rsub ropp RT conj HC neg neg_opp lap Hlap ieq ieq_spec bs qns M Sx Sch mk mk_bs mk_qns mk_inj debug complete positive dir AA A q Qis Ris Qi Ri HT Hd Hfr E NU NV)
    as [(Qix & Q & l & k & Rix & Rm & J & qR & H1 & (dirQ & Q1 & Q2 & Q3) & (dirR & R1 & R2 & R3) & H4 & H5 & H6 & H7 & H8 & H9 & H10 & H11)|[K|(K1 & K2)]]; [left|right; now left|right; right; eauto].
  exists Qix, Q, l, k, Rix, Rm, J, qR, Qi, Ri, dirQ, dirR. unfold new_link. split; [exact H1|]. split; [exact SH|]. split; [auto 10|]. split; [exact Q1|]. split; [exact Q3|]. split; [exact R1|]. split; [exact R3|].
  split; [congruence|]. split; [rewrite R2; apply comb_dir_ne|]. auto.
Qed.

Theorem C59_qn_thin_needs_upper : forall debug positive dir AA A Qis Ris res, qqr debug false false positive dir AA A Qis Ris <> Ok res.
Proof.
  intros debug positive dir AA A Qis Ris res. unfold QrModel.qqr. destruct (svd_split ieq debug AA Qis Ris) as [[[|x Qi] [|y Ri]]| |]; cbn [obind]; try discriminate.
  cbv zeta. destruct (qcombiner _ _ _ _ (x :: Qi)) as [[qu tu]| |]; cbn [obind]; try discriminate. destruct (times_qcombiner _ _ _ _ _ _ _ _ _ _ _ _) as [[N1 A1]| |]; cbn [obind]; try discriminate.
  destruct (qcombiner _ _ _ _ (y :: Ri)) as [[qv tv]| |]; cbn [obind]; try discriminate. destruct (times_qcombiner _ _ _ _ _ _ _ _ _ _ _ _) as [[N2 A2]| |]; cbn [obind]; try discriminate.
  unfold QrModel.qqrOrd2. destruct (negb _); cbn; discriminate.
Qed.
End QN.
End Props.

(** ** concrete cases: a LAPACK that knows the integer matrices that are already upper triangular. *)
Open Scope Z_scope.
Definition upperb (m n : nat) (a : list Z) : bool :=
  forallb (fun j => forallb (fun i => (i <=? j)%nat || (nth (i + m * j) a 0 =? 0)) (seq 0 m)) (seq 0 n).
Definition ex_qr (m n k : nat) (a : list Z) : option (list Z * list Z) :=
  if upperb m n a then Some (a, map (fun p => if (p mod m =? p / m)%nat then 1 else 0) (seq 0 (m * Nat.max n k))) else None.
Lemma ex_qr_exact : exact_qr 0 1 Z.add Z.mul (fun z => z) ex_qr.
Proof.
  intros m n k a h q Hm Hn Hk La E. unfold ex_qr in E. destruct (upperb m n a) eqn:U; [|discriminate]. injection E as <- <-. split; [exact La|]. split; [now rewrite map_length, seq_length|].
  assert (UP : forall i j, (i < m)%nat -> (j < n)%nat -> (j < i)%nat -> cm 0 m a i j = 0).
  { intros i j Hi Hj Hl. unfold upperb in U. rewrite forallb_forall in U. specialize (U j ltac:(apply in_seq; lia)). rewrite forallb_forall in U. specialize (U i ltac:(apply in_seq; lia)).
    destruct (Nat.leb_spec i j) as [|]; [lia|]. cbn [orb] in U. apply Z.eqb_eq in U. exact U. }
  assert (QV : forall i r, (i < m)%nat -> (r < k)%nat -> cm 0 m (map (fun p => if (p mod m =? p / m)%nat then 1 else 0) (seq 0 (m * Nat.max n k))) i r = if (i =? r)%nat then 1 else 0).
  { intros i r Hi Hr. unfold cm. assert (i + m * r < m * Nat.max n k)%nat by (assert (m * (r + 1) <= m * Nat.max n k)%nat by (apply Nat.mul_le_mono_l; lia); lia). rewrite nth_seq_map by assumption.
    rewrite Nat.add_comm, Nat.mul_comm, Nat.add_comm. rewrite Nat.mod_add, Nat.div_add by lia. rewrite Nat.mod_small, Nat.div_small by lia. reflexivity. }
  split; [|split].
  - intros i j Hi Hj. destruct (Nat.lt_ge_cases i k) as [Hik|Hik].
    + rewrite (QrBlocks.sum_one 0 1 Z.add Z.mul Z.sub Z.opp Zth k i); [|auto|intros r Hr Ne; rewrite QV by auto; destruct (Nat.eqb_spec i r); [congruence|ring]].
      rewrite QV, Nat.eqb_refl by auto. destruct (Nat.leb_spec i j); [ring|]. rewrite UP by auto. ring.
    + rewrite (sum_zero 0 1 Z.add Z.mul Z.sub Z.opp Zth); [apply UP; lia|]. intros r Hr. rewrite QV by auto. destruct (Nat.eqb_spec i r); [lia|ring].
  - intros r r' Hr Hr'. assert (Hrm : (r < m)%nat) by lia. rewrite (QrBlocks.sum_one 0 1 Z.add Z.mul Z.sub Z.opp Zth m r); [|auto|intros i Hi Ne; rewrite (QV i r) by auto; destruct (Nat.eqb_spec i r); [congruence|ring]].
    rewrite !QV, Nat.eqb_refl by auto. unfold kron. destruct (r =? r')%nat; ring.
  - intros -> i i' Hi Hi'. rewrite (QrBlocks.sum_one 0 1 Z.add Z.mul Z.sub Z.opp Zth m i); [|auto|intros r Hr Ne; rewrite (QV i r) by auto; destruct (Nat.eqb_spec i r); [congruence|ring]].
    rewrite !QV, Nat.eqb_refl by auto. unfold kron. rewrite (Nat.eqb_sym i' i). destruct (i =? i')%nat; ring.
Qed.
Lemma ex_neg x : (x <? 0) = true -> (- x <? 0) = false.
Proof. rewrite Z.ltb_lt, Z.ltb_ge. lia. Qed.
Close Scope Z_scope.

(** A tensor with indices of dimensions 2, 1 and 3. *)
Definition qrA : list Z := [-3; 0; 5; 2; 1; 4]%Z.
Definition zqr := dqr 0%Z Z.opp (fun x => x <? 0)%Z ex_qr xd_eq snd xd_mk.
Example C59_dense_nonvacuous : exact_qr 0%Z 1%Z Z.add Z.mul (fun z => z) ex_qr /\ tensor snd xA qrA /\ (forall n d, ~ In (xd_mk n d) xA) /\
  zqr false true false true xA qrA (Some [(2, 1); (1, 2)]) None (fun _ _ => 0%Z) =
    Ok (([(1, 2); (2, 1); (100, 2)], [-1; 0; 0; 1]%Z), ([(100, 2); (3, 3)], [3; 0; -5; 2; -1; 4]%Z)) /\
  (exists Q Rm, zqr false false true false [(1, 2); (2, 1)] [7; 0]%Z None (Some [(2, 1)]) (fun _ _ => 0%Z) = Ok (([(1, 2); (100, 2)], Q), ([(100, 2); (2, 1)], Rm))).
Proof.
  split; [exact ex_qr_exact|]. split. { split; [repeat constructor; cbn; intuition discriminate|]. split; [intros x [<-|[<-|[<-|[]]]]; cbn; lia|]. vm_compute. reflexivity. }
  split; [intros n d [K|[K|[K|[]]]]; discriminate|].
  split; [vm_compute; reflexivity|]. do 2 eexists. vm_compute. reflexivity.
Qed.

(** With quantum numbers: charges 0, 1 and 2. *)
Definition qc1 : QN := ex_q [(nSz, 1%Z)].
Definition qc2 : QN := ex_q [(nSz, 2%Z)].
Lemma qc_charges v : Charges ex_mod ex_names (ex_q [(nSz, v)]).
Proof.
  apply ch_make with [(nSz, v)].
  - repeat constructor; cbn; auto.
  - intros n w [E|[]]. injection E as <- _. cbn. auto.
  - unfold ex_q. destruct v; reflexivity.
Qed.
Definition zqqr := qqr 0%Z 1%Z Z.opp (fun x => x <? 0)%Z ex_qr qx_eq qx_bs qx_qns qx_mk.
Definition ztensor := qtensor (R := Z) qx_bs qx_qns ex_mod ex_names.
Ltac qt :=
  split; [split; [repeat constructor; cbn; intuition discriminate|]; intros ? [<-|[<-|[]]]; cbn; (split; [discriminate|repeat constructor])|];
  split; [intros ? [<-|[<-|[]]]; (split; [reflexivity|]); repeat (constructor; [first [apply qc_charges|constructor]|]); constructor|];
  split; [split; cbn; [repeat (split; [first [reflexivity|solve [auto]|repeat constructor; cbn; lia]|]); auto|repeat constructor; cbn; lia]|]; split; [constructor|];
  let b := fresh in let Hb := fresh in let n := fresh in intros b Hb n; unfold has_block in Hb; cbn [offs map fst] in Hb; rewrite <- qn0_val;
  repeat (destruct Hb as [<-|Hb]; [unfold qx_qns, qx_dir; cbn [flux_val Nat.eqb nth arrow_int map fst snd]; rewrite <- ?qn0_val; match goal with |- residue _ ?z = 0%Z => replace z with 0%Z by ring end; apply residue_0|]); destruct Hb.

(** Rows with charges 0, 1, 2; columns with charges 1, 2, 0; one 1 x 1 block for every charge. *)
Definition qr_r : qx := (1, [(qn0, 1); (qc1, 1); (qc2, 1)]).
Definition qr_c : qx := (2, [(qc1, 1); (qc2, 1); (qn0, 1)]).
Definition qrP : qd Z := mkQD [([1; 0], 0); ([2; 1], 1); ([0; 2], 2)] [7; 4; 5]%Z.
(** C59.  LAPACK decomposes every block, but the permutation that sorts the columns of R is used where its
    inverse is needed: qr dereferences a null pointer. *)
Theorem C59_permutation_refuted : exists AA (A : qd Z) Qis, ztensor qx_dir AA A qn0 /\ (forall x, In x AA -> qx_dir x <> ArrNeither) /\ (forall n d, ~ In (qx_mk n d) AA) /\
  (forall a, upperb 1 1 a = true) /\ Forall (fun x => Forall (fun n => n = 1) (qx_bs x)) AA /\
  zqqr false true false false qx_dir AA A (Some Qis) None = UB /\ zqqr false true true false qx_dir AA A (Some Qis) None = UB.
Proof.
  exists [qr_r; qr_c], qrP, [qr_r]. split; [unfold qr_r, qr_c, qrP; qt|].
  split; [intros x [<-|[<-|[]]]; discriminate|]. split; [intros n d [K|[K|[]]]; discriminate|]. split; [reflexivity|]. split; [repeat constructor|]. split; vm_compute; reflexivity.
Qed.

(** Two rows and one column, both of charge zero. *)
Definition qr_r2 : qx := (1, [(qn0, 2)]).
Definition qr_c1 : qx := (2, [(qn0, 1)]).
Definition qrT : qd Z := mkQD [([0; 0], 0)] [3; 0]%Z.
(** C59.  Complete and not upper triangular with quantum numbers, more rows than columns: the columns of Q
    that complete it are never written, dag(Q)*Q is not the identity. *)
Theorem C59_complete_not_upper_refuted : exists AA (A : qd Z) Qis, ztensor qx_dir AA A qn0 /\ (forall x, In x AA -> qx_dir x <> ArrNeither) /\ (forall n d, ~ In (qx_mk n d) AA) /\
  exists Qix Q l Rix Rm, zqqr false false true false qx_dir AA A (Some Qis) None = Ok ((Qix, Q), (Rix, Rm)) /\ In l Qix /\ ~ In l AA /\ total qx_bs l = 2 /\
    ~ isometry 0%Z 1%Z Z.add Z.mul (fun z => z) qx_eq (total qx_bs) Qis l 2 (qval 0%Z qx_bs Qix Q).
Proof.
  exists [qr_r2; qr_c1], qrT, [qr_r2]. split; [unfold qr_r2, qr_c1, qrT; qt|].
  split; [intros x [<-|[<-|[]]]; discriminate|]. split; [intros n d [K|[K|[]]]; discriminate|].
  do 5 eexists. split; [vm_compute; reflexivity|]. split; [right; now left|]. split; [intros [K|[K|[]]]; discriminate|]. split; [reflexivity|].
  intros K. specialize (K (fun _ => 0) 1 1 ltac:(lia) ltac:(lia)). vm_compute in K. discriminate.
Qed.

(** A tensor with two charges decomposed completely: a 2 x 1 block, a 1 x 1 block, and a row without a block. *)
Definition qr_r3 : qx := (1, [(qn0, 1); (qc1, 2); (qc2, 1)]).
Definition qr_c3 : qx := (2, [(qc1, 1); (qn0, 1)]).
Definition qrB : qd Z := mkQD [([1; 0], 0); ([0; 1], 2)] [3; 0; -5]%Z.
Example C59_qn_nonvacuous : ztensor qx_dir [qr_r3; qr_c3] qrB qn0 /\ (forall x, In x [qr_r3; qr_c3] -> qx_dir x <> ArrNeither) /\ (forall n d, ~ In (qx_mk n d) [qr_r3; qr_c3]) /\
  exists Q l Rm, zqqr false true true true qx_dir [qr_r3; qr_c3] qrB (Some [qr_r3]) None = Ok (([qr_r3; l], Q), ([l; qr_c3], Rm)) /\
    snd l = [(qc1, 1); (qn0, 1); (qc1, 1); (qc2, 1)] /\ store Rm = [3; 0; 5]%Z.
Proof.
  split; [unfold qr_r3, qr_c3, qrB; qt|]. split; [intros x [<-|[<-|[]]]; discriminate|]. split; [intros n d [K|[K|[]]]; discriminate|].
  do 3 eexists. split; [vm_compute; reflexivity|]. split; vm_compute; reflexivity.
Qed.

Print Assumptions C59_dense.
Print Assumptions C59_dense_thin_needs_upper.
Print Assumptions C59_dense_one_side.
Print Assumptions C59_qn_partial.
Print Assumptions C59_qn_thin_needs_upper.
Print Assumptions C59_permutation_refuted.
Print Assumptions C59_complete_not_upper_refuted.
