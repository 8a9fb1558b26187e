(** C51: svd(A,U,D,V) decomposes every tensor. *)
From Coq Require Import List ZArith Arith Lia Ring Bool Permutation Sorted.
From Verif Require Import Util RangeModel RangeSpec RangeProofs TensorModel TensorSpec TensorProofs SemProofs ContractModel DenseModel DenseProofs ContractProps
  SmallStringModel SmallStringProofs QnModel QnSpec QnProofs QnProps QdModel QdSpec QdProofs QdFlux QdAdd QdSum CombinerModel CombinerProps QCombModel QCombProps QdProps
  SvdModel SvdSpec SvdRank SvdMat SvdFactor SvdBlocks SvdDense SvdQn SvdFill SvdQ2 SvdQsvd.
Import ListNotations.
Open Scope outcome_scope.

(** The indices Ui and Vi of A that go to U and to V. *)
Definition shared {I} (AA : list I) (Uis Vis : option (list I)) (Ui Vi : list I) : Prop :=
  NoDup Ui /\ NoDup Vi /\ (forall x, In x Ui <-> In x AA /\ to_U Uis Vis x) /\ (forall x, In x Vi <-> In x AA /\ ~ to_U Uis Vis x).
(** The new indices l of U and r of V, of the dimension of D. *)
Definition new_links {I} (dim : I -> nat) (AA Ui Vi Uix Vix : list I) (l r : I) (k : nat) : Prop :=
  ~ In l AA /\ ~ In r AA /\ l <> r /\ dim l = k /\ dim r = k /\ 0 < k /\
  (forall x, In x Uix <-> x = l \/ In x Ui) /\ (forall x, In x Vix <-> x = r \/ In x Vi).

Lemma discard_none {R} (ds : list (list R)) : discarded (map (@length R) ds) ds = [].
Proof. induction ds as [|d ds IH]; cbn; auto. rewrite skipn_all, IH. reflexivity. Qed.

Section Props.
Context {R : Type} (r0 r1 : R) (radd rmul rsub : R -> R -> R) (ropp : R -> R).
Context (RT : ring_theory r0 r1 radd rmul rsub ropp eq).
Context (conj : R -> R) (HC : conjugation radd rmul conj).
(** gesdd and gesvd may fail on any matrix; when they succeed their result is exact. *)
Context (gesdd gesvd : nat -> nat -> list R -> option (list R * list R * list R)).
Hypothesis Hdd : exact_lapack r0 r1 radd rmul conj gesdd.
Hypothesis Hvd : exact_lapack r0 r1 radd rmul conj gesvd.
Context {I : Type} (ieq : I -> I -> bool) (ieq_spec : forall a b, ieq a b = true <-> a = b).
(** keep chooses how many singular values of every block are kept. *)
Context (keep : list (list R) -> list nat) (Hkeep : keeps keep).
Notation may_err := (may_err gesdd gesvd).

Section Dense.
Context (idim : I -> nat) (mk : nat -> nat -> I).
Hypothesis mk_dim : forall n d, idim (mk n d) = d.
Hypothesis mk_inj : forall n n' d d', mk n d = mk n' d' -> n = n'.
Notation dsvd := (dsvd r0 conj gesdd gesvd ieq idim mk keep).

Lemma svd_split_sides debug AA Uis Vis : NoDup AA -> (exists x, In x AA /\ to_U Uis Vis x) -> (exists x, In x AA /\ ~ to_U Uis Vis x) ->
  exists Ui Vi, svd_split ieq debug AA Uis Vis = Ok (Ui, Vi) /\ Ui <> [] /\ Vi <> [] /\ shared AA Uis Vis Ui Vi.
Proof.
  intros ND (x & Hx & Kx) (y & Hy & Ky).
  assert (exists Ui Vi, svd_split ieq debug AA Uis Vis = Ok (Ui, Vi)) as (Ui & Vi & E).
  { unfold svd_split. destruct Uis as [u|], Vis as [v|]; eauto. cbn in Ky. tauto. }
  destruct (split_spec ieq ieq_spec _ _ _ _ _ _ E) as (HU & HV & HN). destruct (HN ND) as [NU NV]. exists Ui, Vi. split; [exact E|].
  split; [intros ->; apply (proj2 (HU x)); auto|]. split; [intros ->; apply (proj2 (HV y)); auto|]. split; [exact NU|]. split; [exact NV|]. split; [exact HU|exact HV].
Qed.

(** C51 (no quantum numbers).  U and V get the indices asked for and one new index each; dag(U)*U and
    dag(V)*V are identities; U*D*V is A up to the discarded singular values, exactly if none are.
    Otherwise LAPACK failed: an error; or, gesdd failing with the default method, undefined behaviour. *)
Theorem C51_dense : forall debug m AA A Uis Vis junk, tensor idim AA A -> (forall n d, ~ In (mk n d) AA) ->
  (exists x, In x AA /\ to_U Uis Vis x) -> (exists x, In x AA /\ ~ to_U Uis Vis x) ->
  (exists Uix U l r D Vix V Ui Vi d, dsvd debug m AA A Uis Vis junk = Ok ((Uix, U), (l, r, D), (Vix, V)) /\
     shared AA Uis Vis Ui Vi /\ tensor idim Uix U /\ tensor idim Vix V /\ new_links idim AA Ui Vi Uix Vix l r (length D) /\
     svd_of r0 r1 radd rmul conj ieq idim rsub AA Ui Vi (elt r0 idim AA A) (elt r0 idim Uix U) l r D (elt r0 idim Vix V) [d] (keep [d])) \/
  (dsvd debug m AA A Uis Vis junk = Err /\ may_err m) \/
  (dsvd debug m AA A Uis Vis junk = UB /\ m = MAuto /\ fails gesdd).
Proof.
  intros debug m AA A Uis Vis junk HT Hfr HU HV. destruct (svd_split_sides debug AA Uis Vis (proj1 HT) HU HV) as (Ui & Vi & E & NU & NV & SH).
  destruct (dsvd_spec r0 r1 radd rmul rsub ropp RT conj HC gesdd gesvd Hdd Hvd ieq idim mk ieq_spec keep Hkeep mk_dim mk_inj debug m AA A Uis Vis junk Ui Vi HT Hfr E NU NV)
    as [(Uix & U & l & r & D & Vix & V & d & H1 & H2 & H3 & H4 & H5 & H6 & H7 & H8 & H9 & H10 & H11 & H12)|K]; [left|now right].
  exists Uix, U, l, r, D, Vix, V, Ui, Vi, d. unfold new_links. auto 20.
Qed.

(** C51.  Nothing discarded: U*D*V is A, element by element. *)
Theorem C51_dense_exact : (forall ds, keep ds = map (@length R) ds) -> forall debug m AA A Uis Vis junk Uix U l r D Vix V, tensor idim AA A -> (forall n d, ~ In (mk n d) AA) ->
  dsvd debug m AA A Uis Vis junk = Ok ((Uix, U), (l, r, D), (Vix, V)) ->
  forall s, inrange idim AA s -> udv r0 radd rmul ieq (elt r0 idim Uix U) l r D (elt r0 idim Vix V) s = elt r0 idim AA A s.
Proof.
  intros Hk debug m AA A Uis Vis junk Uix U l r D Vix V HT Hfr E s Hs.
  assert (exists Ui Vi, svd_split ieq debug AA Uis Vis = Ok (Ui, Vi) /\ Ui <> [] /\ Vi <> []) as (Ui & Vi & ES & NU & NV).
  { unfold SvdModel.dsvd in E. destruct (svd_split ieq debug AA Uis Vis) as [[Ui Vi]| |]; try discriminate. cbn [obind] in E. exists Ui, Vi. split; [reflexivity|]. destruct Ui, Vi; try discriminate. split; discriminate. }
  destruct (dsvd_spec r0 r1 radd rmul rsub ropp RT conj HC gesdd gesvd Hdd Hvd ieq idim mk ieq_spec keep Hkeep mk_dim mk_inj debug m AA A Uis Vis junk Ui Vi HT Hfr ES NU NV)
    as [(Uix' & U' & l' & r' & D' & Vix' & V' & d & H1 & H2 & H3 & H4 & H5 & H6 & H7 & H8 & H9 & H10 & H11 & (_ & _ & _ & _ & H12))|[(K & _)|(K & _)]]; try congruence.
  rewrite H1 in E. injection E as <- <- <- <- <- <- <-. apply H12; [|exact Hs]. rewrite Hk. apply discard_none.
Qed.

(** C51.  Every index on one side: an error. *)
Theorem C51_dense_one_side : forall debug m AA A Uis Vis junk, (forall x, In x AA -> to_U Uis Vis x) \/ (forall x, In x AA -> ~ to_U Uis Vis x) ->
  dsvd debug m AA A Uis Vis junk = Err.
Proof.
  intros debug m AA A Uis Vis junk H. unfold SvdModel.dsvd. destruct (svd_split ieq debug AA Uis Vis) as [[Ui Vi]| |] eqn:E.
  - destruct (split_spec ieq ieq_spec _ _ _ _ _ _ E) as (HU & HV & _). cbn [obind]. destruct Ui as [|x Ui]; [reflexivity|]. destruct Vi as [|y Vi]; [reflexivity|]. exfalso.
    destruct (proj1 (HU x) (or_introl eq_refl)). destruct (proj1 (HV y) (or_introl eq_refl)). destruct H as [H|H]; [specialize (H y)|specialize (H x)]; tauto.
  - reflexivity.
  - unfold svd_split in E. destruct Uis, Vis; try discriminate. destruct debug; discriminate.
Qed.
End Dense.

Section QN.
Context (bs : I -> list nat) (qns : I -> list QN) (M : SmallString -> Z) (Sx : list SmallString) (Sch : Scheme M Sx).
Context (mk : nat -> list (QN * nat) -> I).
Hypothesis mk_bs : forall n q, bs (mk n q) = map snd q.
Hypothesis mk_qns : forall n q, qns (mk n q) = map fst q.
Hypothesis mk_inj : forall n n' q q', mk n q = mk n' q' -> n = n'.
Notation qsvd := (qsvd r0 conj gesdd gesvd ieq bs qns mk keep).
Notation qtensor := (qtensor bs qns M Sx).

(** C51 (quantum numbers).  The same, block by block; U and V have zero flux, keep the arrows of A on its
    indices and have the arrow opposite to their combined side on the new index.  A tensor that is zero
    may have no blocks at all: an error. *)
Theorem C51_qn : forall debug m dir AA (A : qd R) q Uis Vis, qtensor dir AA A q -> (forall x, In x AA -> dir x <> ArrNeither) -> (forall n d, ~ In (mk n d) AA) ->
  (exists x, In x AA /\ to_U Uis Vis x) -> (exists x, In x AA /\ ~ to_U Uis Vis x) ->
  (exists Uix U l r D Vix V Ui Vi ds, qsvd debug m dir AA A Uis Vis = Ok ((Uix, U), (l, r, D), (Vix, V)) /\
     shared AA Uis Vis Ui Vi /\ new_links (total bs) AA Ui Vi Uix Vix l r (length D) /\
     (exists dirU, qtensor dirU Uix U qn0 /\ arrows_of dir Ui l dirU) /\ (exists dirV, qtensor dirV Vix V qn0 /\ arrows_of dir Vi r dirV) /\
     svd_of r0 r1 radd rmul conj ieq (total bs) rsub AA Ui Vi (qval r0 bs AA A) (qval r0 bs Uix U) l r D (qval r0 bs Vix V) ds (keep ds)) \/
  (qsvd debug m dir AA A Uis Vis = Err /\ ((forall s, ranged bs AA s -> qval r0 bs AA A s = r0) \/ may_err m)) \/
  (qsvd debug m dir AA A Uis Vis = UB /\ m = MAuto /\ fails gesdd).
Proof.
  intros debug m dir AA A q Uis Vis HT Hd Hfr HU HV. destruct (svd_split_sides debug AA Uis Vis (proj1 (proj1 HT)) HU HV) as (Ui & Vi & E & NU & NV & SH).
  destruct (qsvd_spec r0 r1 radd rmul rsub ropp RT conj HC gesdd gesvd Hdd Hvd ieq ieq_spec bs qns M Sx Sch mk keep Hkeep mk_bs mk_qns mk_inj debug m dir AA A q Uis Vis Ui Vi HT Hd Hfr E NU NV)
    as [(Uix & U & l & r & D & Vix & V & d & H1 & H2 & H3 & H4 & H5 & H6 & H7 & H8 & H9 & H10 & H11 & H12)|K]; [left|now right].
  exists Uix, U, l, r, D, Vix, V, Ui, Vi, d. unfold new_links. auto 20.
Qed.

(** C51.  Nothing discarded: U*D*V is A, element by element. *)
Theorem C51_qn_exact : (forall ds, keep ds = map (@length R) ds) -> forall debug m dir AA (A : qd R) q Uis Vis Uix U l r D Vix V,
  qtensor dir AA A q -> (forall x, In x AA -> dir x <> ArrNeither) -> (forall n d, ~ In (mk n d) AA) ->
  qsvd debug m dir AA A Uis Vis = Ok ((Uix, U), (l, r, D), (Vix, V)) ->
  forall s, ranged bs AA s -> udv r0 radd rmul ieq (qval r0 bs Uix U) l r D (qval r0 bs Vix V) s = qval r0 bs AA A s.
Proof.
  intros Hk debug m dir AA A q Uis Vis Uix U l r D Vix V HT Hd Hfr E s Hs.
  assert (exists Ui Vi, svd_split ieq debug AA Uis Vis = Ok (Ui, Vi) /\ Ui <> [] /\ Vi <> []) as (Ui & Vi & ES & NU & NV).
  { unfold SvdModel.qsvd in E. destruct (svd_split ieq debug AA Uis Vis) as [[Ui Vi]| |]; try discriminate. cbn [obind] in E. exists Ui, Vi. split; [reflexivity|]. destruct Ui, Vi; try discriminate. split; discriminate. }
  destruct (qsvd_spec r0 r1 radd rmul rsub ropp RT conj HC gesdd gesvd Hdd Hvd ieq ieq_spec bs qns M Sx Sch mk keep Hkeep mk_bs mk_qns mk_inj debug m dir AA A q Uis Vis Ui Vi HT Hd Hfr ES NU NV)
    as [(Uix' & U' & l' & r' & D' & Vix' & V' & d & H1 & H2 & H3 & H4 & H5 & H6 & H7 & H8 & H9 & H10 & H11 & (_ & _ & _ & _ & H12))|[(K & _)|(K & _)]]; try congruence.
  rewrite H1 in E. injection E as <- <- <- <- <- <- <-. apply H12; [|exact Hs]. rewrite Hk. apply discard_none.
Qed.
End QN.
End Props.

(** ** concrete cases: integer matrices, gesvd a table that knows a 2 x 3, a 1 x 2 and all 1 x 1 matrices;
    gesdd the same, or a routine that always fails. *)
Open Scope Z_scope.
Definition zl_eqb (a b : list Z) : bool := if list_eq_dec Z.eq_dec a b then true else false.
Definition ex_svd (m n : nat) (a : list Z) : option (list Z * list Z * list Z) :=
  if (Nat.eqb m 2 && Nat.eqb n 3 && zl_eqb a [3; 0; 0; 2; 0; 0])%bool then Some ([1; 0; 0; 1], [3; 2], [1; 0; 0; 1; 0; 0])
  else if (Nat.eqb m 1 && Nat.eqb n 2 && zl_eqb a [4; 0])%bool then Some ([1], [4], [1; 0])
  else if (Nat.eqb m 1 && Nat.eqb n 1)%bool then Some ([1], a, [1]) else None.
Definition no_svd (m n : nat) (a : list Z) : option (list Z * list Z * list Z) := None.
Lemma ex_conj : conjugation Z.add Z.mul (fun z => z).
Proof. repeat split. Qed.
Lemma ex_svd_exact : exact_lapack 0 1 Z.add Z.mul (fun z => z) ex_svd.
Proof.
  intros m n a u s vt Hm Ha E. unfold ex_svd, zl_eqb in E.
  destruct (Nat.eqb_spec m 2); [destruct (Nat.eqb_spec n 3); [destruct (list_eq_dec Z.eq_dec a [3; 0; 0; 2; 0; 0])|]|]; subst; cbn [andb] in E.
  - injection E as <- <- <-. repeat split; auto; intros i j Hi Hj; destruct i as [|[|i]]; try lia; destruct j as [|[|[|j]]]; try lia; reflexivity.
  - discriminate.
  - discriminate.
  - destruct (Nat.eqb_spec m 1); [|discriminate]. subst. destruct (Nat.eqb_spec n 2); [destruct (list_eq_dec Z.eq_dec a [4; 0])|]; subst; cbn [andb Nat.eqb] in E.
    + injection E as <- <- <-. repeat split; auto; intros i j Hi Hj; destruct i as [|i]; try lia; destruct j as [|[|j]]; try lia; reflexivity.
    + discriminate.
    + destruct (Nat.eqb_spec n 1); [|discriminate]. subst. injection E as <- <- <-. destruct a as [|z [|]]; try discriminate.
      repeat split; auto; intros i j Hi Hj; destruct i as [|i]; try lia; destruct j as [|j]; try lia; try reflexivity. unfold cm. cbn [sum_below nth Nat.add Nat.mul]. ring.
Qed.
Lemma no_svd_exact : exact_lapack 0 1 Z.add Z.mul (fun z => z) no_svd.
Proof. intros m n a u s vt _ _ E. discriminate. Qed.
Close Scope Z_scope.

(** Indices are pairs of an identity and a dimension. *)
Definition xd_eq (a b : nat * nat) : bool := (fst a =? fst b) && (snd a =? snd b).
Lemma xd_eq_spec a b : xd_eq a b = true <-> a = b.
Proof. unfold xd_eq. rewrite andb_true_iff, !Nat.eqb_eq. destruct a, b; cbn. split; [intros [-> ->]; auto|intros E; injection E; auto]. Qed.
Definition xd_mk (n d : nat) : nat * nat := (100 + n, d).
Definition all_of (ds : list (list Z)) : list nat := map (@length Z) ds.
Lemma all_of_keeps : keeps all_of.
Proof.
  intros ds. split; [apply map_length|]. split.
  - intros n. unfold all_of. change 0 with (@length Z []). now rewrite map_nth.
  - intros (d & Hd & N). exists (length d). split; [now apply in_map|]. destruct d; [congruence|cbn; lia].
Qed.
Definition one_of (ds : list (list Z)) : list nat := match ds with [] => [] | d :: ds' => Nat.min 1 (length d) :: map (fun d' => Nat.min 1 (length d')) ds' end.
Lemma one_of_keeps : keeps one_of.
Proof.
  assert (E : forall ds, one_of ds = map (fun d' => Nat.min 1 (length d')) ds) by (intros [|]; reflexivity).
  intros ds. rewrite E. split; [apply map_length|]. split.
  - intros n. change 0 with ((fun d' : list Z => Nat.min 1 (length d')) []). rewrite map_nth. lia.
  - intros (d & Hd & N). exists (Nat.min 1 (length d)). split; [apply (in_map (fun d' : list Z => Nat.min 1 (length d'))), Hd|]. destruct d; [congruence|cbn; lia].
Qed.
(** A tensor with indices of dimensions 2, 1 and 3; U gets the second and the first. *)
Definition xA : list (nat * nat) := [(1, 2); (2, 1); (3, 3)].
Definition xAd : list Z := [3; 0; 0; 2; 0; 0]%Z.
Definition zsvd dd keep := dsvd 0%Z (fun z => z) dd ex_svd xd_eq snd xd_mk keep false.

(** C51.  With the default method, gesdd failing: gesvd can decompose the tensor, but the fallback reads
    past the end of the matrix when the matrix is stored transposed. *)
Theorem C51_fallback_refuted : exists gesdd gesvd,
  exact_lapack 0%Z 1%Z Z.add Z.mul (fun z => z) gesdd /\ exact_lapack 0%Z 1%Z Z.add Z.mul (fun z => z) gesvd /\
  exists AA A Uis, tensor snd AA A /\ (forall n d, ~ In (xd_mk n d) AA) /\
   (exists res, dsvd 0%Z (fun z => z) gesdd gesvd xd_eq snd xd_mk all_of false MGesvd AA A (Some Uis) None (fun _ _ => 0%Z) = Ok res) /\
   dsvd 0%Z (fun z => z) gesdd gesvd xd_eq snd xd_mk all_of false MAuto AA A (Some Uis) None (fun _ _ => 0%Z) = UB.
Proof.
  exists no_svd, ex_svd. split; [exact no_svd_exact|]. split; [exact ex_svd_exact|].
  exists [(3, 3); (1, 2); (2, 1)], [3; 0; 0; 0; 2; 0]%Z, [(3, 3)].
  split. { split; [repeat constructor; cbn; intuition discriminate|]. split; [intros x [<-|[<-|[<-|[]]]]; cbn; lia|]. vm_compute. reflexivity. }
  split; [intros n d [K|[K|[K|[]]]]; discriminate|].
  split; [eexists|]; vm_compute; reflexivity.
Qed.

Example C51_dense_nonvacuous : tensor snd xA xAd /\ (forall n d, ~ In (xd_mk n d) xA) /\ keeps all_of /\ keeps one_of /\
  (exists U V, zsvd ex_svd all_of MAuto xA xAd (Some [(2, 1); (1, 2)]) None (fun _ _ => 0%Z) = Ok (U, ((100, 2), (101, 2), [3; 2]%Z), V)) /\
  (exists U V, zsvd ex_svd one_of MGesdd xA xAd None (Some [(3, 3)]) (fun _ _ => 0%Z) = Ok (U, ((100, 1), (101, 1), [3]%Z), V)).
Proof.
  split. { split; [repeat constructor; cbn; intuition discriminate|]. split; [intros x [<-|[<-|[<-|[]]]]; cbn; lia|]. vm_compute. reflexivity. }
  split; [intros n d [K|[K|[K|[]]]]; discriminate|]. split; [exact all_of_keeps|]. split; [exact one_of_keeps|].
  split; do 2 eexists; vm_compute; reflexivity.
Qed.

(** With quantum numbers an index is an identity and its sectors. *)
Definition qx := (nat * list (QN * nat))%type.
Fixpoint all_eq {A} (e : A -> A -> bool) (l l' : list A) : bool :=
  match l, l' with [], [] => true | x :: t, x' :: t' => e x x' && all_eq e t t' | _, _ => false end.
Lemma all_eq_spec {A} (e : A -> A -> bool) : (forall x y, e x y = true <-> x = y) -> forall l l', all_eq e l l' = true <-> l = l'.
Proof.
  intros H. induction l as [|x l IH]; intros [|y l']; cbn; try (split; congruence). rewrite andb_true_iff, H, IH. split; [intros [-> ->]; auto|intros E; injection E; auto].
Qed.
Definition num_eq (a b : QNum) : bool := ss_eqb (qn_name a) (qn_name b) && ((qn_val a =? qn_val b)%Z && (qn_mod a =? qn_mod b)%Z).
Lemma num_eq_spec a b : num_eq a b = true <-> a = b.
Proof. unfold num_eq. rewrite !andb_true_iff, ss_eqb_eq, !Z.eqb_eq. destruct a, b; cbn. split; [intros (-> & -> & ->); auto|intros E; injection E; auto]. Qed.
Definition sector_eqb (a b : QN * nat) : bool := all_eq num_eq (fst a) (fst b) && (snd a =? snd b).
Lemma sector_eqb_spec a b : sector_eqb a b = true <-> a = b.
Proof. unfold sector_eqb. rewrite andb_true_iff, (all_eq_spec _ num_eq_spec), Nat.eqb_eq. destruct a, b; cbn. split; [intros [-> ->]; auto|intros E; injection E; auto]. Qed.
Definition qx_eq (a b : qx) : bool := (fst a =? fst b) && all_eq sector_eqb (snd a) (snd b).
Lemma qx_eq_spec a b : qx_eq a b = true <-> a = b.
Proof. unfold qx_eq. rewrite andb_true_iff, (all_eq_spec _ sector_eqb_spec), Nat.eqb_eq. destruct a, b; cbn. split; [intros [-> ->]; auto|intros E; injection E; auto]. Qed.
Definition qx_bs (x : qx) : list nat := map snd (snd x).
Definition qx_qns (x : qx) : list QN := map fst (snd x).
Definition qx_mk (n : nat) (q : list (QN * nat)) : qx := (100 + n, q).
Definition qx1 : qx := (1, [(qn0, 1); (ex_q ex_entries1, 2)]).
Definition qx2 : qx := (2, [(qn0, 1); (ex_q ex_entries1, 1)]).
Definition qx_dir (x : qx) : Arrow := if fst x =? 1 then ArrOut else ArrIn.
Definition qxA : qd Z := mkQD [([0; 0], 0); ([1; 1], 1)] [7; 4; 0]%Z.
Example C51_qn_nonvacuous : qtensor qx_bs qx_qns ex_mod ex_names qx_dir [qx1; qx2] qxA qn0 /\ (forall n d, ~ In (qx_mk n d) [qx1; qx2]) /\
  (exists U V l r, qsvd 0%Z (fun z => z) ex_svd ex_svd qx_eq qx_bs qx_qns qx_mk all_of false MAuto qx_dir [qx1; qx2] qxA (Some [qx2]) None = Ok (U, (l, r, [7; 4]%Z), V)).
Proof.
  split.
  { split; [split; [repeat constructor; cbn; intuition discriminate|]; intros x [<-|[<-|[]]]; cbn; (split; [discriminate|repeat constructor])|].
    split; [intros x [<-|[<-|[]]]; (split; [reflexivity|]); (constructor; [constructor|]; constructor; [exact ex_charges1|constructor])|].
    split; [split; cbn; [split; [auto|]; split; [repeat constructor; cbn; lia|]; split; [auto|]; split; [repeat constructor; cbn; lia|auto]|repeat constructor; cbn; lia]|]. split; [constructor|].
    intros b Hb n. cbn [has_block offs qxA map fst] in Hb. destruct Hb as [<-|[<-|[]]]; rewrite <- qn0_val; unfold qx_qns, qx_dir, qx1, qx2; cbn [flux_val Nat.eqb nth arrow_int map fst snd]; rewrite <- ?qn0_val;
      match goal with |- residue _ ?z = 0%Z => replace z with 0%Z by ring end; apply residue_0. }
  split; [intros n d [K|[K|[]]]; discriminate|]. do 4 eexists. vm_compute. reflexivity.
Qed.

Print Assumptions C51_dense.
Print Assumptions C51_dense_exact.
Print Assumptions C51_dense_one_side.
Print Assumptions C51_qn.
Print Assumptions C51_qn_exact.
Print Assumptions C51_fallback_refuted.
