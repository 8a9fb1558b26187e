(** C57: diagHermitian and diagPosSemiDef diagonalise every Hermitian tensor; expHermitian exponentiates it. *)
From Coq Require Import List ZArith Arith Lia Ring Bool Permutation.
From Verif Require Import Util RangeModel RangeSpec RangeProofs TensorModel TensorSpec TensorProofs SemProofs ContractModel DenseModel DenseProofs ContractProps
  SmallStringModel SmallStringProofs QnModel QnSpec QnProofs QnProps QdModel QdSpec QdProofs QdFlux QdAdd QdSum CombinerModel CombinerProps QCombModel QCombProps QdProps
  SvdModel SvdSpec SvdRank SvdMat SvdFactor SvdBlocks SvdDense SvdQn SvdFill SvdQ2 SvdQsvd SvdProps HermSpec HermModel HermPairs HermMat HermDense HermQn HermExp.
Import ListNotations.
Open Scope outcome_scope.

(** The new index l, of dimension k, is no index of A and has no primes; U has it and the indices L. *)
Definition eig_link {J} (dim : J * nat -> nat) (p : nat) (AA L Uix : list (J * nat)) (l : J * nat) (k : nat) : Prop :=
  ~ In l AA /\ ~ In (prime p l) AA /\ snd l = 0 /\ dim l = k /\ 0 < k /\ (forall x, In x Uix <-> x = l \/ In x L).

(** Every eigenvector of A is an eigenvector of T, the eigenvalue lam becoming f lam; and such eigenvectors
    form a basis: A and T have a common orthonormal basis of them. *)
Section FunOf.
Context {R : Type} (r0 r1 : R) (radd rmul : R -> R -> R) (conj : R -> R) {J : Type} (ieq : J * nat -> J * nat -> bool) (dim : J * nat -> nat).
Definition function_of (f : R -> R) (p : nat) (AA L : list (J * nat)) (A T : (J * nat -> nat) -> R) : Prop :=
  (forall lam v, eigenvector r0 radd rmul ieq dim p L A lam v -> eigenvector r0 radd rmul ieq dim p L T (f lam) v) /\
  exists l U D, ~ In l AA /\ isometry r0 r1 radd rmul conj ieq dim L l (length D) U /\ complete r0 r1 radd rmul conj ieq dim L l (length D) U /\
    (forall x, In x D -> conj x = x) /\
    forall s, inrange dim AA s -> A s = udu r0 radd rmul conj ieq p U l D s /\ T s = udu r0 radd rmul conj ieq p U l (map f D) s.
End FunOf.

Lemma qval_ext {R I} (r0 : R) (bs : I -> list nat) L A s s' : (forall x, In x L -> s x = s' x) -> qval r0 bs L A s = qval r0 bs L A s'.
Proof.
  intros H. unfold qval. assert (E1 : QdSpec.blockof bs L s = QdSpec.blockof bs L s') by (unfold QdSpec.blockof; apply map_ext_in; intros x Hx; now rewrite H).
  assert (E2 : QdSpec.placeof bs L s = QdSpec.placeof bs L s') by (unfold QdSpec.placeof, QdSpec.dimsof; f_equal; apply map_ext_in; intros x Hx; now rewrite H).
  now rewrite E1, E2.
Qed.
Lemma all_keeps {R} : keeps (map (@length R)).
Proof.
  intros ds. split; [apply map_length|]. split.
  - intros n. change 0 with (@length R []). now rewrite map_nth.
  - intros (d & Hd & N). exists (length d). split; [now apply in_map|]. destruct d; [congruence|cbn; lia].
Qed.

Section Props.
Context {R : Type} (r0 r1 : R) (radd rmul rsub : R -> R -> R) (ropp : R -> R).
Context (RT : ring_theory r0 r1 radd rmul rsub ropp eq).
Context (conj : R -> R) (HC : conjugation radd rmul conj).
(** dsyev/zheev may fail on any matrix; when it succeeds on a Hermitian one its result is exact. *)
Context (heev : nat -> list R -> option (list R * list R)).
Hypothesis Hev : exact_heev r0 r1 radd rmul conj heev.
Context {J : Type} (jeq : J -> J -> bool) (jeq_spec : forall a b, jeq a b = true <-> a = b).
Notation I := (J * nat)%type.
Notation ieq := (ieqp jeq).
Notation ieq_spec := (ieqp_spec jeq jeq_spec).

Section Dense.
Context (jdim : J -> nat) (mk : nat -> nat -> J).
Hypothesis mk_dim : forall n d, jdim (mk n d) = d.
Hypothesis mk_inj : forall n n' d d', mk n d = mk n' d' -> n = n'.
(** keep chooses how many eigenvalues are kept, clamp x is x, or zero if x is negative. *)
Context (keep : list (list R) -> list nat) (Hkeep : keeps keep) (clamp : R -> R).
Notation idim := (jdimp jdim).
Notation elt := (elt r0 idim).
Notation ddiag := (ddiag r0 ropp conj heev jeq jdim mk keep clamp).

(** C57 (no quantum numbers), diagPosSemiDef: [tr] says whether to truncate.  If truncate did not meet a
    negative eigenvalue, D holds the kept eigenvalues. *)
Theorem C57_dense : forall debug (tr : bool) p L AA A junk, tensor idim AA A -> paired p L AA -> hermitian conj idim p L AA (elt AA A) ->
  (forall n d k, ~ In (mk n d, k) AA) ->
  (exists is Uix U l D (d : list R), let ks := if tr then keep [d] else [length d] in let D0 := kept ks [d] in
     ddiag debug tr AA A junk = Ok ((Uix, U), (l, p, D)) /\ Permutation is L /\ tensor idim Uix U /\ eig_link idim p AA L Uix l (length D0) /\
     D = (if tr then map clamp D0 else D0) /\
     eig_of r0 r1 radd rmul conj ieq idim rsub p AA is (elt AA A) (elt Uix U) l D0 [d] ks) \/
  (ddiag debug tr AA A junk = Err /\ heev_fails heev).
Proof.
  intros debug tr p L AA A junk HT HP HH Hfr.
  destruct (ddiag_spec r0 r1 radd rmul rsub ropp RT conj HC heev Hev jeq jdim mk jeq_spec keep clamp Hkeep mk_dim mk_inj debug tr p L AA A junk HT HP HH Hfr) as [(is & Uix & U & l & D & d & H)|H]; [left|right; exact H].
  cbv zeta in H. destruct H as (E & P & ED & TU & L1 & L2 & L3 & L4 & L5 & L6 & G). exists is, Uix, U, l, D, d. cbv zeta. repeat (split; [assumption|]). split; [repeat (split; [assumption|]); assumption|]. split; assumption.
Qed.

(** diagHermitian: nothing is discarded.  A is dag(U)*D*prime(U,p) and U is unitary. *)
Theorem C57_dense_exact : forall debug p L AA A junk, tensor idim AA A -> paired p L AA -> hermitian conj idim p L AA (elt AA A) ->
  (forall n d k, ~ In (mk n d, k) AA) ->
  (exists is Uix U l D, ddiag debug false AA A junk = Ok ((Uix, U), (l, p, D)) /\ Permutation is L /\ tensor idim Uix U /\ eig_link idim p AA L Uix l (length D) /\
     isometry r0 r1 radd rmul conj ieq idim is l (length D) (elt Uix U) /\ complete r0 r1 radd rmul conj ieq idim is l (length D) (elt Uix U) /\
     (forall x, In x D -> conj x = x) /\
     forall s, inrange idim AA s -> elt AA A s = udu r0 radd rmul conj ieq p (elt Uix U) l D s) \/
  (ddiag debug false AA A junk = Err /\ heev_fails heev).
Proof.
  intros debug p L AA A junk HT HP HH Hfr. destruct (C57_dense debug false p L AA A junk HT HP HH Hfr) as [(is & Uix & U & l & D & d & H)|H]; [left|right; exact H].
  cbv zeta in H. destruct H as (E & P & TU & EL & ED & (_ & ISO & RE & _ & EX)). assert (DD : discarded [length d] [d] = []) by apply (discard_none [d]). destruct (EX DD) as [EX1 EX2].
  exists is, Uix, U, l, D. rewrite ED in *. repeat (split; [assumption|]). intros s Hs. symmetry. now apply EX1.
Qed.

(** C57.  A tensor none of whose indices has a copy with another prime level: an error. *)
Theorem C57_no_pairs : forall debug tr AA A junk, AA <> [] -> NoDup AA -> (forall x y, In x AA -> In y AA -> fst x = fst y -> x = y) ->
  ddiag debug tr AA A junk = Err.
Proof.
  intros debug tr AA A junk NE ND H. unfold HermModel.ddiag. assert (find_pairs jeq AA = Err) as ->; [|reflexivity]. unfold find_pairs. destruct AA as [|k AA]; [congruence|].
  assert (E : filter (fun i : I => jeq (fst i) (fst k)) (k :: AA) = [k]).
  { apply filter_one; auto; [now left|]. intros x Hx. rewrite jeq_spec. split; [intros E; apply H; auto; now left|now intros ->]. }
  rewrite E. reflexivity.
Qed.
End Dense.

(** f of a Hermitian tensor, whose indices come in pairs one prime apart. *)
Hypothesis nozd : forall a b, rmul a b = r0 -> a = r0 \/ b = r0.

Section ExpDense.
Context (jdim : J -> nat) (mk : nat -> nat -> J).
Hypothesis mk_dim : forall n d, jdim (mk n d) = d.
Hypothesis mk_inj : forall n n' d d', mk n d = mk n' d' -> n = n'.
Notation idim := (jdimp jdim).
Notation elt := (elt r0 idim).
Notation dexp := (dexp r0 ropp conj heev radd rmul jeq jdim mk).
Notation function_of := (function_of r0 r1 radd rmul conj ieq idim).

(** C57, expHermitian: the result has the indices of A and is that function of A. *)
Theorem C57_exp_dense : forall debug f L AA A junk, tensor idim AA A -> paired 1 L AA -> hermitian conj idim 1 L AA (elt AA A) ->
  (forall n d k, ~ In (mk n d, k) AA) ->
  (exists T is, dexp debug f AA A junk = Ok T /\ Permutation (fst T) AA /\ Permutation is L /\ function_of f 1 AA is (elt AA A) (snd T)) \/
  (dexp debug f AA A junk = Err /\ heev_fails heev).
Proof.
  intros debug f L AA A junk HT HP HH Hfr.
  destruct (C57_dense_exact jdim mk mk_dim mk_inj (map (@length R)) all_keeps (fun x => x) debug 1 L AA A junk HT HP HH Hfr) as [(is & Uix & U & l & D & E & P & TU & (L1 & L2 & L3 & L4 & L5 & L6) & ISO & CPL & RE & EX)|[E F]].
  - left. unfold HermModel.dexp. rewrite E. cbn [obind fst snd]. eexists. exists is. split; [reflexivity|].
    pose proof (paired_perm 1 L is AA P HP) as HPi. assert (Hi : forall x, In x is <-> In x L) by (intros x; split; apply Permutation_in; [exact P|now symmetry]).
    destruct (exp_ok r0 r1 radd rmul rsub ropp RT conj jeq jeq_spec idim (fun p x => eq_refl) L AA Uix (elt Uix U) l D f HP (proj1 HT) (proj1 TU) L6 L1 L3 L4) as [Q1 Q2].
    { intros s s' Hs. apply elt_ext. auto. }
    split; [exact Q1|]. split; [exact P|]. split.
    + intros lam v. apply (fun_eigT r0 r1 radd rmul rsub ropp RT conj nozd ieq idim ieq_spec (fun p x => eq_refl) 1 is AA HPi (proj1 HT) (proj1 (proj2 HT)) (elt AA A) (elt Uix U) _ l D f).
      * intros K. apply L1. apply (inL 1 is AA HPi l K).
      * intros s s' Hs. apply elt_ext. intros x Hx. apply Hs. apply L6 in Hx as [->|Hx]; auto. right. now apply Hi.
      * exact ISO.
      * exact CPL.
      * intros s Hs. symmetry. now apply EX.
      * intros s Hs. symmetry. apply Q2.
    + exists l, (elt Uix U), D. repeat (split; [assumption|]). intros s Hs. split; [now apply EX|apply Q2].
  - right. split; [|exact F]. unfold HermModel.dexp. rewrite E. reflexivity.
Qed.
End ExpDense.

Section QN.
Context (jbs : J -> list nat) (jqns : J -> list QN) (M : SmallString -> Z) (Sx : list SmallString) (Sch : Scheme M Sx).
Context (mk : nat -> list (QN * nat) -> J).
Hypothesis mk_bs : forall n q, jbs (mk n q) = map snd q.
Hypothesis mk_qns : forall n q, jqns (mk n q) = map fst q.
Hypothesis mk_inj : forall n n' q q', mk n q = mk n' q' -> n = n'.
Notation qtensor := (qtensor (bsp jbs) (qnsp jqns) M Sx).
Notation total := (total (bsp jbs)).
Notation qval := (qval r0 (bsp jbs)).
Context (keep : list (list R) -> list nat) (Hkeep : keeps keep).
Notation qdiag := (qdiag r0 ropp conj heev jeq jbs jqns mk).

(** The primed copies of the indices L have the opposite arrows. *)
Definition opposite_arrows (dir : I -> Arrow) (p : nat) (L : list I) : Prop :=
  forall x, In x L -> dir x <> ArrNeither /\ dir (prime p x) = arrow_neg (dir x).

(** C57 with quantum numbers, for a tensor of flux zero: U has flux zero, and D holds the kept eigenvalues
    of the blocks. *)
Theorem C57_qn : forall debug (tr : bool) dir p L AA A, qtensor dir AA A qn0 -> paired p L AA -> opposite_arrows dir p L ->
  hermitian conj total p L AA (qval AA A) -> (forall n d k, ~ In (mk n d, k) AA) ->
  (exists is Uix U l ds, let ks := if tr then keep ds else map (@length R) ds in let D := kept ks ds in
     qdiag keep debug tr dir AA A = Ok ((Uix, U), (l, p, D)) /\ Permutation is L /\ (exists dirU, qtensor dirU Uix U qn0 /\ eig_arrows dir is l dirU) /\
     eig_link total p AA L Uix l (length D) /\
     eig_of r0 r1 radd rmul conj ieq total rsub p AA is (qval AA A) (qval Uix U) l D ds ks) \/
  (qdiag keep debug tr dir AA A = Err /\ heev_fails heev).
Proof.
  intros debug tr dir p L AA A HT HP HO HH Hfr.
  destruct (qdiag_spec r0 r1 radd rmul rsub ropp RT conj HC heev Hev jeq jeq_spec jbs jqns M Sx Sch mk keep Hkeep mk_bs mk_qns mk_inj debug tr dir p L AA A HT HP HO HH Hfr) as [(is & Uix & U & l & ds & H)|H]; [left|right; exact H].
  cbv zeta in H. destruct H as (E & P & TU & L1 & L2 & L3 & L4 & L5 & L6 & G). exists is, Uix, U, l, ds. cbv zeta. repeat (split; [assumption|]). split; [repeat (split; [assumption|]); assumption|]. assumption.
Qed.
End QN.

Section ExpQn.
Context (jbs : J -> list nat) (jqns : J -> list QN) (M : SmallString -> Z) (Sx : list SmallString) (Sch : Scheme M Sx).
Context (mk : nat -> list (QN * nat) -> J).
Hypothesis mk_bs : forall n q, jbs (mk n q) = map snd q.
Hypothesis mk_qns : forall n q, jqns (mk n q) = map fst q.
Hypothesis mk_inj : forall n n' q q', mk n q = mk n' q' -> n = n'.
Notation qtensor := (qtensor (bsp jbs) (qnsp jqns) M Sx).
Notation total := (total (bsp jbs)).
Notation qval := (qval r0 (bsp jbs)).
Notation qdiag := (qdiag r0 ropp conj heev jeq jbs jqns mk (map (@length R))).
Notation qexp := (qexp r0 ropp conj heev radd rmul jeq jbs jqns mk).
Notation function_of := (function_of r0 r1 radd rmul conj ieq total).

Theorem C57_qn_exact : forall debug dir p L AA A, qtensor dir AA A qn0 -> paired p L AA -> opposite_arrows dir p L ->
  hermitian conj total p L AA (qval AA A) -> (forall n d k, ~ In (mk n d, k) AA) ->
  (exists is Uix U l D, qdiag debug false dir AA A = Ok ((Uix, U), (l, p, D)) /\ Permutation is L /\ (exists dirU, qtensor dirU Uix U qn0 /\ eig_arrows dir is l dirU) /\
     eig_link total p AA L Uix l (length D) /\
     isometry r0 r1 radd rmul conj ieq total is l (length D) (qval Uix U) /\ complete r0 r1 radd rmul conj ieq total is l (length D) (qval Uix U) /\
     (forall x, In x D -> conj x = x) /\
     forall s, inrange total AA s -> qval AA A s = udu r0 radd rmul conj ieq p (qval Uix U) l D s) \/
  (qdiag debug false dir AA A = Err /\ heev_fails heev).
Proof.
  intros debug dir p L AA A HT HP HO HH Hfr.
  destruct (C57_qn jbs jqns M Sx Sch mk mk_bs mk_qns mk_inj (map (@length R)) all_keeps debug false dir p L AA A HT HP HO HH Hfr) as [(is & Uix & U & l & ds & H)|H]; [left|right; exact H].
  cbv zeta in H. destruct H as (E & P & TU & EL & (_ & ISO & RE & _ & EX)). destruct (EX (discard_none ds)) as [EX1 EX2].
  exists is, Uix, U, l, (kept (map (@length R) ds) ds). repeat (split; [assumption|]). intros s Hs. symmetry. now apply EX1.
Qed.

Theorem C57_exp_qn : forall debug f dir L AA A, qtensor dir AA A qn0 -> paired 1 L AA -> opposite_arrows dir 1 L ->
  hermitian conj total 1 L AA (qval AA A) -> (forall n d k, ~ In (mk n d, k) AA) ->
  (exists T is, qexp debug f dir AA A = Ok T /\ Permutation (fst T) AA /\ Permutation is L /\ function_of f 1 AA is (qval AA A) (snd T)) \/
  (qexp debug f dir AA A = Err /\ heev_fails heev).
Proof.
  intros debug f dir L AA A HT HP HO HH Hfr.
  destruct (C57_qn_exact debug dir 1 L AA A HT HP HO HH Hfr) as [(is & Uix & U & l & D & E & P & (dirU & TU & _) & (L1 & L2 & L3 & L4 & L5 & L6) & ISO & CPL & RE & EX)|[E F]].
  - left. unfold HermModel.qexp. rewrite E. cbn [obind fst snd]. eexists. exists is. split; [reflexivity|].
    pose proof (paired_perm 1 L is AA P HP) as HPi. assert (Hi : forall x, In x is <-> In x L) by (intros x; split; apply Permutation_in; [exact P|now symmetry]).
    pose proof (proj1 HT) as [NA PA]. pose proof (proj1 (proj1 TU)) as NUx.
    assert (PAA : forall x, In x AA -> 0 < total x) by (intros x Hx; exact (total_pos (bsp jbs) x AA (proj1 HT) Hx)).
    destruct (exp_ok r0 r1 radd rmul rsub ropp RT conj jeq jeq_spec total (fun p x => eq_refl) L AA Uix (qval Uix U) l D f HP NA NUx L6 L1 L3 L4) as [Q1 Q2].
    { intros s s' Hs. apply qval_ext. auto. }
    split; [exact Q1|]. split; [exact P|]. split.
    + intros lam v. apply (fun_eigT r0 r1 radd rmul rsub ropp RT conj nozd ieq total ieq_spec (fun p x => eq_refl) 1 is AA HPi NA PAA (qval AA A) (qval Uix U) _ l D f).
      * intros K. apply L1. apply (inL 1 is AA HPi l K).
      * intros s s' Hs. apply qval_ext. intros x Hx. apply Hs. apply L6 in Hx as [->|Hx]; auto. right. now apply Hi.
      * exact ISO.
      * exact CPL.
      * intros s Hs. symmetry. now apply EX.
      * intros s Hs. symmetry. apply Q2.
    + exists l, (qval Uix U), D. repeat (split; [assumption|]). intros s Hs. split; [now apply EX|apply Q2].
  - right. split; [|exact F]. unfold HermModel.qexp. rewrite E. reflexivity.
Qed.
End ExpQn.
End Props.

(** ** concrete cases: integer matrices, heev a table that knows a 2 x 2 and all 1 x 1 matrices *)
Open Scope Z_scope.
Definition ex_heev (n : nat) (a : list Z) : option (list Z * list Z) :=
  if (Nat.eqb n 2 && zl_eqb a [-3; 0; 0; -5])%bool then Some ([0; 1; 1; 0], [-5; -3])
  else if Nat.eqb n 1 then Some ([1], a) else None.
Lemma ex_heev_exact : exact_heev 0 1 Z.add Z.mul (fun z => z) ex_heev.
Proof.
  intros n a u w Hn Ha _ E. unfold ex_heev, zl_eqb in E. destruct (Nat.eqb_spec n 2); [destruct (list_eq_dec Z.eq_dec a [-3; 0; 0; -5])|]; subst; cbn [andb Nat.eqb] in E.
  - injection E as <- <-. repeat split; auto; intros i j Hi Hj; destruct i as [|[|i]]; try lia; destruct j as [|[|j]]; try lia; reflexivity.
  - discriminate.
  - destruct (Nat.eqb_spec n 1); [|discriminate]. subst. injection E as <- <-. destruct a as [|z [|]]; try discriminate.
    repeat split; auto; intros i j Hi Hj; destruct i as [|i]; try lia; destruct j as [|j]; try lia; try reflexivity. unfold cm. cbn [sum_below nth Nat.add Nat.mul]. ring.
Qed.
Close Scope Z_scope.

(** A tensor with two pairs of indices, of dimensions 2 and 1, the pairs one prime apart. *)
Definition hx1 : nat * nat := (1, 2).
Definition hx2 : nat * nat := (2, 1).
Definition hL (p : nat) : list (nat * nat * nat) := [(hx1, 0); (hx2, p)].
Definition hA (p : nat) : list (nat * nat * nat) := [(hx1, p); (hx2, p); (hx1, 0); (hx2, p + p)].
Definition hAd : list Z := [3; 0; 0; 5]%Z.
Lemma hA_paired p : 0 < p -> paired p (hL p) (hA p).
Proof.
  intros Hp. split; [discriminate|]. split.
  - unfold hA, hL, prime. cbn [map app fst snd]. change (0 + p) with p. apply NoDup_Permutation.
    + repeat constructor; cbn; intuition (try discriminate; try (injection H; lia); try (injection H0; lia)).
    + repeat constructor; cbn; intuition (try discriminate; try (injection H; lia); try (injection H0; lia)).
    + intros x. cbn. tauto.
  - intros j a b [E|[E|[]]] [K|[K|[]]]; injection E as <- <-; injection K; intros; subst; try lia; discriminate.
Qed.
Lemma hA_tensor p : 0 < p -> tensor (jdimp snd) (hA p) hAd.
Proof.
  intros Hp. split; [|split; [intros x [<-|[<-|[<-|[<-|[]]]]]; cbn; lia|reflexivity]].
  repeat constructor; cbn; intuition (try discriminate; try (injection H; lia); try (injection H0; lia)).
Qed.
Lemma hA_hermitian p : 0 < p -> hermitian (fun z => z) (jdimp snd) p (hL p) (hA p) (elt 0%Z (jdimp snd) (hA p) hAd).
Proof.
  intros Hp s s' Hs Hx. destruct (Hx (hx1, 0) (or_introl eq_refl)) as [E1 E2]. destruct (Hx (hx2, p) (or_intror (or_introl eq_refl))) as [E3 E4].
  unfold prime in E1, E2, E3, E4. cbn [fst snd] in E1, E2, E3, E4. change (0 + p) with p in E1, E2.
  assert (B1 : s (hx1, 0) < 2) by (apply Hs; cbn; auto). assert (B2 : s (hx1, p) < 2) by (apply Hs; cbn; auto).
  assert (B3 : s (hx2, p) < 1) by (apply Hs; cbn; auto). assert (B4 : s (hx2, p + p) < 1) by (apply Hs; cbn; auto).
  unfold elt, hA. cbn [map]. rewrite E1, E2, E3, E4. unfold jdimp. cbn [map fst snd hx1 hx2].
  destruct (s (hx2, p)) as [|] eqn:Z3; [|lia]. destruct (s (hx2, p + p)) as [|] eqn:Z4; [|lia]. fold hx1 in *. 
  destruct (s (hx1, 0)) as [|[|]] eqn:Z1; try lia; destruct (s (hx1, p)) as [|[|]] eqn:Z2; try lia; reflexivity.
Qed.
Definition zdiag keep tr p := ddiag 0%Z Z.opp (fun z => z) ex_heev xd_eq snd xd_mk keep (fun x => Z.max 0 x) false tr (hA p) hAd (fun _ _ => 0%Z).
Definition zexp f p := dexp 0%Z Z.opp (fun z => z) ex_heev Z.add Z.mul xd_eq snd xd_mk false f (hA p) hAd (fun _ _ => 0%Z).
(** The values of the indices of hA as a list. *)
Definition hval (p : nat) (v : list nat) : (nat * nat * nat) -> nat := assign (ieqp xd_eq) (hA p) v (fun _ => 0).

Example C57_dense_nonvacuous : exists p, tensor (jdimp snd) (hA p) hAd /\ paired p (hL p) (hA p) /\
  hermitian (fun z => z) (jdimp snd) p (hL p) (hA p) (elt 0%Z (jdimp snd) (hA p) hAd) /\ (forall n d k, ~ In (xd_mk n d, k) (hA p)) /\
  exact_heev 0%Z 1%Z Z.add Z.mul (fun z => z) ex_heev /\
  (exists U l, zdiag all_of false p = Ok (U, (l, p, [5; 3]%Z))) /\ (exists U l, zdiag one_of true p = Ok (U, (l, p, [5]%Z))) /\
  exists T, zexp (fun x => 2 ^ x)%Z p = Ok T /\ map (fun v => snd T (hval p v)) [[0; 0; 0; 0]; [1; 0; 0; 0]; [0; 0; 1; 0]; [1; 0; 1; 0]] = [8; 0; 0; 32]%Z.
Proof.
  exists 1. split; [apply hA_tensor; lia|]. split; [apply hA_paired; lia|]. split; [apply hA_hermitian; lia|].
  split; [intros n d k [K|[K|[K|[K|[]]]]]; discriminate|]. split; [exact ex_heev_exact|].
  split; [do 2 eexists; vm_compute; reflexivity|]. split; [do 2 eexists; vm_compute; reflexivity|]. eexists. split; [reflexivity|]. vm_compute. reflexivity.
Qed.

(** C57.  expHermitian multiplies by prime(U) whatever the distance of the pairs: for pairs two primes apart,
    which diagHermitian handles, the result does not even have the indices of the argument. *)
Theorem C57_exp_distance_refuted : exists p AA L A f T,
  tensor (jdimp snd) AA A /\ paired p L AA /\ hermitian (fun z => z) (jdimp snd) p L AA (elt 0%Z (jdimp snd) AA A) /\ (forall n d k, ~ In (xd_mk n d, k) AA) /\
  exact_heev 0%Z 1%Z Z.add Z.mul (fun z => z) ex_heev /\
  (exists U D, ddiag 0%Z Z.opp (fun z => z) ex_heev xd_eq snd xd_mk all_of (fun x => x) false false AA A (fun _ _ => 0%Z) = Ok (U, D)) /\
  dexp 0%Z Z.opp (fun z => z) ex_heev Z.add Z.mul xd_eq snd xd_mk false f AA A (fun _ _ => 0%Z) = Ok T /\ ~ Permutation (fst T) AA.
Proof.
  exists 2, (hA 2), (hL 2), hAd, (fun x => x). eexists. split; [apply hA_tensor; lia|]. split; [apply hA_paired; lia|]. split; [apply hA_hermitian; lia|].
  split; [intros n d k [K|[K|[K|[K|[]]]]]; discriminate|]. split; [exact ex_heev_exact|]. split; [do 2 eexists; vm_compute; reflexivity|]. split; [reflexivity|].
  intros P. apply Permutation_length in P. vm_compute in P. discriminate.
Qed.

(** With quantum numbers: one pair of indices with sectors of sizes 1 and 2. *)
Definition qh : qx := (1, [(qn0, 1); (ex_q ex_entries1, 2)]).
Definition qhL : list (qx * nat) := [(qh, 0)].
Definition qhA : list (qx * nat) := [(qh, 1); (qh, 0)].
Definition qh_dir (x : qx * nat) : Arrow := if snd x =? 0 then ArrIn else ArrOut.
Definition qhAd : qd Z := mkQD [([0; 0], 0); ([1; 1], 1)] [7; 3; 0; 0; 5]%Z.
Lemma qhA_qtensor : qtensor (bsp qx_bs) (qnsp qx_qns) ex_mod ex_names qh_dir qhA qhAd qn0.
Proof.
  split; [split; [repeat constructor; cbn; intuition discriminate|]; intros x [<-|[<-|[]]]; cbn; (split; [discriminate|repeat constructor])|].
  split; [intros x [<-|[<-|[]]]; (split; [reflexivity|]); (constructor; [constructor|]; constructor; [exact ex_charges1|constructor])|].
  split; [split; cbn; [split; [auto|]; split; [repeat constructor; cbn; lia|]; split; [auto|]; split; [repeat constructor; cbn; lia|auto]|repeat constructor; cbn; lia]|]. split; [constructor|].
  intros b Hb n. cbn [has_block offs qhAd map fst] in Hb. destruct Hb as [<-|[<-|[]]]. all: rewrite qn0_val; unfold qhA, qnsp, qx_qns, qh_dir, qh; cbn [flux_val Nat.eqb nth arrow_int map fst snd]; rewrite ?qn0_val;
    match goal with |- residue _ ?z = 0%Z => replace z with 0%Z by ring end; apply residue_0.
Qed.
Lemma qhA_paired : paired 1 qhL qhA.
Proof. split; [discriminate|]. split; [apply perm_swap|]. intros j a b [E|[]] [K|[]]. injection E as <- <-. injection K as <-. lia. Qed.
Lemma qhA_hermitian : hermitian (fun z => z) (total (bsp qx_bs)) 1 qhL qhA (qval 0%Z (bsp qx_bs) qhA qhAd).
Proof.
  intros s s' Hs Hx. destruct (Hx (qh, 0) (or_introl eq_refl)) as [E1 E2]. unfold prime in E1, E2. cbn [fst snd Nat.add] in E1, E2.
  assert (B1 : s (qh, 0) < 3) by (apply (Hs (qh, 0)); cbn; auto). assert (B2 : s (qh, 1) < 3) by (apply (Hs (qh, 1)); cbn; auto).
  unfold qval, QdSpec.blockof, QdSpec.placeof, QdSpec.dimsof, qhA. cbn [map]. rewrite E1, E2.
  destruct (s (qh, 0)) as [|[|[|]]] eqn:Z1; try lia; destruct (s (qh, 1)) as [|[|[|]]] eqn:Z2; try lia; vm_compute; reflexivity.
Qed.
Definition zqdiag keep tr := qdiag 0%Z Z.opp (fun z => z) ex_heev qx_eq qx_bs qx_qns qx_mk keep true tr qh_dir qhA qhAd.

Example C57_qn_nonvacuous : qtensor (bsp qx_bs) (qnsp qx_qns) ex_mod ex_names qh_dir qhA qhAd qn0 /\ paired 1 qhL qhA /\ opposite_arrows qh_dir 1 qhL /\
  hermitian (fun z => z) (total (bsp qx_bs)) 1 qhL qhA (qval 0%Z (bsp qx_bs) qhA qhAd) /\ (forall n d k, ~ In (qx_mk n d, k) qhA) /\
  (exists U l, zqdiag all_of false = Ok (U, (l, 1, [7; 5; 3]%Z))) /\ (exists U l, zqdiag one_of true = Ok (U, (l, 1, [7; 5]%Z))).
Proof.
  split; [exact qhA_qtensor|]. split; [exact qhA_paired|]. split; [intros x [<-|[]]; split; [discriminate|reflexivity]|]. split; [exact qhA_hermitian|].
  split; [intros n d k [K|[K|[]]]; discriminate|]. split; do 2 eexists; vm_compute; reflexivity.
Qed.

(** C57.  If truncation keeps nothing (a cutoff above the whole spectrum; C24 shows truncate can do that),
    diagPosSemiDef with quantum numbers still returns an index of dimension one, but U is zero: dag(U)*U is not
    the identity. *)
Theorem C57_nothing_kept_refuted : exists keep dir AA L A Uix U l D,
  qtensor (bsp qx_bs) (qnsp qx_qns) ex_mod ex_names dir AA A qn0 /\ paired 1 L AA /\ opposite_arrows dir 1 L /\
  hermitian (fun z => z) (total (bsp qx_bs)) 1 L AA (qval 0%Z (bsp qx_bs) AA A) /\ (forall ds, length (keep ds) = length ds) /\
  qdiag 0%Z Z.opp (fun z => z) ex_heev qx_eq qx_bs qx_qns qx_mk keep true true dir AA A = Ok ((Uix, U), (l, 1, D)) /\
  total (bsp qx_bs) l = 1 /\ D = [0%Z] /\ ~ isometry 0%Z 1%Z Z.add Z.mul (fun z => z) (ieqp qx_eq) (total (bsp qx_bs)) L l 1 (qval 0%Z (bsp qx_bs) Uix U).
Proof.
  exists (fun ds => map (fun _ => 0) ds), qh_dir, qhA, qhL, qhAd. do 4 eexists. split; [exact qhA_qtensor|]. split; [exact qhA_paired|]. split; [intros x [<-|[]]; split; [discriminate|reflexivity]|]. split; [exact qhA_hermitian|].
  split; [intros; apply map_length|]. split; [vm_compute; reflexivity|]. split; [reflexivity|]. split; [reflexivity|].
  intros H. specialize (H (fun _ => 0) 0 0 (Nat.lt_0_succ 0) (Nat.lt_0_succ 0)). vm_compute in H. discriminate.
Qed.

Print Assumptions C57_dense.
Print Assumptions C57_dense_exact.
Print Assumptions C57_no_pairs.
Print Assumptions C57_qn.
Print Assumptions C57_qn_exact.
Print Assumptions C57_exp_dense.
Print Assumptions C57_exp_qn.
Print Assumptions C57_exp_distance_refuted.
Print Assumptions C57_nothing_kept_refuted.
