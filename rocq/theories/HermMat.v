(** Diagonalisation of one matrix; from matrices to tensors with pairs of indices. *)
From Coq Require Import List Arith Lia Ring Bool Permutation.
From Verif Require Import Util RangeModel RangeSpec RangeProofs TensorModel TensorSpec TensorProofs SemProofs DenseProofs QnModel QdModel QdSum QdAdd
  SvdModel SvdSpec SvdRank SvdMat SvdFactor SvdBlocks SvdDense HermSpec HermModel HermPairs.
Import ListNotations.
Open Scope outcome_scope.
Local Arguments Nat.sub : simpl never.

Section Mat.
Context {R : Type} (r0 r1 : R) (radd rmul rsub : R -> R -> R) (ropp : R -> R).
Context (RT : ring_theory r0 r1 radd rmul rsub ropp eq).
Add Ring RRhm : RT.
Context (conj : R -> R) (HC : conjugation radd rmul conj).
Notation sum := (sum_below r0 radd).
Notation kron := (kron r0 r1).
Notation cm := (cm r0).
Notation mview := (@mview R).
Notation velt := (velt r0).
Notation factored := (factored r0 r1 radd rmul conj).
Notation decomposed := (decomposed r0 r1 radd rmul conj).

Lemma conj_opp a : conj (ropp a) = ropp (conj a).
Proof.
  destruct HC as (Ca & _ & _). transitivity (radd (radd (conj (ropp a)) (conj a)) (ropp (conj a))); [ring|]. rewrite <- Ca.
  replace (radd (ropp a) a) with r0 by ring. rewrite (conj_0 r0 r1 radd rmul rsub ropp RT conj HC). ring.
Qed.
Lemma sum_opp n f : sum n (fun i => ropp (f i)) = ropp (sum n f).
Proof. induction n as [|n IH]; cbn [sum_below]; [ring|]. rewrite IH. ring. Qed.
Lemma cm_opp m a i j : cm m (map ropp a) i j = ropp (cm m a i j).
Proof. unfold SvdSpec.cm. rewrite <- (map_nth ropp). f_equal. ring. Qed.
Lemma cm_ofirst m k (u : list R) i x : i < m -> x < k -> cm m (firstn (m * k) u) i x = cm m u i x.
Proof. exact (cm_firstn r0 m k u i x). Qed.

(** A decomposition of a view, the first k singular values or eigenvalues kept. *)
Lemma dec_factored (M : mview) u d w k : decomposed M u d w -> k <= length d ->
  factored (rn M) (cn M) (velt M) (cm (rn M) (firstn (rn M * k) u)) (firstn k d) (cm (cn M) (firstn (cn M * k) w)) (skipn k d).
Proof.
  intros (L1 & L2 & L3 & HV & OU & OW & RD) Hk. set (ts := mterms r0 (rn M) (cn M) u d w).
  assert (ET : map (map td) [ts] = [d]) by (cbn; unfold ts; now rewrite mterms_td).
  assert (EKT : kept [k] [ts] = firstn k ts) by (cbn [kept]; apply app_nil_r).
  assert (LKT : length (kept [k] [ts]) = k) by (rewrite EKT, firstn_length; unfold ts; rewrite mterms_len; lia).
  assert (NT : forall x, x < k -> nth x (kept [k] [ts]) (z0 r0) = (fun i => cm (rn M) u i x, nth x d r0, fun j => cm (cn M) w j x)).
  { intros x Hx. rewrite EKT. rewrite <- (mterms_nth r0 (rn M) (cn M) u d w x) by lia. fold ts.
    clear -Hx. revert x Hx. generalize ts. induction k as [|k IH]; intros l x Hx; [lia|]. destruct l, x; cbn; auto. apply IH. lia. }
  assert (E1 : firstn k d = kept [k] [d]) by (cbn; now rewrite app_nil_r). assert (E2 : skipn k d = discarded [k] [d]) by (cbn; now rewrite app_nil_r).
  rewrite E1, E2. rewrite <- ET. apply (factored_blocks r0 r1 radd rmul rsub ropp RT conj HC _ _ _ _ _ [ts] [k] [fun _ => true] [fun _ => true]); auto.
  - intros i j Hi Hj. rewrite HV by assumption. cbn [concat]. rewrite app_nil_r, (rsum_nth r0 r1 radd rmul rsub ropp RT ts (z0 r0)).
    unfold ts at 1. rewrite mterms_len, L1. apply sum_ext. intros x Hx. unfold ts. rewrite mterms_nth by lia. reflexivity.
  - intros [|b] Hb; [|cbn in Hb; lia]. cbn [nth]. apply (ortho_of r0 r1 radd rmul conj _ _ (tp (z0 r0))). rewrite map_length. unfold ts. rewrite mterms_len.
    intros x y Hx Hy. rewrite !map_nth, !mterms_nth by assumption. apply OU; lia.
  - intros [|b] Hb; [|cbn in Hb; lia]. cbn [nth]. apply (ortho_of r0 r1 radd rmul conj _ _ (tq (z0 r0))). rewrite map_length. unfold ts. rewrite mterms_len.
    intros x y Hx Hy. rewrite !map_nth, !mterms_nth by assumption. apply OW; lia.
  - intros [|b] t i; [discriminate|]. cbn. destruct b; contradiction.
  - intros [|b] t i; [discriminate|]. cbn. destruct b; contradiction.
  - cbn. intros b b' i ? ?. lia.
  - cbn. intros b b' i ? ?. lia.
  - cbn [concat]. rewrite app_nil_r. intros t Ht. apply (In_nth _ _ (z0 r0)) in Ht as (x & Hx & <-). unfold ts in *. rewrite mterms_len in Hx. rewrite mterms_nth by lia. apply RD. lia.
  - intros i x Hi Hx. rewrite LKT in Hx. rewrite NT by auto. cbn. now apply cm_ofirst.
  - intros i x Hi Hx. rewrite LKT in Hx. rewrite NT by auto. cbn. now apply cm_ofirst.
Qed.

Context (heev : nat -> list R -> option (list R * list R)).
Hypothesis Hev : exact_heev r0 r1 radd rmul conj heev.
Notation diagHc := (diagHc r0 ropp conj heev).

(** v = u^dagger^T diag(d) u^T (U is the conjugate of the eigenvectors), u is unitary, d real. *)
Definition diaged (v : mview) (u d : list R) : Prop :=
  let n := rn v in length d = n /\ length u = n * n /\ decomposed v (map conj u) d u /\
  (forall i j, i < n -> j < n -> sum n (fun r => rmul (conj (cm n u i r)) (cm n u j r)) = kron i j).

Lemma diagHc_spec v : good v -> rn v = cn v -> (forall i j, i < rn v -> j < rn v -> velt v i j = conj (velt v j i)) ->
  (exists u d, diagHc v = Ok (u, d) /\ diaged v u d) \/ (diagHc v = Err /\ heev_fails heev).
Proof.
  intros (SH & LV & P1 & P2) SQ HM. destruct HC as (Ca & Cm & Ci). set (n := rn v) in *. unfold HermModel.diagHc, diagH. fold n. rewrite <- SQ in *. rewrite Nat.eqb_refl.
  destruct (Nat.ltb_spec n 1); [lia|]. cbn [negb].
  assert (VC : vcontig v = true).
  { unfold vcontig, isTransposed. fold n. rewrite <- SQ. destruct SH as [[-> ->]|[-> ->]]; rewrite ?Nat.eqb_refl; cbn; auto. apply orb_true_r. }
  rewrite VC, segment_ok by lia. cbn [obind skipn]. rewrite firstn_all2 by lia. set (a := map ropp (vd v)).
  assert (LA : length a = n * n) by (unfold a; now rewrite map_length).
  assert (EL : (forall i j, i < n -> j < n -> cm n (vd v) i j = if isTransposed v then velt v j i else velt v i j)).
  { intros i j Hi Hj. unfold isTransposed. rewrite <- SQ. unfold SvdSpec.cm, SvdMat.velt. destruct SH as [[S1 S2]|[S1 S2]]; rewrite S1, S2; fold n.
    - destruct (Nat.eqb_spec 1 n) as [E|E]; cbn [andb].
      + destruct (Nat.eqb_spec n 1); [|lia]. assert (i = 0) by lia. assert (j = 0) by lia. subst i j. f_equal. lia.
      + f_equal; lia.
    - rewrite !Nat.eqb_refl. cbn [andb]. f_equal; lia. }
  assert (HA : forall i j, i < n -> j < n -> cm n a i j = conj (cm n a j i)).
  { intros i j Hi Hj. unfold a. rewrite !cm_opp, conj_opp, !EL by assumption. f_equal. destruct (isTransposed v); auto. }
  destruct (heev n a) as [[u w]|] eqn:EH; [|right; split; auto; exists n, a; auto].
  destruct (Hev n a u w ltac:(lia) LA HA EH) as (LU & LW & EA & OC & OR & RW). cbn [obind]. left.
  set (uu := map conj (if isTransposed v then map conj u else u)).
  assert (LUU : length uu = n * n) by (unfold uu; destruct (isTransposed v); rewrite ?map_length; exact LU).
  assert (CUU : forall i j, i < n -> j < n -> cm n uu i j = if isTransposed v then cm n u i j else conj (cm n u i j)).
  { intros i j Hi Hj. unfold uu. destruct (isTransposed v); rewrite (cm_conj r0 conj n n) by (rewrite ?map_length; auto); auto.
    rewrite (cm_conj r0 conj n n) by auto. apply Ci. }
  assert (NW : forall r, nth r (map ropp w) r0 = ropp (nth r w r0)).
  { intros r. rewrite <- (map_nth ropp). f_equal. ring. }
  exists uu, (map ropp w). split; [reflexivity|]. unfold diaged, SvdMat.decomposed. fold n. rewrite <- SQ, Nat.min_id, !map_length.
  assert (CCU : forall i j, i < n -> j < n -> cm n (map conj uu) i j = conj (cm n uu i j)) by (intros; now apply (cm_conj r0 conj n n)).
  assert (ISO : forall r r', r < n -> r' < n -> sum n (fun i => rmul (conj (cm n uu i r)) (cm n uu i r')) = kron r r').
  { intros r r' Hr Hr'. destruct (isTransposed v) eqn:T.
    - rewrite <- OC by assumption. apply sum_ext. intros i Hi. rewrite !CUU by assumption. reflexivity.
    - rewrite (kron_sym r0 r1), <- OC by assumption. apply sum_ext. intros i Hi. rewrite !CUU by assumption. rewrite Ci. ring. }
  split; [exact LW|]. split; [exact LUU|]. split; [|].
  - split; [exact LW|]. split; [exact LUU|]. split; [exact LUU|]. split; [|split; [|split; [exact ISO|]]].
    + intros i j Hi Hj. destruct (isTransposed v) eqn:T.
      * assert (E : velt v i j = ropp (cm n a j i)) by (unfold a; rewrite cm_opp, EL by assumption; ring). rewrite E, EA by assumption. rewrite <- sum_opp. apply sum_ext. intros r Hr.
        rewrite CCU, !CUU, NW by assumption. ring.
      * assert (E : velt v i j = ropp (cm n a i j)) by (unfold a; rewrite cm_opp, EL by assumption; ring). rewrite E, EA by assumption. rewrite <- sum_opp. apply sum_ext. intros r Hr.
        rewrite CCU, !CUU, NW, Ci by assumption. ring.
    + intros r r' Hr Hr'. rewrite (kron_sym r0 r1), <- ISO by assumption. apply sum_ext. intros i Hi. rewrite !CCU by assumption. rewrite Ci. ring.
    + intros r Hr. rewrite NW, conj_opp, RW by assumption. reflexivity.
  - intros i j Hi Hj. destruct (isTransposed v) eqn:T.
    + rewrite (kron_sym r0 r1), <- OR by assumption. apply sum_ext. intros r Hr. rewrite !CUU by assumption. ring.
    + rewrite <- OR by assumption. apply sum_ext. intros r Hr. rewrite !CUU by assumption. now rewrite Ci.
Qed.

Section T.
Context {J : Type}.
Notation I := (J * nat)%type.
Context (ieq : I -> I -> bool) (dim : I -> nat).
Hypothesis ieq_spec : forall a b, ieq a b = true <-> a = b.
Hypothesis dim_prime : forall p x, dim (prime p x) = dim x.
Context (p : nat) (L AA : list I) (n : nat) (N : (I -> nat) -> nat).
Hypothesis HPR : paired p L AA.
Hypothesis ND : NoDup AA.
Hypothesis Hpos : forall x, In x AA -> 0 < dim x.
Hypothesis Nm : numbering dim L n N.
Notation override := (override ieq).
Notation inrange := (inrange dim).
Definition Np (s : I -> nat) : nat := N (primed p s).

Lemma inL x : In x L -> In x AA.
Proof. intros H. apply (Permutation_in _ (Permutation_sym (proj1 (proj2 HPR)))), in_or_app. auto. Qed.
Lemma inLp x : In x L -> In (prime p x) AA.
Proof. intros H. apply (Permutation_in _ (Permutation_sym (proj1 (proj2 HPR)))), in_or_app. right. now apply in_map. Qed.
Lemma p_pos : 0 < p.
Proof. clear -HPR. destruct HPR as (H1 & H2 & H3). destruct L as [|[j a] L']; [congruence|]. specialize (H3 j a a). cbn in H3. assert (a < a + p) by auto. lia. Qed.
Lemma disjLp x : In x L -> ~ In x (map (prime p) L).
Proof.
  intros H K. pose proof (Permutation_NoDup (proj1 (proj2 HPR)) ND) as Q. revert Q K H. generalize (map (prime p) L). clear. intros M Q K H. induction L as [|y l IH]; [contradiction|].
  cbn in Q. apply NoDup_cons_iff in Q as [Q1 Q2]. destruct H as [<-|H]; [apply Q1, in_or_app; auto|auto].
Qed.
Lemma numbering_p : numbering dim (map (prime p) L) n Np.
Proof.
  destruct Nm as (N1 & N2 & N3 & N4). unfold Np. split; [|split; [|split]].
  - intros s s' H. apply N1. intros x Hx. apply H. now apply in_map.
  - intros s H. apply N2. intros x Hx. unfold primed. rewrite <- (dim_prime p). apply H. now apply in_map.
  - intros s s' H H' E x Hx. apply in_map_iff in Hx as (y & <- & Hy). apply (N3 (primed p s) (primed p s')); auto.
    + intros z Hz. unfold primed. rewrite <- (dim_prime p). apply H. now apply in_map.
    + intros z Hz. unfold primed. rewrite <- (dim_prime p). apply H'. now apply in_map.
  - intros v s Hv. destruct (N4 v (primed p s) Hv) as (t & T1 & T2 & T3).
    set (unp := fun x : I => (fst x, snd x - p)). assert (U1 : forall x, unp (prime p x) = x) by (intros [j a]; unfold unp, prime; cbn; f_equal; lia).
    assert (DEC : forall x l, {In x l} + {~ In x l}) by (apply in_dec, (ieq_dec ieq ieq_spec)).
    exists (fun x => if DEC x (map (prime p) L) then t (unp x) else s x). split; [|split].
    + intros x Hx. destruct (DEC x _); [|contradiction]. apply in_map_iff in Hx as (y & <- & Hy). rewrite U1, dim_prime. now apply T1.
    + rewrite <- T2. apply N1. intros x Hx. unfold primed. destruct (DEC (prime p x) _) as [K|K]; [now rewrite U1|]. elim K. now apply in_map.
    + intros x Hx. destruct (DEC x _); [contradiction|reflexivity].
Qed.
Lemma N_swap s s' : (forall x, In x L -> s' x = s (prime p x) /\ s' (prime p x) = s x) -> N s' = Np s /\ Np s' = N s.
Proof. intros H. destruct Nm as (N1 & _). unfold Np. split; apply N1; intros x Hx; apply H; exact Hx. Qed.

(** Values of the indices whose numbers are u and v. *)
Lemma both u v s : u < n -> v < n -> exists t, inrange AA t /\ N t = u /\ Np t = v /\ forall x, ~ In x AA -> t x = s x.
Proof.
  intros Hu Hv. destruct Nm as (N1 & N2 & N3 & N4). destruct numbering_p as (M1 & M2 & M3 & M4). destruct (N4 u s Hu) as (t & T1 & T2 & T3). destruct (M4 v t Hv) as (t' & T1' & T2' & T3').
  exists t'. split; [|split; [|split; [exact T2'|]]].
  - intros x Hx. pose proof (Permutation_in _ (proj1 (proj2 HPR)) Hx) as K. apply in_app_or in K as [K|K]; [|now apply T1']. rewrite T3' by (now apply disjLp). now apply T1.
  - rewrite <- T2. apply N1. intros x Hx. apply T3'. now apply disjLp.
  - intros x Hx. rewrite T3', T3; auto; intros K; apply Hx; [now apply inL|]. apply in_map_iff in K as (y & <- & Hy). now apply inLp.
Qed.
Lemma herm_mat (A : (I -> nat) -> R) A2 : (forall s, inrange AA s -> A s = A2 (N s) (Np s)) -> hermitian conj dim p L AA A ->
  forall u v, u < n -> v < n -> A2 u v = conj (A2 v u).
Proof.
  intros HA HH u v Hu Hv. destruct (both v u (fun _ => 0) Hv Hu) as (s & S1 & S2 & S3 & _). destruct (both u v (fun _ => 0) Hu Hv) as (s' & S1' & S2' & S3' & _).
  rewrite <- S2, <- S3 at 2. rewrite <- HA by exact S1. rewrite <- S2', <- S3'. rewrite <- (HA s' S1'). apply HH; [exact S1|].
  destruct Nm as (N1 & N2 & N3 & N4). intros x Hx.
  assert (R1 : forall t, inrange AA t -> inrange L t) by (intros t Ht y Hy; apply Ht; now apply inL).
  assert (R2 : forall t, inrange AA t -> inrange L (primed p t)) by (intros t Ht y Hy; unfold primed; rewrite <- (dim_prime p); apply Ht; now apply inLp).
  split.
  - apply (N3 s' (primed p s)); auto. unfold Np in *. congruence.
  - apply (N3 (primed p s') s); auto. unfold Np in *. congruence.
Qed.

Context (A U : (I -> nat) -> R) (A2 U2 : nat -> nat -> R) (l : I) (ds : list (list R)) (ks : list nat).
Notation D := (kept ks ds).
Hypothesis HF : factored n n A2 (fun u x => conj (U2 u x)) D U2 (discarded ks ds).
Hypothesis HA : forall s, inrange AA s -> A s = A2 (N s) (Np s).
Hypothesis HR : forall s s', (forall x, s x = s' x) -> U s = U s'.
Hypothesis HU : forall s x, inrange L s -> x < length D -> U (override s l x) = U2 (N s) x.

Lemma override_primed s x : forall y, primed p (override s (prime p l) x) y = override (primed p s) l x y.
Proof.
  intros y. unfold primed, TensorSpec.override. destruct (ieq l y) eqn:E.
  - apply ieq_spec in E. subst. now rewrite (proj2 (ieq_spec _ _) eq_refl).
  - destruct (ieq (prime p l) (prime p y)) eqn:E'; auto. apply ieq_spec, prime_inj in E'. subst. rewrite (proj2 (ieq_spec _ _) eq_refl) in E. discriminate.
Qed.
Lemma eig_iso : isometry r0 r1 radd rmul conj ieq dim L l (length D) U.
Proof.
  assert (HUc : forall s x, inrange L s -> x < length D -> (fun t => conj (U t)) (override s l x) = conj (U2 (N s) x)) by (intros s x Hs Hx; cbn; now rewrite HU).
  pose proof (factors_isoU r0 r1 radd rmul rsub ropp RT conj ieq dim ieq_spec L (map (prime p) L) AA n n N l (proj1 (proj2 HPR)) ND Hpos Nm _ _ _ _ D _ HF HUc) as K.
  intros s x x' Hx Hx'. rewrite (kron_sym r0 r1), <- (K s x' x) by assumption.
  apply (so_ext_in r0 radd ieq ieq_spec (fun _ => nil) dim). intros t _ _. destruct HC as (_ & _ & Ci). rewrite Ci. ring.
Qed.
Lemma eig_ok : (discarded ks ds = [] -> forall i j, i < n -> j < n -> sum (length D) (fun r => rmul (conj (U2 i r)) (U2 j r)) = kron i j) ->
  eig_of r0 r1 radd rmul conj ieq dim rsub p AA L A U l D ds ks.
Proof.
  intros CP. split; [reflexivity|]. split; [exact eig_iso|].
  assert (HUc : forall s x, inrange L s -> x < length D -> (fun t => conj (U t)) (override s l x) = conj (U2 (N s) x)) by (intros s x Hs Hx; cbn; now rewrite HU).
  assert (HVc : forall s x, inrange (map (prime p) L) s -> x < length D -> (fun t => U (primed p t)) (override s (prime p l) x) = U2 (Np s) x).
  { intros s x Hs Hx. cbn. rewrite (HR _ (override (primed p s) l x) (override_primed s x)). apply HU; auto. intros y Hy. unfold primed. rewrite <- (dim_prime p). apply Hs. now apply in_map. }
  split; [|split].
  - destruct HF as (K & E & _ & _ & _ & _ & _ & Hd & HD & _). intros x Hx. rewrite HD in Hx. apply in_map_iff in Hx as (t & <- & Ht). apply Hd. auto.
  - intros s. apply (factors_error r0 r1 radd rmul rsub ropp RT conj HC ieq dim ieq_spec L (map (prime p) L) AA n n N Np l (prime p l) (proj1 (proj2 HPR)) ND Hpos Nm numbering_p _ _ _ _ _ _ D _ HF HA HUc HVc).
  - intros ED. split.
    + intros s Hs. apply (factors_exact r0 r1 radd rmul rsub ropp RT conj ieq dim L (map (prime p) L) AA n n N Np l (prime p l) (proj1 (proj2 HPR)) Nm numbering_p _ _ _ _ _ _ D _ HF HA HUc HVc s Hs ED).
    + intros s s' Hs Hs'. cbv zeta. rewrite (sum_ext r0 radd _ _ (fun r => rmul (conj (U2 (N s) r)) (U2 (N s') r))) by (intros x Hx; rewrite !HU by assumption; reflexivity).
      destruct Nm as (N1 & N2 & N3 & N4). rewrite CP by auto. unfold SvdSpec.kron. split.
      * intros E. rewrite (N1 s s' E), Nat.eqb_refl. reflexivity.
      * intros (x & Hx & NE). destruct (Nat.eqb_spec (N s) (N s')) as [E|]; auto. elim NE. exact (N3 s s' Hs Hs' E x Hx).
Qed.
End T.
End Mat.
