(** expHermitian: a function of an operator from its eigendecomposition. *)
From Coq Require Import List Arith Lia Ring Bool Permutation.
From Verif Require Import Util RangeModel RangeSpec RangeProofs TensorModel TensorSpec TensorProofs SemProofs DenseProofs QnModel QdModel QdSum QdAdd CombinerModel CombinerProps
  SvdModel SvdSpec SvdRank SvdMat SvdFactor SvdBlocks SvdDense HermSpec HermModel HermPairs HermMat.
Import ListNotations.
Local Arguments Nat.sub : simpl never.

Lemma filter_one {A} (g : A -> bool) (a : A) l : NoDup l -> In a l -> (forall x, In x l -> (g x = true <-> x = a)) -> filter g l = [a].
Proof.
  induction l as [|b l IH]; intros ND Ha H; [contradiction|]. apply NoDup_cons_iff in ND as [N1 N2]. cbn [filter]. destruct Ha as [->|Ha].
  - rewrite (proj2 (H a (or_introl eq_refl)) eq_refl). f_equal. clear IH. assert (G : forall x, In x l -> g x = false).
    { intros x Hx. destruct (g x) eqn:E; auto. apply H in E; [|now right]. subst. contradiction. }
    clear -G. induction l as [|c l IH]; auto. cbn. rewrite (G c) by now left. apply IH. intros; apply G; now right.
  - assert (g b = false) as ->. { destruct (g b) eqn:E; auto. apply H in E; [|now left]. subst. contradiction. }
    apply IH; auto. intros; apply H; now right.
Qed.

Lemma over_pr {J} (ieq : J * nat -> J * nat -> bool) : (forall a b, ieq a b = true <-> a = b) -> forall p (l : J * nat) s x y,
  primed p (override ieq s (prime p l) x) y = override ieq (primed p s) l x y.
Proof.
  intros SP p l s x y. unfold primed, TensorSpec.override. destruct (ieq l y) eqn:E.
  - apply SP in E. subst. now rewrite (proj2 (SP _ _) eq_refl).
  - destruct (ieq (prime p l) (prime p y)) eqn:E'; auto. apply SP, prime_inj in E'. subst. rewrite (proj2 (SP _ _) eq_refl) in E. discriminate.
Qed.

Section Exp.
Context {R : Type} (r0 r1 : R) (radd rmul rsub : R -> R -> R) (ropp : R -> R).
Context (RT : ring_theory r0 r1 radd rmul rsub ropp eq).
Add Ring RRhe : RT.
Context (conj : R -> R) (HC : conjugation radd rmul conj).
Hypothesis nozd : forall a b, rmul a b = r0 -> a = r0 \/ b = r0.
Notation sum := (sum_below r0 radd).
Notation kron := (kron r0 r1).

Lemma sum_kron n j (g : nat -> R) : j < n -> sum n (fun i => rmul (kron i j) (g i)) = g j.
Proof.
  induction n as [|n IH]; intros H; [lia|]. cbn [sum_below]. unfold SvdSpec.kron at 2. destruct (Nat.eqb_spec n j) as [->|].
  - rewrite (sum_zero r0 r1 radd rmul rsub ropp RT); [ring|]. intros i Hi. unfold SvdSpec.kron. destruct (Nat.eqb_spec i j); [lia|ring].
  - rewrite IH by lia. ring.
Qed.

(** On matrices. *)
Lemma fun_eig n k (U2 : nat -> nat -> R) (D : nat -> R) (f : R -> R) (v : nat -> R) lam :
  (forall x x', x < k -> x' < k -> sum n (fun u => rmul (conj (U2 u x)) (U2 u x')) = kron x x') ->
  (forall u u', u < n -> u' < n -> sum k (fun x => rmul (conj (U2 u x)) (U2 u' x)) = kron u u') ->
  (forall u, u < n -> sum n (fun u' => rmul (sum k (fun x => rmul (rmul (conj (U2 u x)) (D x)) (U2 u' x))) (v u')) = rmul lam (v u)) ->
  forall u, u < n -> sum n (fun u' => rmul (sum k (fun x => rmul (rmul (conj (U2 u x)) (f (D x))) (U2 u' x))) (v u')) = rmul (f lam) (v u).
Proof.
  intros ISO CP EV. set (c := fun x => sum n (fun u => rmul (U2 u x) (v u))).
  assert (EXP : forall (g : nat -> R) u, sum n (fun u' => rmul (sum k (fun x => rmul (rmul (conj (U2 u x)) (g x)) (U2 u' x))) (v u')) = sum k (fun x => rmul (rmul (conj (U2 u x)) (g x)) (c x))).
  { intros g u. rewrite (sum_ext r0 radd n _ (fun u' => sum k (fun x => rmul (rmul (rmul (conj (U2 u x)) (g x)) (U2 u' x)) (v u')))).
    2:{ intros u' _. symmetry. apply (sum_mul_r r0 r1 radd rmul rsub ropp RT). }
    rewrite (sum_swap r0 r1 radd rmul rsub ropp RT). apply sum_ext. intros x _. unfold c. rewrite <- (sum_mul_l r0 r1 radd rmul rsub ropp RT). apply sum_ext. intros; ring. }
  assert (VC : forall u, u < n -> v u = sum k (fun x => rmul (conj (U2 u x)) (c x))).
  { intros u Hu. transitivity (sum n (fun u' => rmul (sum k (fun x => rmul (rmul (conj (U2 u x)) r1) (U2 u' x))) (v u'))).
    - rewrite (sum_ext r0 radd n _ (fun u' => rmul (kron u' u) (v u'))); [now rewrite sum_kron|]. intros u' Hu'. f_equal. rewrite (kron_sym r0 r1), <- CP by assumption. apply sum_ext. intros; ring.
    - rewrite (EXP (fun _ => r1)). apply sum_ext. intros; ring. }
  assert (C0 : forall x, x < k -> D x = lam \/ c x = r0).
  { intros x Hx. assert (Z : rmul (rsub (D x) lam) (c x) = r0).
    - assert (E0 : forall u, u < n -> sum k (fun y => rmul (conj (U2 u y)) (rmul (rsub (D y) lam) (c y))) = r0).
      { intros u Hu. pose proof (EV u Hu) as E. rewrite EXP in E. rewrite (VC u Hu) in E.
        transitivity (rsub (sum k (fun y => rmul (rmul (conj (U2 u y)) (D y)) (c y))) (rmul lam (sum k (fun y => rmul (conj (U2 u y)) (c y))))); [|rewrite E; ring].
        rewrite <- (sum_mul_l r0 r1 radd rmul rsub ropp RT).
        transitivity (radd (sum k (fun y => rmul (rmul (conj (U2 u y)) (D y)) (c y))) (sum k (fun y => ropp (rmul lam (rmul (conj (U2 u y)) (c y)))))); [|rewrite (sum_opp r0 r1 radd rmul rsub ropp RT); ring].
        rewrite <- (sum_add r0 r1 radd rmul rsub ropp RT). apply sum_ext. intros; ring. }
      transitivity (sum n (fun u => rmul (U2 u x) (sum k (fun y => rmul (conj (U2 u y)) (rmul (rsub (D y) lam) (c y)))))).
      2:{ apply (sum_zero r0 r1 radd rmul rsub ropp RT). intros u Hu. rewrite E0 by exact Hu. ring. }
      rewrite (sum_ext r0 radd n _ (fun u => sum k (fun y => rmul (rmul (conj (U2 u y)) (U2 u x)) (rmul (rsub (D y) lam) (c y))))).
      2:{ intros u _. rewrite <- (sum_mul_l r0 r1 radd rmul rsub ropp RT). apply sum_ext. intros; ring. }
      rewrite (sum_swap r0 r1 radd rmul rsub ropp RT). rewrite (sum_ext r0 radd k _ (fun y => rmul (kron y x) (rmul (rsub (D y) lam) (c y)))).
      2:{ intros y Hy. rewrite (sum_mul_r r0 r1 radd rmul rsub ropp RT). now rewrite ISO. }
      now rewrite sum_kron.
    - destruct (nozd _ _ Z) as [K|K]; auto. left. transitivity (radd (rsub (D x) lam) lam); [ring|]. rewrite K. ring. }
  intros u Hu. rewrite (EXP (fun x => f (D x))). rewrite (VC u Hu), <- (sum_mul_l r0 r1 radd rmul rsub ropp RT). apply sum_ext. intros x Hx. destruct (C0 x Hx) as [-> | ->]; ring.
Qed.

Section T.
Context {J : Type}.
Notation I := (J * nat)%type.
Context (ieq : I -> I -> bool) (dim : I -> nat).
Hypothesis ieq_spec : forall a b, ieq a b = true <-> a = b.
Hypothesis dim_prime : forall p x, dim (prime p x) = dim x.
Context (p : nat) (L AA : list I).
Hypothesis HPR : paired p L AA.
Hypothesis ND : NoDup AA.
Hypothesis Hpos : forall x, In x AA -> 0 < dim x.
Notation override := (override ieq).
Notation inrange := (inrange dim).
Context (A U T : (I -> nat) -> R) (l : I) (D : list R) (f : R -> R).
Hypothesis Hl : ~ In l L.
Hypothesis HR : forall s s', (forall x, x = l \/ In x L -> s x = s' x) -> U s = U s'.
Hypothesis ISO : isometry r0 r1 radd rmul conj ieq dim L l (length D) U.
Hypothesis CP : complete r0 r1 radd rmul conj ieq dim L l (length D) U.
Hypothesis HA : forall s, inrange AA s -> udu r0 radd rmul conj ieq p U l D s = A s.
Hypothesis HT : forall s, inrange AA s -> udu r0 radd rmul conj ieq p U l (map f D) s = T s.

Lemma nodupL : NoDup L.
Proof. pose proof (Permutation_NoDup (proj1 (proj2 HPR)) ND) as Q. exact (nda_l _ _ Q). Qed.

Lemma fun_eigT lam v : eigenvector r0 radd rmul ieq dim p L A lam v -> eigenvector r0 radd rmul ieq dim p L T (f lam) v.
Proof.
  pose proof nodupL as NL. assert (I1 : incl L AA) by (intros x Hx; exact (inL p L AA HPR x Hx)).
  assert (PL : forall x, In x L -> 0 < dim x) by (intros; apply Hpos, I1; assumption).
  set (n := size (map dim L)). set (N := joint dim L). pose proof (numbering_joint ieq dim ieq_spec L NL PL) as Nm. fold n N in Nm. pose proof Nm as (N1 & N2 & N3 & N4).
  pose proof (numbering_p ieq dim ieq_spec dim_prime p L n N Nm) as Nmp.
  set (rep := fun u => assign ieq L (decode (map dim L) u) (fun _ => 0)).
  assert (RJ : forall u, u < n -> N (rep u) = u /\ inrange L (rep u)).
  { intros u Hu. destruct (decode_enc_assign ieq dim ieq_spec L u NL Hu PL (fun _ => 0)) as (K1 & K2 & _). auto. }
  assert (RI : forall u, u < n -> inrange L (rep u)) by (intros u Hu; now apply RJ).
  assert (RN : forall s, inrange L s -> forall x, In x L -> rep (N s) x = s x).
  { intros s Hs. assert (NL' : N s < n) by auto. apply N3; auto. now apply RJ. }
  set (U2 := fun u x => U (override (rep u) l x)). set (v2 := fun u => v (rep u)).
  assert (HU : forall s x, inrange L s -> U (override s l x) = U2 (N s) x).
  { intros s x Hs. unfold U2. apply HR. intros y [->|Hy]; [now rewrite !(override_self ieq ieq_spec)|]. rewrite !(override_ne ieq ieq_spec) by (intros ->; contradiction). symmetry. now apply RN. }
  assert (Rp : forall s, inrange AA s -> inrange L (primed p s)) by (intros s Hs y Hy; unfold primed; rewrite <- (dim_prime p); apply Hs; exact (inLp p L AA HPR _ Hy)).
  assert (RL : forall s, inrange AA s -> inrange L s) by (intros s Hs y Hy; apply Hs, I1, Hy).
  assert (UDU : forall E s, inrange AA s -> udu r0 radd rmul conj ieq p U l E s = sum (length E) (fun x => rmul (rmul (conj (U2 (N s) x)) (nth x E r0)) (U2 (Np p N s) x))).
  { intros E s Hs. unfold udu, udv. apply sum_ext. intros x Hx. rewrite HU by auto. f_equal. change (Np p N s) with (N (primed p s)). rewrite <- (HU (primed p s) x) by auto. apply HR. intros y _. apply (over_pr ieq ieq_spec). }
  assert (ISO2 : forall x x', x < length D -> x' < length D -> sum n (fun u => rmul (conj (U2 u x)) (U2 u x')) = kron x x').
  { intros x x' Hx Hx'. rewrite <- (ISO (fun _ => 0) x x' Hx Hx'). rewrite <- (reindex r0 r1 radd rmul rsub ropp RT ieq dim ieq_spec L n N (fun u => rmul (conj (U2 u x)) (U2 u x')) (fun _ => 0) NL PL Nm).
    apply (so_ext_in r0 radd ieq ieq_spec (fun _ => nil) dim). intros t _ Ht. rewrite !HU by exact Ht. reflexivity. }
  assert (CP2 : forall u u', u < n -> u' < n -> sum (length D) (fun x => rmul (conj (U2 u x)) (U2 u' x)) = kron u u').
  { intros u u' Hu Hu'. destruct (CP (rep u) (rep u') (RI u Hu) (RI u' Hu')) as [C1 C2]. unfold SvdSpec.kron. destruct (Nat.eqb_spec u u') as [->|Ne].
    - apply C1. reflexivity.
    - apply C2. destruct (list_eq_dec Nat.eq_dec (map (rep u) L) (map (rep u') L)) as [E|E].
      + elim Ne. transitivity (N (rep u)); [symmetry; now apply RJ|]. transitivity (N (rep u')); [unfold N, joint; now rewrite E|now apply RJ].
      + revert E. generalize (rep u) (rep u'). clear. intros ra rb E. induction L as [|x l0 IH]; [elim E; reflexivity|]. destruct (Nat.eq_dec (ra x) (rb x)) as [K|K]; [|exists x; cbn; auto]. destruct IH as (y & Hy & Q); [|exists y; cbn; auto].
        intros K2. apply E. cbn. now rewrite K, K2. }
  intros [VR EV]. split; [exact VR|].
  assert (SUM : forall E (B : (I -> nat) -> R), (forall t, inrange AA t -> udu r0 radd rmul conj ieq p U l E t = B t) -> forall s, inrange L s ->
     sum_over r0 radd ieq dim (map (prime p) L) (fun t => rmul (B t) (v (primed p t))) s =
     sum n (fun u' => rmul (sum (length E) (fun x => rmul (rmul (conj (U2 (N s) x)) (nth x E r0)) (U2 u' x))) (v2 u'))).
  { intros E B HB s Hs. assert (NP : NoDup (map (prime p) L)).
    { pose proof (Permutation_NoDup (proj1 (proj2 HPR)) ND) as Q. exact (nda_r _ _ Q). }
    assert (PP : forall x, In x (map (prime p) L) -> 0 < dim x) by (intros x Hx; apply in_map_iff in Hx as (y & <- & Hy); rewrite dim_prime; auto).
    rewrite <- (reindex r0 r1 radd rmul rsub ropp RT ieq dim ieq_spec (map (prime p) L) n (Np p N) (fun u' => rmul (sum (length E) (fun x => rmul (rmul (conj (U2 (N s) x)) (nth x E r0)) (U2 u' x))) (v2 u')) s NP PP Nmp).
    apply (so_ext_in r0 radd ieq ieq_spec (fun _ => nil) dim). intros t Ht1 Ht2.
    assert (Ht : inrange AA t).
    { intros x Hx. pose proof (Permutation_in _ (proj1 (proj2 HPR)) Hx) as K. apply in_app_or in K as [K|K]; [|auto]. rewrite Ht1; auto. exact (disjLp p L AA HPR ND x K). }
    rewrite <- HB, UDU by exact Ht. f_equal.
    - assert (EN : N t = N s) by (apply N1; intros y Hy; apply Ht1; exact (disjLp p L AA HPR ND y Hy)). now rewrite EN.
    - unfold v2, Np. apply VR. intros y Hy. symmetry. apply RN; auto. }
  intros s Hs. rewrite (SUM (map f D) T HT s Hs). rewrite map_length.
  assert (V2 : forall s, inrange L s -> v s = v2 (N s)) by (intros t Ht; unfold v2; apply VR; intros y Hy; symmetry; now apply RN).
  rewrite (V2 s Hs).
  rewrite (sum_ext r0 radd n _ (fun u' => rmul (sum (length D) (fun x => rmul (rmul (conj (U2 (N s) x)) (f (nth x D r0))) (U2 u' x))) (v2 u'))).
  2:{ intros u' _. f_equal. apply sum_ext. intros x Hx. do 2 f_equal. rewrite (nth_indep _ r0 (f r0)) by (now rewrite map_length). apply map_nth. }
  apply (fun_eig n (length D) U2 (fun x => nth x D r0) f v2 lam ISO2 CP2); [|auto].
  intros u Hu.
  assert (EN : N (rep u) = u) by now apply RJ.
  pose proof (SUM D A HA (rep u) (RI u Hu)) as Q. rewrite EN in Q. rewrite <- Q. apply EV. now apply RI.
Qed.
End T.

Section Prod.
Context {J : Type} (jeq : J -> J -> bool) (jeq_spec : forall a b, jeq a b = true <-> a = b).
Notation I := (J * nat)%type.
Notation ieq := (ieqp jeq).
Notation ieq_spec := (ieqp_spec jeq jeq_spec).
Context (dim : I -> nat).
Hypothesis dim_prime : forall p x, dim (prime p x) = dim x.
Notation override := (override ieq).
Notation inrange := (inrange dim).
Notation expH := (expH r0 conj radd rmul jeq dim).
Notation common := (common jeq).
Notation others := (others jeq).

Lemma mem_iff x L : existsb (ieq x) L = true <-> In x L.
Proof. rewrite existsb_exists. split; [intros (y & Hy & E); apply ieq_spec in E; congruence|]. intros H. exists x. split; auto. now apply ieq_spec. Qed.
Lemma common_in x a b : In x (common a b) <-> In x a /\ In x b.
Proof. unfold HermModel.common. rewrite filter_In, mem_iff. reflexivity. Qed.
Lemma others_in x a b : In x (others a b) <-> In x a /\ ~ In x b.
Proof.
  unfold HermModel.others. rewrite filter_In, negb_true_iff. pose proof (mem_iff x b) as M. destruct (existsb (ieq x) b); intuition congruence.
Qed.
Lemma sum_delta n w (g : nat -> R) : w < n -> sumn r0 radd n (fun v => rmul (g v) (if v =? w then r1 else r0)) = g w.
Proof.
  intros H. rewrite <- (sum_below_sumn r0 radd). rewrite <- (sum_kron n w g H). apply sum_ext. intros i _. unfold SvdSpec.kron. ring.
Qed.

Context (L AA Uix : list I) (U : (I -> nat) -> R) (l : I) (D : list R) (f : R -> R).
Hypothesis HPR : paired 1 L AA.
Hypothesis ND : NoDup AA.
Hypothesis NU : NoDup Uix.
Hypothesis HU : forall x, In x Uix <-> x = l \/ In x L.
Hypothesis lA : ~ In l AA.
Hypothesis l0 : snd l = 0.
Hypothesis Dl : dim l = length D.
Hypothesis HR : forall s s', (forall x, s x = s' x) -> U s = U s'.

Lemma no_prime x : primep 1 x <> l.
Proof. intros E. apply (f_equal snd) in E. cbn in E. lia. Qed.
Lemma prime_out x : In x L -> ~ In (primep 1 x) L.
Proof. intros H K. destruct HPR as (_ & _ & G). destruct x as [j a]. pose proof (G j a (a + 1) H K). lia. Qed.

Lemma exp_ok : let T := expH f Uix U l 1 D in Permutation (fst T) AA /\
  forall s, snd T s = udu r0 radd rmul conj ieq 1 U l (map f D) s.
Proof.
  intros T. set (pl := primep 1 l). assert (NE : pl <> l) by apply no_prime.
  assert (NP : NoDup (map (primep 1) Uix)) by (apply FinFun.Injective_map_NoDup; auto; intros x y E; exact (prime_inj 1 x y E)).
  assert (InP : forall x, In x (map (primep 1) Uix) <-> x = pl \/ exists y, In y L /\ x = primep 1 y).
  { intros x. rewrite in_map_iff. split; [intros (y & <- & Hy); apply HU in Hy as [->|Hy]; eauto|]. intros [->|(y & Hy & ->)]; [exists l|exists y]; split; auto; apply HU; auto. }
  assert (LA : forall x, In x L -> In x AA) by (intros x Hx; exact (inL 1 L AA HPR x Hx)).
  assert (lL : ~ In l L) by (intros K; apply lA, LA, K).
  assert (C1 : common (map (primep 1) Uix) [pl; l] = [pl]).
  { apply filter_one; auto; [apply InP; now left|]. intros x Hx. rewrite mem_iff. cbn. split; [|intros ->; auto]. intros [K|[K|[]]]; auto. subst x. apply InP in Hx as [K|(y & Hy & K)]; [elim NE; now symmetry|]. elim (no_prime y). now symmetry. }
  assert (O1 : others [pl; l] (map (primep 1) Uix) = [l]).
  { unfold HermModel.others. cbn [filter]. assert (E1 : existsb (ieq pl) (map (primep 1) Uix) = true) by (apply mem_iff, InP; now left).
    assert (E2 : existsb (ieq l) (map (primep 1) Uix) = false).
    { destruct (existsb (ieq l) (map (primep 1) Uix)) eqn:E; auto. apply mem_iff in E. apply InP in E. destruct E as [K|(y & Hy & K)]; [elim NE; now symmetry|]. elim (no_prime y). now symmetry. }
    rewrite E1, E2. reflexivity. }
  set (O0 := others (map (primep 1) Uix) [pl; l]).
  assert (InO : forall x, In x O0 <-> exists y, In y L /\ x = primep 1 y).
  { intros x. unfold O0. rewrite others_in, InP. cbn. split.
    - intros [[->|K] Q]; [tauto|auto].
    - intros (y & Hy & ->). split; [right; eauto|]. intros [K|[K|[]]]; [apply prime_inj in K; subst; contradiction|]. elim (no_prime y). now symmetry. }
  assert (NO : NoDup (O0 ++ [l])).
  { unfold O0, HermModel.others. pose proof (NoDup_filter (fun x => negb (existsb (ieq x) [pl; l])) NP) as Q. fold (others (map (primep 1) Uix) [pl; l]) in Q |- *. fold O0 in Q |- *.
    apply (Permutation_NoDup (l := l :: O0)); [apply Permutation_cons_append|]. constructor; auto. intros K. apply InO in K as (y & _ & K). elim (no_prime y). now symmetry. }
  assert (C2 : common (O0 ++ [l]) Uix = [l]).
  { apply filter_one; auto; [apply in_or_app; cbn; auto|]. intros x Hx. rewrite mem_iff, HU. split; [|auto]. intros [K|K]; auto. apply in_app_or in Hx as [Hx|[<-|[]]]; auto. apply InO in Hx as (y & Hy & ->). elim (prime_out y Hy K). }
  unfold HermModel.expH in T. fold pl in T.
  assert (EF : fst T = others (O0 ++ [l]) Uix ++ others Uix (O0 ++ [l])).
  { unfold T, tmul. cbn [fst snd]. rewrite O1. fold O0. reflexivity. }
  split.
  - rewrite EF. apply NoDup_Permutation; [|exact ND|].
    + assert (Q1 : NoDup (others (O0 ++ [l]) Uix)) by now apply NoDup_filter. assert (Q2 : NoDup (others Uix (O0 ++ [l]))) by now apply NoDup_filter.
      assert (Q3 : forall x, In x (others (O0 ++ [l]) Uix) -> ~ In x (others Uix (O0 ++ [l]))) by (intros x H1 H2; apply others_in in H1, H2; tauto).
      revert Q1 Q2 Q3. generalize (others (O0 ++ [l]) Uix) (others Uix (O0 ++ [l])). clear. intros a b Q1 Q2 Q3. induction a as [|x a IH]; cbn; auto. apply NoDup_cons_iff in Q1 as [Q1 Q1']. constructor.
      * intros K. apply in_app_or in K as [K|K]; [contradiction|]. apply (Q3 x); cbn; auto.
      * apply IH; auto. intros y Hy. apply Q3. now right.
    + intros x. rewrite in_app_iff, !others_in, in_app_iff, InO, HU. cbn.
      assert (EA : In x AA <-> In x L \/ exists y, In y L /\ x = primep 1 y).
      { split; intros K.
        - apply (Permutation_in _ (proj1 (proj2 HPR))) in K. apply in_app_or in K as [K|K]; auto. apply in_map_iff in K as (y & <- & Hy). eauto.
        - destruct K as [K|(y & Hy & ->)]; auto. exact (inLp 1 L AA HPR y Hy). }
      rewrite EA. split.
      * intros [[[K|[<-|[]]] Q]|[[->|K] Q]]; auto; tauto.
      * intros [K|(y & Hy & ->)].
        -- right. split; auto. intros [(y & Hy & ->)|[->|[]]]; [elim (prime_out y Hy K)|contradiction].
        -- left. split; [left; eauto|]. intros [K|K]; [elim (no_prime y K)|elim (prime_out y Hy K)].
  - intros s. assert (ES : snd T s = sumn r0 radd (dim l) (fun w => let t := fun y => if ieq y l then w else s y in
        rmul (sumn r0 radd (dim pl) (fun v => let t' := fun y => if ieq y pl then v else t y in rmul (U (fun x => t' (primep 1 x))) (if t' pl =? t' l then nth (t' l) (map f D) r0 else r0))) (conj (U t)))).
    { unfold T, tmul. cbn [fst snd]. rewrite O1. fold O0. rewrite C2, C1. reflexivity. }
    rewrite ES. unfold udu, udv. rewrite map_length, <- Dl. etransitivity; [|symmetry; apply (sum_below_sumn r0 radd)]. apply sumn_ext. intros w Hw. cbv zeta.
    assert (L1 : ieq pl pl = true) by now apply ieq_spec. assert (L2 : ieq l pl = false) by (destruct (ieq l pl) eqn:E; auto; apply ieq_spec in E; congruence). assert (L3 : ieq l l = true) by now apply ieq_spec.
    set (g := fun v => rmul (U (fun x => if ieq (primep 1 x) pl then v else if ieq (primep 1 x) l then w else s (primep 1 x))) (nth w (map f D) r0)).
    assert (EG : sumn r0 radd (dim pl) (fun v => rmul (U (fun x => if ieq (primep 1 x) pl then v else if ieq (primep 1 x) l then w else s (primep 1 x)))
        (if (if ieq pl pl then v else if ieq pl l then w else s pl) =? (if ieq l pl then v else if ieq l l then w else s l) then nth (if ieq l pl then v else if ieq l l then w else s l) (map f D) r0 else r0)) = g w).
    { change (dim pl) with (dim (prime 1 l)). rewrite dim_prime. rewrite <- (sum_delta (dim l) w g Hw). apply sumn_ext. intros v _. rewrite L1, L2, L3. unfold g. destruct (v =? w); ring. }
    rewrite EG. unfold g.
    assert (S1 : U (fun x => if ieq (primep 1 x) pl then w else if ieq (primep 1 x) l then w else s (primep 1 x)) = U (primed 1 (override s (prime 1 l) w))).
    { apply HR. intros x. unfold primed, TensorSpec.override. change (prime 1 l) with pl. change (prime 1 x) with (primep 1 x). destruct (ieq (primep 1 x) pl) eqn:E.
      - apply ieq_spec in E. rewrite E, L1. reflexivity.
      - destruct (ieq pl (primep 1 x)) eqn:E'; [apply ieq_spec in E'; rewrite E', (proj2 (ieq_spec _ _) eq_refl) in E; discriminate|].
        destruct (ieq (primep 1 x) l) eqn:E2; auto. apply ieq_spec in E2. elim (no_prime x E2). }
    assert (S2 : U (fun y => if ieq y l then w else s y) = U (override s l w)).
    { apply HR. intros y. unfold TensorSpec.override. destruct (ieq y l) eqn:E.
      - apply ieq_spec in E. subst y. now rewrite L3.
      - destruct (ieq l y) eqn:E'; auto. apply ieq_spec in E'. subst y. congruence. }
    rewrite S1, S2. ring.
Qed.
End Prod.
End Exp.
