(** C42: the MPS built from a product state. *)
From Coq Require Import List ZArith Bool Arith Lia Ring.
From Verif Require Import Util SmallStringModel QnModel QnSpec QnProofs QnProps BigSum MpsModel MpsTensor MpsSpec ProductModel.
Import ListNotations.
Local Open Scope outcome_scope.
Local Arguments Nat.ltb : simpl never.

(** The quantum number of value v (from 1) of a list of blocks: the block whose range
    of values contains v. *)
Definition in_block (bs : list (QN * nat)) (v : nat) (q : QN) : Prop :=
  exists pre n post, bs = pre ++ (q, n) :: post /\
    list_sum (map snd pre) < v <= list_sum (map snd pre) + n.
(** A chosen site state: Out arrow, value v in range with quantum number q. *)
Definition chosen (M : SmallString -> Z) (S : list SmallString) (iv : ival) (q : QN) : Prop :=
  qdir (fst iv) = ArrOut /\ in_block (qblocks (fst iv)) (snd iv) q /\ Charges M S q.
(** The sum of quantum numbers, as integers modulo M n for each name. *)
Fixpoint sum_val (qs : list QN) (n : SmallString) : Z :=
  match qs with [] => 0 | q :: qs' => qn_val_of q n + sum_val qs' n end%Z.

Lemma sector_ok : forall bs v q, in_block bs v q -> sector bs v = Ok q.
Proof.
  intros bs v q (pre & n & post & -> & H). revert v H. induction pre as [|[q' n'] pre IH]; cbn; unfold list_sum in *; intros v H.
  - destruct (Nat.ltb_spec n v); [lia|reflexivity].
  - destruct (Nat.ltb_spec n' v); [apply IH; lia|lia].
Qed.
Lemma sector_in : forall bs v q, 1 <= v -> sector bs v = Ok q -> in_block bs v q.
Proof.
  induction bs as [|[q' n'] bs IH]; cbn; intros v q Hv H; [discriminate|].
  destruct (Nat.ltb_spec n' v).
  - destruct (IH (v - n') q ltac:(lia) H) as (pre & n & post & -> & K). exists ((q', n') :: pre), n, post. split; [reflexivity|]. cbn. unfold list_sum in *. lia.
  - injection H as <-. exists [], n', bs. split; [reflexivity|]. cbn. unfold list_sum in *. lia.
Qed.

Section C42.
Variables (M : SmallString -> Z) (S : list SmallString).
Hypothesis Sch : Scheme M S.

Definition isval (q : QN) (f : SmallString -> Z) : Prop := Charges M S q /\ forall n, qn_val_of q n = residue (M n) (f n).
Lemma isval0 : isval qn0 (fun _ => 0%Z).
Proof. split; [constructor|]. intros n. rewrite residue_0. unfold qn0. cbn [qn_val_of qn_name qn_val qnum0]. destruct (ss_eqb _ _); reflexivity. Qed.
Lemma isval_self : forall q, Charges M S q -> isval q (qn_val_of q).
Proof. intros q H. split; [assumption|]. intros n. symmetry. apply (qn_val_residue M S); assumption. Qed.
Lemma isval_add : forall q f q' g, isval q f -> isval q' g -> isval (qn_add q q') (fun n => f n + g n)%Z.
Proof.
  intros q f q' g (A & B) (C & D). split; [constructor; assumption|]. intros n. rewrite (qn_add_val M S) by assumption.
  rewrite B, D, residue_add_l, residue_add_r. reflexivity.
Qed.
Lemma isval_mul : forall q f d, isval q f -> isval (qn_mul q d) (fun n => f n * arrow_int d)%Z.
Proof.
  intros q f d (A & B). split; [constructor; assumption|]. intros n. rewrite (qn_mul_val M S) by assumption. rewrite B.
  destruct d; cbn [arrow_int].
  - replace (residue (M n) (f n) * -1)%Z with (- residue (M n) (f n))%Z by ring. rewrite residue_opp. f_equal; ring.
  - rewrite !Z.mul_1_r. apply residue_idem.
  - rewrite !Z.mul_0_r. reflexivity.
Qed.
Lemma isval_neg : forall q f, isval q f -> isval (qn_neg q) (fun n => - f n)%Z.
Proof.
  intros q f (A & B). split; [constructor; assumption|]. intros n. rewrite (qn_neg_val M S) by assumption. rewrite B. apply residue_opp.
Qed.
Lemma isval_sub : forall q f q' g, isval q f -> isval q' g -> isval (qn_sub q q') (fun n => f n - g n)%Z.
Proof.
  intros q f q' g (A & B) (C & D). split; [constructor; assumption|]. intros n. rewrite (qn_sub_val M S) by assumption.
  rewrite B, D. unfold Z.sub. rewrite residue_add_l. rewrite <- residue_add_r, residue_opp, residue_add_r. reflexivity.
Qed.
Lemma isval_ext : forall q f g, isval q f -> (forall n, f n = g n) -> isval q g.
Proof. intros q f g (A & B) E. split; [assumption|]. intros n. rewrite B, E. reflexivity. Qed.
Lemma isval_eq : forall q f q', isval q f -> isval q' f -> qn_eqb q q' = true.
Proof. intros q f q' (A & B) (C & D). apply (qn_eqb_iff M S); try assumption. intros n. rewrite B, D. reflexivity. Qed.

Lemma qa0_val : forall qs, Forall (Charges M S) qs -> isval (qa0 qs) (sum_val qs).
Proof.
  intros qs F. unfold qa0.
  assert (G : forall q f, isval q f -> isval (fold_left (fun acc q => qn_sub acc (qn_mul q ArrIn)) qs q) (fun n => f n + sum_val qs n)%Z).
  { induction F as [|s qs Hs F IH]; intros q f H; cbn [fold_left sum_val].
    - eapply isval_ext; [exact H|intros; ring].
    - eapply isval_ext; [apply IH; apply (isval_sub _ _ _ _ H (isval_mul _ _ ArrIn (isval_self _ Hs)))|]. intros n. cbn [arrow_int]. ring. }
  eapply isval_ext; [apply G, isval0|]. intros. ring.
Qed.
(** qa[i] is the sum of the quantum numbers to its right. *)
Definition tails (f : SmallString -> Z) (qs : list QN) (k : nat) : SmallString -> Z := fun n => (f n - sum_val (firstn k qs) n)%Z.
Lemma qa_rest_val : forall qs q f, Forall (Charges M S) qs -> isval q f ->
  forall k q', nth_error (qa_rest q qs) k = Some q' -> isval q' (tails f qs (Datatypes.S k)).
Proof.
  intros qs q f F. revert q f. induction F as [|s qs Hs F IH]; intros q f H k q' E; [destruct k; discriminate|].
  cbn [qa_rest] in E.
  assert (H' : isval (qn_mul (qn_sub (qn_mul (qn_neg q) ArrIn) s) ArrOut) (fun n => f n - qn_val_of s n)%Z).
  { eapply isval_ext; [apply isval_mul, isval_sub; [apply isval_mul, isval_neg; exact H|apply isval_self; exact Hs]|].
    intros n. cbn [arrow_int]. ring. }
  destruct k as [|k]; cbn in E.
  - injection E as <-. eapply isval_ext; [exact H'|]. intros n. unfold tails. cbn. ring.
  - eapply isval_ext; [apply (IH _ _ H' k q' E)|]. intros n. unfold tails. cbn [firstn sum_val]. ring.
Qed.

Lemma omap_chosen : forall ivs qs, Forall2 (chosen M S) ivs qs -> omap iv_qn ivs = Ok qs /\ Forall (Charges M S) qs.
Proof.
  intros ivs qs F. induction F as [|iv q ivs qs (A & B & C) F (IH1 & IH2)]; cbn; [auto|].
  unfold iv_qn at 1. rewrite (sector_ok _ _ _ B). cbn. rewrite IH1. cbn. auto.
Qed.
Lemma build_rest_flux : forall ivs qs, Forall2 (chosen M S) ivs qs -> forall q f, isval q f -> (forall n, f n = sum_val qs n) ->
  Forall (fun t => exists x, flux t = Ok x /\ qn_eqb x qn0 = true) (build_rest ivs q (qa_rest q qs)).
Proof.
  intros ivs qs F. induction F as [|iv s ivs qs (A & B & C) F IH]; intros q f H Hf; [constructor|].
  assert (H' : isval (qn_mul (qn_sub (qn_mul (qn_neg q) ArrIn) s) ArrOut) (sum_val qs)).
  { eapply isval_ext; [apply isval_mul, isval_sub; [apply isval_mul, isval_neg; exact H|apply isval_self; exact C]|].
    intros n. cbv beta. rewrite Hf. cbn [arrow_int sum_val]. ring. }
  destruct ivs as [|iv' ivs].
  - inversion F; subst. cbn [build_rest qa_rest]. constructor; [|constructor].
    eexists. unfold flux. cbn [calc_div]. unfold iv_qn at 1. cbn [fst snd qblocks qi_dag link sector Nat.ltb Nat.leb obind].
    unfold iv_qn. rewrite (sector_ok _ _ _ B). cbn [obind]. rewrite A. split; [reflexivity|].
    eapply isval_eq with (f := fun n => 0%Z); [|apply isval0].
    eapply isval_ext; [apply isval_add; [apply isval_add; [apply isval0|apply isval_mul; exact H]|apply isval_mul, isval_self; exact C]|].
    intros n. cbv beta. rewrite Hf. cbn [arrow_int qdir arrow_neg sum_val link]. cbn -[Z.mul Z.add]. ring.
  - cbn [build_rest qa_rest]. constructor; [|apply (IH _ _ H'); reflexivity].
    eexists. unfold flux. cbn [calc_div]. unfold iv_qn. cbn [fst snd qblocks qi_dag link sector Nat.ltb Nat.leb obind].
    rewrite (sector_ok _ _ _ B). cbn [obind]. rewrite A. split; [reflexivity|].
    eapply isval_eq with (f := fun n => 0%Z); [|apply isval0].
    eapply isval_ext; [apply isval_add; [apply isval_add; [apply isval_add; [apply isval0|apply isval_mul; exact H]|apply isval_mul, isval_self; exact C]|apply isval_mul; exact H']|].
    intros n. cbv beta. rewrite Hf. cbn [sum_val]. cbn -[Z.mul Z.add sum_val]. ring.
Qed.
Lemma build_rest_len : forall ivs qs q, Forall2 (chosen M S) ivs qs -> length (build_rest ivs q (qa_rest q qs)) = length ivs.
Proof.
  intros ivs qs q F. revert q. induction F as [|iv s ivs qs C F IH]; intros q; [reflexivity|].
  destruct ivs as [|iv' ivs]; [reflexivity|]. cbn [qa_rest]. set (q' := qn_mul _ ArrOut).
  change (build_rest (iv :: iv' :: ivs) q (q' :: qa_rest q' qs)) with ([(qi_dag (link q), 1); iv; (link q', 1)] :: build_rest (iv' :: ivs) q' (qa_rest q' qs)).
  cbn [length]. rewrite IH. reflexivity.
Qed.

(** All tensors but the first have zero flux, the first has the total, and totalQN returns the
    sum of the site quantum numbers. *)
Theorem C42_flux : forall (ivs : list ival) (qs : list QN), Forall2 (chosen M S) ivs qs -> 2 <= length ivs ->
  exists t ts, product_mps ivs = Ok (t :: ts, 0%Z, 2%Z) /\ length ts = length ivs - 1 /\
    Forall (fun u => exists x, flux u = Ok x /\ qn_eqb x qn0 = true) ts /\
    exists x, flux t = Ok x /\
    exists Q, totalQN (t :: ts, 0%Z, 2%Z) = Ok Q /\ qn_eqb x Q = true /\
      (forall n, qn_val_of Q n = residue (M n) (sum_val qs n)) /\
      qn_eqb Q (fold_right qn_add qn0 qs) = true.
Proof.
  intros ivs qs F L. destruct (omap_chosen _ _ F) as (E & Fq). unfold product_mps. rewrite E. cbn [obind].
  destruct (Nat.ltb_spec (length ivs) 2); [lia|]. pose proof (qa0_val _ Fq) as H0.
  destruct F as [|iv s ivs qs (A & B & C) F]; [cbn in L; lia|]. cbn [qa_rest build].
  set (q1 := qn_mul (qn_sub (qn_mul (qn_neg (qa0 (s :: qs))) ArrIn) s) ArrOut).
  assert (H1 : isval q1 (sum_val qs)).
  { eapply isval_ext; [apply isval_mul, isval_sub; [apply isval_mul, isval_neg; exact H0|apply isval_self; exact C]|].
    intros n. cbn [arrow_int sum_val]. ring. }
  eexists. eexists. split; [reflexivity|]. split; [rewrite (build_rest_len _ _ _ F); cbn; lia|].
  split; [apply (build_rest_flux _ _ F _ _ H1); reflexivity|].
  assert (Hx : exists x, flux [iv; (link q1, 1)] = Ok x /\ isval x (sum_val (s :: qs))).
  { eexists. unfold flux. cbn [calc_div]. unfold iv_qn. rewrite (sector_ok _ _ _ B). cbn [obind].
    cbn [fst snd qblocks link sector Nat.ltb Nat.leb obind]. rewrite A. split; [reflexivity|].
    eapply isval_ext; [apply isval_add; [apply isval_add; [apply isval0|apply isval_mul, isval_self; exact C]|apply isval_mul; exact H1]|].
    intros n. cbn -[Z.mul Z.add sum_val]; cbn [sum_val]. ring. }
  destruct Hx as (x & Ex & Hx). exists x. split; [exact Ex|].
  exists (qn_add qn0 x). cbn [totalQN]. change (Z.to_nat (2 - 1 - 0)) with 1. change (Z.to_nat 0) with 0. cbn [skipn firstn sum_flux].
  rewrite Ex. cbn [obind]. split; [reflexivity|].
  assert (HQ : isval (qn_add qn0 x) (sum_val (s :: qs))).
  { eapply isval_ext; [apply isval_add; [apply isval0|exact Hx]|]. intros n. ring. }
  split; [apply (isval_eq _ _ _ Hx HQ)|]. split; [apply HQ|].
  apply (isval_eq _ _ _ HQ). clear - Fq Sch. induction Fq as [|q l Hq Fq IH]; cbn [fold_right sum_val]; [apply isval0|].
  apply (isval_add _ _ _ _ (isval_self _ Hq) IH).
Qed.
End C42.

(** The state: amplitude 1 on the chosen configuration, 0 on every other one, for sites
    with any arrows. *)
Section Amplitude.
Context {R : Type} (r0 r1 : R) (radd rmul rsub : R -> R -> R) (ropp : R -> R) (conj : R -> R).
Context (RT : ring_theory r0 r1 radd rmul rsub ropp eq).
Add Ring RRpp : RT.
Notation amp := (amplitude r0 r1 radd rmul).

(** Values from 1 to the dimension. *)
Definition in_range (iv : ival) : Prop := 1 <= snd iv <= qdim (fst iv).

Lemma build_rest_entries : forall ivs qas q, ivs <> [] -> length ivs <= length qas ->
  let ts := entries_rest r0 r1 (build_rest ivs q qas) in
  linked 1 ts 1 /\ map (@tp R) ts = map (fun iv => qdim (fst iv)) ivs /\
  forall c, length c = length ivs ->
    chain r0 r1 radd rmul ts c 0 0 = if list_eq_dec Nat.eq_dec (map Datatypes.S c) (map snd ivs) then r1 else r0.
Proof.
  induction ivs as [|iv ivs IH]; intros qas q N L; [congruence|].
  destruct ivs as [|iv' ivs].
  - cbn [build_rest entries_rest entries site_of]. cbn zeta. split; [cbn; auto|]. split; [reflexivity|].
    intros [|s [|? ?]] Lc; try discriminate. cbn [MpsSpec.chain te tr map]. rewrite (bsum_1 r0 r1 radd rmul rsub ropp RT).
    change (Nat.eqb 0 0) with true. cbn [andb]. rewrite andb_true_r. unfold delta. change (Nat.eqb 0 0) with true. cbv iota.
    destruct (list_eq_dec _ _ _) as [e|ne]; destruct (Nat.eqb_spec (Datatypes.S s) (snd iv)); try ring; exfalso; congruence.
  - destruct qas as [|q' qas]; [cbn in L; lia|].
    specialize (IH qas q' ltac:(discriminate) ltac:(cbn in L |- *; lia)). cbn zeta in IH.
    set (bs := build_rest (iv' :: ivs) q' qas) in *.
    change (build_rest (iv :: iv' :: ivs) q (q' :: qas)) with ([(qi_dag (link q), 1); iv; (link q', 1)] :: bs).
    cbn zeta. cbn [entries_rest]. destruct IH as (I1 & I2 & I3). split; [split; [reflexivity|exact I1]|].
    split; [cbn [map]; rewrite I2; reflexivity|].
    intros [|s c] Lc; [discriminate|]. cbn [length] in Lc. injection Lc as Lc. cbn [MpsSpec.chain entries site_of te tr].
    rewrite (bsum_1 r0 r1 radd rmul rsub ropp RT). rewrite I3 by exact Lc. change (Nat.eqb 0 0) with true. cbn [andb]. rewrite andb_true_r.
    cbn [map].
    destruct (list_eq_dec Nat.eq_dec (map Datatypes.S c) (snd iv' :: map snd ivs)) as [e|ne]; cbn [map] in *;
    destruct (list_eq_dec Nat.eq_dec (Datatypes.S s :: map Datatypes.S c) (snd iv :: snd iv' :: map snd ivs)) as [e'|ne'];
    destruct (Nat.eqb_spec (Datatypes.S s) (snd iv)); try ring; exfalso; congruence.
Qed.
Lemma qa_len : forall qs q, length (qa_rest q qs) = length qs.
Proof. induction qs as [|s qs IH]; intros q; cbn [qa_rest length]; [reflexivity|]. rewrite IH. reflexivity. Qed.
Lemma omap_len : forall {A B} (f : A -> outcome B) l l', omap f l = Ok l' -> length l' = length l.
Proof.
  intros A B f. induction l as [|x l IH]; cbn; intros l' H; [injection H as <-; reflexivity|].
  destruct (f x); try discriminate. cbn in H. destruct (omap f l) as [ys| |]; try discriminate. injection H as <-. cbn. f_equal. apply IH. reflexivity.
Qed.
Lemma omap_range : forall ivs, Forall in_range ivs -> exists qs, omap iv_qn ivs = Ok qs.
Proof.
  assert (S1 : forall bs v, v <= list_sum (map snd bs) -> 1 <= v -> exists q, sector bs v = Ok q).
  { induction bs as [|[q n] bs IH]; cbn; unfold list_sum in *; intros v H H1; [lia|]. destruct (Nat.ltb_spec n v); [apply IH; lia|eauto]. }
  induction 1 as [|iv ivs [H1 H2] F (qs & IH)]; cbn; [eauto|]. destruct (S1 _ _ H2 H1) as (q & E). unfold iv_qn at 1. rewrite E. cbn. rewrite IH. cbn. eauto.
Qed.

Theorem C42_state : forall ivs, Forall in_range ivs -> 2 <= length ivs ->
  exists ts l r, product_mps ivs = Ok (ts, l, r) /\
    let es := all_entries r0 r1 ts in
    proper es /\ sites es = map (fun iv => qdim (fst iv)) ivs /\
    forall c, length c = length ivs ->
      amp es c = if list_eq_dec Nat.eq_dec (map Datatypes.S c) (map snd ivs) then r1 else r0.
Proof.
  intros ivs F L. destruct (omap_range _ F) as (qs & E). unfold product_mps. rewrite E. cbn [obind].
  destruct (Nat.ltb_spec (length ivs) 2); [lia|]. eexists. eexists. eexists. split; [reflexivity|].
  pose proof (omap_len _ _ _ E) as El. destruct ivs as [|iv ivs]; [cbn in L; lia|]. destruct qs as [|s qs]; [discriminate|].
  cbn [qa_rest build]. set (q1 := qn_mul _ ArrOut).
  destruct (build_rest_entries ivs (qa_rest q1 qs) q1) as (I1 & I2 & I3); [destruct ivs; [cbn in L; lia|discriminate]|rewrite qa_len; cbn in El; lia|].
  cbn zeta. cbn [all_entries]. split; [split; [reflexivity|exact I1]|]. split; [unfold sites; cbn [map]; rewrite I2; reflexivity|].
  intros [|v c] Lc; [discriminate|]. cbn [length] in Lc. injection Lc as Lc. unfold amplitude. cbn [MpsSpec.chain entries site_of te tr].
  rewrite (bsum_1 r0 r1 radd rmul rsub ropp RT). rewrite I3 by exact Lc. change (Nat.eqb 0 0) with true. cbn [andb]. rewrite andb_true_r. cbn [map].
  destruct (list_eq_dec Nat.eq_dec (map Datatypes.S c) (map snd ivs)) as [e|ne];
    destruct (list_eq_dec Nat.eq_dec (Datatypes.S v :: map Datatypes.S c) (snd iv :: map snd ivs)) as [e'|ne'];
    destruct (Nat.eqb_spec (Datatypes.S v) (snd iv)); try ring; exfalso; congruence.
Qed.

(** The limits leftLim 0, rightLim 2 are truthful: tensors 2..N are right orthogonal. *)
Hypothesis conj0 : conj r0 = r0.
Hypothesis conj1 : conj r1 = r1.
Lemma bsum_point : forall n v (f : nat -> R), 1 <= v <= n -> (forall s, s < n -> Datatypes.S s <> v -> f s = r0) -> bsum r0 radd n f = f (v - 1).
Proof.
  intros n v f H Z. rewrite <- (bsum_delta r0 r1 radd rmul rsub ropp RT n (v - 1) f) by lia. apply (bsum_ext r0 radd). intros i Hi.
  unfold delta. destruct (Nat.eqb_spec (v - 1) i) as [e|ne]; [subst; ring|]. rewrite (Z i Hi) by lia. ring.
Qed.
Theorem C42_limits : forall ivs, Forall in_range ivs -> 2 <= length ivs ->
  exists t ts, product_mps ivs = Ok (t :: ts, 0%Z, 2%Z) /\
    forall k u, 1 <= k -> nth_error (all_entries r0 r1 (t :: ts)) k = Some u -> right_orth r0 r1 radd rmul conj u.
Proof.
  intros ivs F L. destruct (omap_range _ F) as (qs & E). unfold product_mps. rewrite E. cbn [obind].
  destruct (Nat.ltb_spec (length ivs) 2); [lia|]. pose proof (omap_len _ _ _ E) as El. destruct ivs as [|iv ivs]; [cbn in L; lia|]. destruct qs as [|s qs]; [discriminate|].
  cbn [qa_rest build]. eexists. eexists. split; [reflexivity|]. set (q1 := qn_mul _ ArrOut). intros k u Hk Hu.
  destruct k as [|k]; [lia|]. cbn [all_entries nth_error] in Hu.
  assert (X : forall ivs qas q k u, Forall in_range ivs -> nth_error (entries_rest r0 r1 (build_rest ivs q qas)) k = Some u -> right_orth r0 r1 radd rmul conj u).
  { assert (Y : forall a iv b last, in_range iv -> right_orth r0 r1 radd rmul conj (entries r0 r1 (a :: iv :: b) false last)).
    { intros a v b last Hv c c' Hc Hc'. cbn in Hc, Hc'. assert (c = 0) as -> by lia. assert (c' = 0) as -> by lia.
      cbn [entries site_of te tr tp]. rewrite (bsum_1 r0 r1 radd rmul rsub ropp RT).
      erewrite (bsum_point _ (snd v)); [|exact Hv|].
      - change (Nat.eqb 0 0) with true. cbn [andb]. destruct Hv as [Hv _]. replace (Datatypes.S (snd v - 1)) with (snd v) by lia. rewrite Nat.eqb_refl. cbn [andb]. rewrite conj1. unfold delta. cbn [Nat.eqb]. ring.
      - intros x _ Hx. cbv beta. destruct (Nat.eqb_spec (Datatypes.S x) (snd v)); [congruence|]. change (Nat.eqb 0 0) with true. cbn [andb]. rewrite conj0. ring. }
    clear - Y. induction ivs as [|iv ivs IH]; intros qas q k u F Hu; [cbn in Hu; destruct k; discriminate|].
    inversion F as [|? ? Hv F']; subst. destruct ivs as [|iv' ivs].
    - cbn [build_rest entries_rest] in Hu. destruct k as [|[|k]]; cbn [nth_error] in Hu; try discriminate. injection Hu as <-. apply Y; assumption.
    - destruct qas as [|q' qas]; [cbn in Hu; destruct k; discriminate|].
      change (build_rest (iv :: iv' :: ivs) q (q' :: qas)) with ([(qi_dag (link q), 1); iv; (link q', 1)] :: build_rest (iv' :: ivs) q' qas) in Hu.
      cbn [entries_rest] in Hu. destruct k as [|k]; cbn [nth_error] in Hu; [injection Hu as <-; apply Y; assumption|]. apply (IH qas q' k u F' Hu). }
  inversion F as [|? ? Hv F']; subst. apply (X ivs (qa_rest q1 qs) q1 k u F' Hu).
Qed.
End Amplitude.

(** A site value outside the dimension reads past the block list. *)
Theorem C42_range_refuted : forall d bs, product_mps [(mkQI d bs, 1 + list_sum (map snd bs)); (mkQI d bs, 1)] = UB.
Proof.
  intros d bs. assert (H : forall v, list_sum (map snd bs) < v -> sector bs v = UB).
  { induction bs as [|[q n] bs IH]; cbn; unfold list_sum in *; intros v H; [reflexivity|]. destruct (Nat.ltb_spec n v); [apply IH; lia|lia]. }
  unfold product_mps. cbn [omap]. unfold iv_qn at 1. cbn [fst snd qblocks]. rewrite H by lia. reflexivity.
Qed.

(** Site Indices with In arrows: the link quantum numbers are still computed for Out, so
    totalQN is not the sum. *)
Definition c42_site (d : Arrow) : qindex := mkQI d [(ex_q ex_entries1, 1); (qn0, 2); (ex_q ex_entries2, 1)].
Theorem C42_in_arrow_refuted : exists (m : list elt_tensor * Z * Z) (Q : QN),
  product_mps [(c42_site ArrIn, 1); (c42_site ArrIn, 1)] = Ok m /\ totalQN m = Ok Q /\
  qn_val_of (ex_q ex_entries1) nSz <> 0%Z /\ qn_val_of Q nSz = 0%Z.
Proof. eexists. eexists. split; [vm_compute; reflexivity|]. split; [vm_compute; reflexivity|]. vm_compute. split; [discriminate|reflexivity]. Qed.

(** Three sites in states 1, 3 and 4 of a site with three sectors. *)
Definition c42_ivs : list ival := [(c42_site ArrOut, 1); (c42_site ArrOut, 3); (c42_site ArrOut, 4)].
Example C42_nonvacuous : Scheme ex_mod ex_names /\
  Forall2 (chosen ex_mod ex_names) c42_ivs [ex_q ex_entries1; qn0; ex_q ex_entries2] /\ Forall in_range c42_ivs /\
  exists (m : list elt_tensor * Z * Z) (Q : QN), product_mps c42_ivs = Ok m /\ totalQN m = Ok Q /\ qn_val_of Q nNf = 4%Z /\ qn_val_of Q nSz = (-3)%Z.
Proof.
  split; [exact ex_scheme|]. split.
  { constructor; [|constructor; [|constructor; [|constructor]]]; (split; [reflexivity|split]).
    - exists [], 1, [(qn0, 2); (ex_q ex_entries2, 1)]. split; [reflexivity|cbn; lia].
    - exact ex_charges1.
    - exists [(ex_q ex_entries1, 1)], 2, [(ex_q ex_entries2, 1)]. split; [reflexivity|cbn; lia].
    - constructor.
    - exists [(ex_q ex_entries1, 1); (qn0, 2)], 1, []. split; [reflexivity|cbn; lia].
    - exact ex_charges2. }
  split; [repeat constructor; cbn; lia|].
  eexists. eexists. split; [vm_compute; reflexivity|]. split; [vm_compute; reflexivity|]. vm_compute. auto.
Qed.

Print Assumptions C42_flux.
Print Assumptions C42_state.
Print Assumptions C42_limits.
Print Assumptions C42_range_refuted.
Print Assumptions C42_in_arrow_refuted.
