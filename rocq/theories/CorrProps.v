(** C56: expect and correlationMatrix return the expectation values they are asked for. *)
From Coq Require Import ZArith QArith QArith.Qcanon List Bool Arith Lia Ring Field.
From Verif Require Import Util BigSum MpsModel MpsTensor MpsSpec MpsProofs MpsPosition MpsOrtho MpsProps LocalMeaning LocalSem DavSpec DavModel DavProofs DavProps OrtSpec OrtModel OrtProofs OrtProps CorrSpec CorrModel CorrProofs.
Import ListNotations.
Local Open Scope nat_scope.
Local Open Scope outcome_scope.
Local Arguments Z.add : simpl never.
Local Arguments Z.sub : simpl never.

(** Tables. *)
Section Table.
Context {R : Type}.
Definition rep (n : nat) (C : list (list R)) (f : nat -> nat -> R) : Prop :=
  square n C /\ forall a b, a < n -> b < n -> entry C a b = Some (f a b).
Lemma rep_repeat n (x : R) : rep n (repeat (repeat x n) n) (fun _ _ => x).
Proof.
  split.
  - split; [apply repeat_length|]. apply Forall_forall. intros row Hr. apply repeat_spec in Hr. subst. apply repeat_length.
  - intros a b Ha Hb. unfold entry. rewrite (nth_error_repeat (repeat x n) Ha). apply nth_error_repeat. assumption.
Qed.
Lemma set2_rep n C f i j (x : R) : rep n C f -> i < n -> j < n ->
  exists C', set2 C i j x = Ok C' /\ rep n C' (fun a b => if (a =? i) && (b =? j) then x else f a b).
Proof.
  intros [[L FL] H] Hi Hj. unfold set2, oget.
  destruct (nth_error C i) as [row|] eqn:E; [|apply nth_error_None in E; lia]. cbn [obind].
  rewrite Forall_forall in FL. pose proof (FL row (nth_error_In _ _ E)) as Lr.
  unfold oupd. rewrite Lr, L. destruct (Nat.ltb_spec j n); [|lia]. cbn [obind]. destruct (Nat.ltb_spec i n); [|lia].
  eexists. split; [reflexivity|]. split.
  - split; [now rewrite upd_length|]. apply Forall_forall. intros r Hr. apply In_nth_error in Hr as (k & Hk).
    destruct (Nat.eq_dec k i) as [->|Ne].
    + rewrite nth_error_upd_eq in Hk by lia. injection Hk as <-. now rewrite upd_length.
    + rewrite nth_error_upd_neq in Hk by auto. apply FL, (nth_error_In _ _ Hk).
  - intros a b Ha Hb. unfold entry. destruct (Nat.eqb_spec a i) as [->|Ne]; cbn [andb].
    + rewrite nth_error_upd_eq by lia. destruct (Nat.eqb_spec b j) as [->|Nb].
      * apply nth_error_upd_eq. lia.
      * rewrite nth_error_upd_neq by auto. specialize (H i b Hi Hb). unfold entry in H. now rewrite E in H.
    + rewrite nth_error_upd_neq by auto. apply (H a b Ha Hb).
Qed.
End Table.

Section Props.
Context {R : Type} (r0 r1 : R) (radd rmul rsub : R -> R -> R) (ropp : R -> R) (conj : R -> R) (rdiv : R -> R -> R).
Context (RT : ring_theory r0 r1 radd rmul rsub ropp eq).
Hypothesis conj0 : conj r0 = r0.
Hypothesis conj1 : conj r1 = r1.
Hypothesis conj_add : forall x y, conj (radd x y) = radd (conj x) (conj y).
Hypothesis conj_mul : forall x y, conj (rmul x y) = rmul (conj x) (conj y).
Hypothesis conj_conj : forall x, conj (conj x) = x.
Hypothesis conj_definite : definite r0 radd rmul conj.
Hypothesis div_mul : forall x y, y <> r0 -> rmul (rdiv x y) y = x.
Add Ring RRcop : RT.
Notation tensor := (@tensor R).
Notation site_op := (@site_op R).
Notation bsum := (bsum r0 radd).
Notation csum := (csum r0 radd).
Notation amplitude := (amplitude r0 r1 radd rmul).
Notation delta := (delta r0 r1).
Notation ident := (ident r0 r1).
Notation after := (after r0 radd rmul).
Notation expectation := (expectation r0 r1 radd rmul conj).
Notation correlator := (correlator r0 r1 radd rmul conj).
Notation LO := (left_orth r0 r1 radd rmul conj).
Notation RO := (right_orth r0 r1 radd rmul conj).
Notation good := (good r0 r1 radd rmul conj).
Notation norm2 := (norm2 r0 r1 radd rmul conj).
Notation tnorm2 := (tnorm2 r0 radd rmul conj).
Notation transfer := (transfer r0 radd rmul conj).
Notation transfer_plain := (transfer_plain r0 radd rmul conj).
Notation closed := (closed r0 radd rmul conj).
Notation lpart := (lpart r0 r1 radd rmul conj).
Notation "x + y" := (radd x y). Notation "x * y" := (rmul x y).
Context (svdl svdr : tensor -> outcome (tensor * @matrix R)).
Context (diag : option nat -> nat -> nat -> @pmatrix R -> outcome (nat * (nat -> nat -> nat -> R))).
Context (norm : tensor -> outcome R) (tiny : R -> bool).
Hypothesis SVDL : svdl_ok r0 r1 radd rmul conj svdl.
Hypothesis SVDR : svdr_ok r0 r1 radd rmul conj svdr.
Hypothesis DIAG : diag_ok r0 r1 radd rmul conj diag.
Hypothesis NORM : forall t x, norm t = Ok x -> x * x = tnorm2 t /\ conj x = x.
Hypothesis TINY : tiny r0 = true.
Context (dim : Z -> nat) (base : nat -> Z -> site_op) (fname : nat) (isFermionic : opname -> bool) (close : site_op -> site_op -> bool).
Notation op := (op r0 r1 radd rmul dim base).
Notation F := (op [fname]).
Notation position := (position r0 radd rmul svdl svdr).
Notation made_ortho := (made_ortho r0 radd rmul conj diag).
Notation normalize := (normalize r1 rmul rdiv norm tiny).
Notation expect := (expect r0 r1 radd rmul conj rdiv svdl svdr diag norm tiny dim base).
Notation expect_range := (expect_range r0 r1 radd rmul conj rdiv svdl svdr diag norm tiny dim base).
Notation local := (local r0 radd rmul conj).
Notation columns := (columns r0 r1 radd rmul conj rdiv dim base fname).
Notation rows := (rows r0 r1 radd rmul ropp conj rdiv dim base fname).
Notation hermitian_mode := (hermitian_mode r0 r1 radd rmul dim base close).
Notation correlationMatrix := (correlationMatrix r0 r1 radd rmul ropp conj rdiv svdl svdr diag norm dim base fname isFermionic close).

(** The name "A*B" is the product of the operators. *)
Lemma op_app l1 l2 k : same_op (dim k) (op (l1 ++ l2) k) (after (dim k) (op l1 k) (op l2 k)).
Proof.
  induction l1 as [|x l1 IH].
  - cbn [app CorrModel.op]. apply same_op_sym, (after_ident_l r0 r1 radd rmul rsub ropp RT).
  - assert (E : forall l, same_op (dim k) (op (x :: l) k) (after (dim k) (base x k) (op l k))).
    { intros [|y l]; [|apply same_op_refl]. apply same_op_sym, (after_ident_r r0 r1 radd rmul rsub ropp RT). }
    cbn [app]. eapply same_op_trans; [apply E|]. eapply same_op_trans; [apply after_ext; [apply same_op_refl|apply IH]|].
    eapply same_op_trans; [apply (after_assoc r0 r1 radd rmul rsub ropp RT)|]. apply after_ext; [apply same_op_sym, E|apply same_op_refl].
Qed.

(** A chain with its centre at [c]. *)
Section State.
Variables (psi : mps tensor) (ts : list tensor) (c0 : Z).
Hypothesis HD : holds psi ts.
Hypothesis PR : proper ts.
Hypothesis DM : forall k t, nth_error ts k = Some t -> tp t = dim (1 + Z.of_nat k).
Hypothesis OL : forall k t, nth_error ts k = Some t -> (1 + Z.of_nat k < c0)%Z -> LO t.
Hypothesis OR : forall k t, nth_error ts k = Some t -> (c0 < 1 + Z.of_nat k)%Z -> RO t.
Notation N := (Z.of_nat (length ts)).

Lemma cut_at i : (1 <= i <= N)%Z -> exists ts1 t ts2, ts = ts1 ++ t :: ts2 /\ (Z.of_nat (length ts1) = i - 1)%Z /\ tensor_at psi i = Ok t /\
  tp t = dim i /\ exists n, linked 1 ts1 n /\ linked n (t :: ts2) 1.
Proof.
  intros Hi. destruct (nth_error ts (Z.to_nat (i - 1))) as [t|] eqn:E; [|apply nth_error_None in E; lia].
  destruct (nth_error_split ts _ E) as (ts1 & ts2 & Et & L1). exists ts1, t, ts2. split; [assumption|]. split; [lia|]. split.
  - unfold tensor_at. destruct HD as [_ HA]. replace i with (1 + Z.of_nat (Z.to_nat (i - 1)))%Z by lia. rewrite HA, E by lia. reflexivity.
  - split; [rewrite (DM _ _ E); f_equal; lia|]. unfold proper in PR. rewrite Et in PR. now apply linked_app in PR.
Qed.
Definition before i := firstn (Z.to_nat (i - 1)) ts.
Lemma before_cut i ts1 t ts2 : ts = ts1 ++ t :: ts2 -> (Z.of_nat (length ts1) = i - 1)%Z -> before i = ts1.
Proof. intros E H. unfold before. rewrite E. replace (Z.to_nat (i - 1)) with (length ts1 + 0)%nat by lia. rewrite firstn_app_2. cbn. apply app_nil_r. Qed.
Lemma before_next i ts1 t ts2 : ts = ts1 ++ t :: ts2 -> (Z.of_nat (length ts1) = i - 1)%Z -> before (i + 1) = ts1 ++ [t].
Proof. intros E H. unfold before. rewrite E. replace (Z.to_nat (i + 1 - 1)) with (length ts1 + 1)%nat by lia. rewrite firstn_app_2. reflexivity. Qed.
(** The left environment of site i for the operators P. *)
Definition env_is (P : Z -> site_op) (i : Z) (E : nat -> nat -> R) : Prop :=
  forall ts1 t ts2, ts = ts1 ++ t :: ts2 -> (Z.of_nat (length ts1) = i - 1)%Z -> forall b b', b < tl t -> b' < tl t -> E b b' = lpart ts1 P b b'.

Lemma lpart_ext ts1 P Q : (forall k t s s', nth_error ts1 k = Some t -> s < tp t -> s' < tp t -> P (1 + Z.of_nat k)%Z s s' = Q (1 + Z.of_nat k)%Z s s') ->
  forall b b', lpart ts1 P b b' = lpart ts1 Q b b'.
Proof.
  intros H b b'. unfold CorrProofs.lpart. apply lsum_ext. intros c Hc. apply lsum_ext. intros c' Hc'. do 2 f_equal.
  apply (element_ext r1 rmul P Q (fun _ => 0%nat) (sites ts1)); [|now apply in_confs|now apply in_confs].
  intros k s s' Hk Hs Hs'. unfold sites in Hk. rewrite map_length in Hk.
  destruct (nth_error ts1 (Z.to_nat (k - 1))) as [t|] eqn:E; [|apply nth_error_None in E; lia].
  assert (En : nth (Z.to_nat (k - 1)) (sites ts1) 0 = tp t).
  { apply nth_error_nth. unfold sites. rewrite nth_error_map, E. reflexivity. }
  rewrite En in Hs, Hs'. specialize (H _ t s s' E Hs Hs'). now replace (1 + Z.of_nat (Z.to_nat (k - 1)))%Z with k in H by lia.
Qed.
Lemma env_ext P Q i E : (i <= N)%Z -> (forall k, (1 <= k < i)%Z -> same_op (dim k) (P k) (Q k)) -> env_is P i E -> env_is Q i E.
Proof.
  intros Hi H HE ts1 t ts2 Et L1 b b' Hb Hb'. rewrite (HE ts1 t ts2 Et L1 b b' Hb Hb'). apply lpart_ext.
  intros k u s s' Hk Hs Hs'. assert (k < length ts1) by (apply nth_error_Some; congruence).
  assert (Ek : nth_error ts k = Some u) by (rewrite Et, nth_error_app1 by assumption; assumption). rewrite (DM _ _ Ek) in Hs, Hs'.
  apply (H (1 + Z.of_nat k)%Z); [lia|assumption..].
Qed.
Lemma env_step P i E t : (1 <= i <= N)%Z -> tensor_at psi i = Ok t -> env_is P i E -> env_is P (i + 1) (transfer E t (P i)).
Proof.
  intros Hi Et HE ts1' t' ts2' E' L'.
  destruct (cut_at i Hi) as (ts1 & t1 & ts2 & Ec & L1 & At & Dt & n & K1 & K2). rewrite At in Et. injection Et as ->.
  assert (Eb : ts1' = ts1 ++ [t]).
  { rewrite <- (before_cut (i + 1) ts1' t' ts2') by (auto; lia). apply (before_next i ts1 t ts2); auto. }
  subst ts1'. intros b b' Hb Hb'. destruct K2 as [K2 K3].
  assert (Hbt : tl t' = tr t).
  { rewrite Ec in E'. rewrite <- app_assoc in E'. apply app_inv_head in E'. injection E' as E'. rewrite E' in K3. now destruct K3. }
  rewrite Hbt in Hb, Hb'. rewrite (lpart_snoc r0 r1 radd rmul rsub ropp conj RT conj0 conj_add conj_mul ts1 t P n) by auto.
  replace (1 + Z.of_nat (length ts1))%Z with i by lia. apply transfer_ext; [|apply same_op_refl].
  intros a a' Ha Ha'. apply (HE ts1 t ts2 Ec L1); assumption.
Qed.
Lemma env_plain P i E t : (1 <= i <= N)%Z -> tensor_at psi i = Ok t -> same_op (dim i) (P i) ident -> env_is P i E -> env_is P (i + 1) (transfer_plain E t).
Proof.
  intros Hi Et HP HE ts1' t' ts2' E' L' b b' Hb Hb'.
  rewrite <- (env_step P i E t Hi Et HE ts1' t' ts2' E' L' b b' Hb Hb'). symmetry. apply (transfer_plain_ident r0 r1 radd rmul rsub ropp conj RT).
  destruct (cut_at i Hi) as (ts1 & t1 & ts2 & Ec & L1 & At & Dt & n & K1 & K2). rewrite At in Et. injection Et as ->. now rewrite Dt.
Qed.
Lemma env_start P : (1 <= c0 <= N)%Z -> (forall k, (1 <= k < c0)%Z -> same_op (dim k) (P k) ident) -> env_is P c0 (if (1 <? c0)%Z then delta else fun _ _ => r1).
Proof.
  intros Hc HP ts1 t ts2 Ec L1 b b' Hb Hb'.
  assert (exists n, linked 1 ts1 n /\ linked n (t :: ts2) 1) as (n & K1 & K2 & K3).
  { unfold proper in PR. rewrite Ec in PR. apply linked_app in PR as (n & ? & ?). eauto. }
  rewrite (lpart_ident r0 r1 radd rmul rsub ropp conj RT conj0 conj1 conj_add conj_mul P ts1 n); try congruence.
  - destruct (Z.ltb_spec 1 c0); [reflexivity|]. assert (length ts1 = 0) by lia. destruct ts1; [|discriminate]. cbn in K1. subst n. rewrite K2 in Hb, Hb'.
    assert (b = 0) as -> by lia. assert (b' = 0) as -> by lia. reflexivity.
  - apply Forall_forall. intros u Hu. apply In_nth_error in Hu as (k & Hk). assert (k < length ts1) by (apply nth_error_Some; congruence).
    apply (OL k); [rewrite Ec, nth_error_app1; assumption|lia].
  - intros k u Hk. assert (k < length ts1) by (apply nth_error_Some; congruence).
    assert (Ek : nth_error ts k = Some u) by (rewrite Ec, nth_error_app1 by assumption; assumption). rewrite (DM _ _ Ek). apply HP. lia.
Qed.
(** Closing with M at site i and identities to its right. *)
Lemma env_closed P i E t M : (1 <= i <= N)%Z -> (c0 <= i)%Z -> tensor_at psi i = Ok t -> env_is P i E ->
  closed E t M = expectation ts (fun k => if (k <? i)%Z then P k else if (k =? i)%Z then M else ident).
Proof.
  intros Hi Hc Et HE. destruct (cut_at i Hi) as (ts1 & t1 & ts2 & Ec & L1 & At & Dt & n & K1 & K2). rewrite At in Et. injection Et as ->.
  set (Q := fun k => if (k <? i)%Z then P k else if (k =? i)%Z then M else ident).
  assert (HQ : env_is Q i E).
  { refine (env_ext P Q i E _ _ HE); [lia|]. intros k Hk. unfold Q. destruct (Z.ltb_spec k i); [apply same_op_refl|lia]. }
  assert (EX : expectation ts Q = closed (lpart ts1 Q) t (Q i)).
  { rewrite Ec. rewrite (expectation_closed r0 r1 radd rmul rsub ropp conj RT conj0 conj1 conj_add conj_mul ts1 t ts2 Q n); auto.
    - now replace (1 + Z.of_nat (length ts1))%Z with i by lia.
    - apply Forall_forall. intros u Hu. apply In_nth_error in Hu as (k & Hk). apply (OR (length ts1 + S k)); [|lia].
      rewrite Ec, nth_error_app2 by lia. now replace (length ts1 + S k - length ts1) with (S k) by lia.
    - intros k u Hk. unfold Q. destruct (Z.ltb_spec (2 + Z.of_nat (length ts1) + Z.of_nat k) i); [lia|].
      destruct (Z.eqb_spec (2 + Z.of_nat (length ts1) + Z.of_nat k) i); [lia|]. apply same_op_refl. }
  rewrite EX. rewrite !(closed_transfer r0 r1 radd rmul rsub ropp conj RT). apply bsum_ext. intros b Hb. apply transfer_ext.
  - intros a a' Ha Ha'. apply (HQ ts1 t ts2 Ec L1); assumption.
  - unfold Q. destruct (Z.ltb_spec i i); [lia|]. rewrite Z.eqb_refl. apply same_op_refl.
Qed.

(** The loop over j. *)
Section Columns.
Variables (put : Z -> R -> list (list R) -> outcome (list (list R))) (nb : nat) (slots : Z -> nat -> nat -> bool) (Good : nat -> nat -> R -> Prop).
Variables (n2 : R) (opj : opname) (ferm : bool) (Q : Z -> site_op) (lo hi : Z).
Hypothesis Hlo : (c0 <= lo)%Z.
Hypothesis Hhi : (hi <= N)%Z.
Hypothesis Hlo1 : (1 <= lo)%Z.
Hypothesis HQ : forall k, (lo <= k <= hi)%Z -> same_op (dim k) (Q k) (if ferm then F k else ident).
Hypothesis PUT : forall j C f, (lo <= j <= hi)%Z -> rep nb C f ->
  exists C' f', put j (rdiv (expectation ts (fun k => if (k <? j)%Z then Q k else if (k =? j)%Z then op opj j else ident)) n2) C = Ok C' /\ rep nb C' f' /\
    (forall a b, a < nb -> b < nb -> slots j a b = true -> Good a b (f' a b)) /\ (forall a b, a < nb -> b < nb -> slots j a b = false -> f' a b = f a b).
Lemma columns_ok : forall n j E C f, (lo <= j)%Z -> (j + Z.of_nat n - 1 <= hi)%Z -> ((1 <= n)%nat -> env_is Q j E) -> rep nb C f ->
  exists C' f', columns put psi n2 opj ferm n j E C = Ok C' /\ rep nb C' f' /\
    (forall a b, a < nb -> b < nb -> (exists j', (j <= j' < j + Z.of_nat n)%Z /\ slots j' a b = true) -> Good a b (f' a b)) /\
    (forall a b, a < nb -> b < nb -> (forall j', (j <= j' < j + Z.of_nat n)%Z -> slots j' a b = false) -> f' a b = f a b).
Proof.
  induction n as [|n IH]; intros j E C f Hj Hn HE HC; cbn [CorrModel.columns].
  - exists C, f. split; [reflexivity|]. split; [assumption|]. split; [|auto]. intros a b _ _ (j' & ? & _). lia.
  - destruct (cut_at j) as (ts1 & t & ts2 & Ec & L1 & At & Dt & m & K1 & K2); [lia|]. rewrite At. cbn [obind].
    rewrite (env_closed Q j E t _ ltac:(lia) ltac:(lia) At (HE ltac:(lia))).
    destruct (PUT j C f ltac:(lia) HC) as (C1 & f1 & -> & R1 & G1 & U1). cbn [obind].
    destruct (IH (j + 1)%Z (if ferm then transfer E t (op [fname] j) else transfer_plain E t) C1 f1) as (C' & f' & -> & R2 & G2 & U2); [lia|lia| |assumption|].
    { intros _. destruct ferm eqn:EF.
      - intros ts1' t' ts2' E' L' b b' Hb Hb'. rewrite <- (env_step Q j E t ltac:(lia) At (HE ltac:(lia)) ts1' t' ts2' E' L' b b' Hb Hb').
        apply transfer_ext; [reflexivity|]. rewrite Dt. apply same_op_sym, HQ. lia.
      - apply (env_plain Q j E t ltac:(lia) At); [apply HQ; lia|apply HE; lia]. }
    exists C', f'. split; [reflexivity|]. split; [assumption|]. split.
    + intros a b Ha Hb (j' & Hj' & S').
      destruct (slots j a b) eqn:Sj.
      * (* written at j, and perhaps again *)
        destruct (forallb (fun k => negb (slots (j + 1 + Z.of_nat k)%Z a b)) (seq 0 n)) eqn:FB.
        -- rewrite U2; [apply G1; assumption|assumption|assumption|]. intros j2 Hj2. rewrite forallb_forall in FB.
           specialize (FB (Z.to_nat (j2 - (j + 1))) ltac:(apply in_seq; lia)). apply negb_true_iff in FB. now replace (j + 1 + Z.of_nat (Z.to_nat (j2 - (j + 1))))%Z with j2 in FB by lia.
        -- apply G2; [assumption|assumption|]. rewrite <- not_true_iff_false in FB. rewrite forallb_forall in FB.
           destruct (existsb (fun k => slots (j + 1 + Z.of_nat k)%Z a b) (seq 0 n)) eqn:EB.
           ++ apply existsb_exists in EB as (k & Hk & Sk). apply in_seq in Hk. exists (j + 1 + Z.of_nat k)%Z. split; [lia|assumption].
           ++ exfalso. apply FB. intros k Hk. apply negb_true_iff. destruct (slots (j + 1 + Z.of_nat k)%Z a b) eqn:X; [|reflexivity].
              rewrite <- not_true_iff_false in EB. exfalso. apply EB, existsb_exists. eauto.
      * apply G2; [assumption|assumption|]. exists j'. split; [|assumption]. destruct (Z.eq_dec j' j) as [->|]; [congruence|lia].
    + intros a b Ha Hb HN. rewrite U2; [apply U1; [assumption|assumption|apply HN; lia]|assumption|assumption|]. intros j' Hj'. apply HN. lia.
Qed.
End Columns.

Lemma same_expect P Q : (forall k, (1 <= k <= N)%Z -> same_op (dim k) (P k) (Q k)) -> expectation ts P = expectation ts Q.
Proof.
  intros H. apply expectation_ext. intros k s s' Hk Hs Hs'.
  destruct (nth_error ts (Z.to_nat (k - 1))) as [t|] eqn:E; [|apply nth_error_None in E; lia].
  assert (En : nth (Z.to_nat (k - 1)) (sites ts) 0 = tp t) by (apply nth_error_nth; unfold sites; rewrite nth_error_map, E; reflexivity).
  rewrite En, (DM _ _ E) in Hs, Hs'. replace (1 + Z.of_nat (Z.to_nat (k - 1)))%Z with k in Hs, Hs' by lia. now apply H.
Qed.

Section Rows.
Variables (n2 : R) (op1 op2 : opname) (ferm herm : bool) (hi : Z).
Hypothesis Hn2 : n2 <> r0.
Hypothesis Hn2c : conj n2 = n2.
Hypothesis Hc0 : (1 <= c0)%Z.
Hypothesis Hhi : (hi <= N)%Z.
Hypothesis PAR : ferm = true -> parity r0 r1 radd rmul conj N dim F.
Hypothesis ODD : ferm = true -> odd r0 radd rmul ropp N dim F (op op2).
Hypothesis ADJ : herm = true -> adjoint_pair rmul conj N dim (op op1) (op op2).
Notation nb := (Z.to_nat (hi + 1 - c0)).
Notation corr i j := (correlator ts dim ferm F (op op1) (op op2) i j).
Definition right_value (a b : nat) (x : R) : Prop := x * n2 = corr (c0 + Z.of_nat a)%Z (c0 + Z.of_nat b)%Z.
Notation str := (fun k => if ferm then F k else ident).

Lemma ident_square k : (1 <= k <= N)%Z -> same_op (dim k) (after (dim k) (str k) (str k)) ident.
Proof. intros Hk. destruct ferm eqn:EF; [apply (PAR eq_refl k Hk)|apply (after_ident_l r0 r1 radd rmul rsub ropp RT)]. Qed.

Ltac zcase := repeat match goal with
  | |- context [Z.ltb ?a ?b] => destruct (Z.ltb_spec a b); try lia
  | |- context [Z.eqb ?a ?b] => destruct (Z.eqb_spec a b); try lia
  end.
Lemma corr_diag i : (1 <= i <= N)%Z ->
  expectation ts (fun k => if (k <? i)%Z then ident else if (k =? i)%Z then op (op1 ++ op2) i else ident) = corr i i.
Proof.
  intros Hi. unfold CorrSpec.correlator. apply same_expect. intros k Hk. unfold on_chain. zcase.
  - apply same_op_sym, ident_square; assumption.
  - subst k. apply op_app.
  - apply same_op_sym, (after_ident_l r0 r1 radd rmul rsub ropp RT).
Qed.
(** The operators between: M at i, strings between i and j. *)
Definition between (i : Z) (M : site_op) : Z -> site_op := fun k => if (k <? i)%Z then ident else if (k =? i)%Z then M else str k.
Lemma corr_upper i j : (1 <= i < j)%Z -> (j <= N)%Z ->
  expectation ts (fun k => if (k <? j)%Z then between i (op (if ferm then op1 ++ [fname] else op1) i) k else if (k =? j)%Z then op op2 j else ident) = corr i j.
Proof.
  intros Hi Hj. unfold CorrSpec.correlator. apply same_expect. intros k Hk. unfold on_chain, between. zcase.
  - apply same_op_sym, ident_square; assumption.
  - subst k. destruct ferm; [apply op_app|apply same_op_sym, (after_ident_r r0 r1 radd rmul rsub ropp RT)].
  - apply same_op_sym, (after_ident_l r0 r1 radd rmul rsub ropp RT).
  - subst k. apply same_op_sym, (after_ident_l r0 r1 radd rmul rsub ropp RT).
  - apply same_op_sym, (after_ident_l r0 r1 radd rmul rsub ropp RT).
Qed.
Lemma corr_lower i j : (1 <= i < j)%Z -> (j <= N)%Z ->
  expectation ts (fun k => if (k <? j)%Z then between i (fun s s' => if ferm then ropp (op (op2 ++ [fname]) i s s') else op op2 i s s') k else if (k =? j)%Z then op op1 j else ident) = corr j i.
Proof.
  intros Hi Hj. unfold CorrSpec.correlator. apply same_expect. intros k Hk. unfold on_chain, between. zcase.
  - apply same_op_sym, ident_square; assumption.
  - subst k. destruct ferm eqn:EF.
    + eapply same_op_trans; [|apply same_op_sym, (ODD eq_refl); lia]. intros s s' Hs Hs'. f_equal. now apply op_app.
    + apply same_op_sym, (after_ident_l r0 r1 radd rmul rsub ropp RT).
  - apply same_op_sym, (after_ident_r r0 r1 radd rmul rsub ropp RT).
  - subst k. apply same_op_sym, (after_ident_r r0 r1 radd rmul rsub ropp RT).
  - apply same_op_sym, (after_ident_l r0 r1 radd rmul rsub ropp RT).
Qed.
(** <A_j B_i> is the conjugate of <A_i B_j> when B is the adjoint of A up to a real factor. *)
Lemma corr_hermitian i j : herm = true -> (1 <= i < j)%Z -> (j <= N)%Z -> conj (corr i j) = corr j i.
Proof.
  intros HH Hi Hj. destruct (ADJ HH) as (x & Hx & HB).
  assert (HF : forall k, (1 <= k <= N)%Z -> same_op (dim k) (adjoint conj (str k)) (str k)).
  { intros k Hk. destruct ferm eqn:EF; [apply (PAR eq_refl k Hk)|]. intros s s' _ _. unfold adjoint, CorrSpec.ident, BigSum.delta. rewrite Nat.eqb_sym. destruct (Nat.eqb s s'); congruence. }
  assert (HI : forall k, same_op (dim k) (adjoint conj ident) ident).
  { intros k s s' _ _. unfold adjoint, CorrSpec.ident, BigSum.delta. rewrite Nat.eqb_sym. destruct (Nat.eqb s s'); congruence. }
  unfold CorrSpec.correlator. rewrite (expectation_conj r0 r1 radd rmul rsub ropp conj RT conj0 conj1 conj_add conj_mul conj_conj).
  set (A := op op1) in *. set (B := op op2) in *.
  assert (HBA : forall k, (1 <= k <= N)%Z -> same_op (dim k) (fun s s' => x * A k s s') (adjoint conj (B k))).
  { intros k Hk s s' Hs Hs'. unfold adjoint. rewrite (HB k Hk s' s Hs' Hs). unfold adjoint. now rewrite conj_mul, conj_conj, Hx. }
  assert (SM : forall d P M, same_op d (after d (fun s s' => x * P s s') M) (fun s s' => x * after d P M s s')).
  { intros d P M s s' _ _. unfold CorrSpec.after. rewrite <- (bsum_mul_l r0 r1 radd rmul rsub ropp RT). apply bsum_ext. intros; ring. }
  assert (SM' : forall d P M, same_op d (after d P (fun s s' => x * M s s')) (fun s s' => x * after d P M s s')).
  { intros d P M s s' _ _. unfold CorrSpec.after. rewrite <- (bsum_mul_l r0 r1 radd rmul rsub ropp RT). apply bsum_ext. intros; ring. }
  set (P := fun k => after (dim k) (if (k =? j)%Z then A j else on_chain r0 r1 ferm F A j k) (if (k =? i)%Z then adjoint conj (A i) else on_chain r0 r1 ferm F B i k)).
  transitivity (expectation ts (fun k s s' => if (k =? j)%Z then x * P k s s' else P k s s')).
  - apply same_expect. intros k Hk. eapply same_op_trans; [apply (after_adjoint r0 r1 radd rmul rsub ropp conj RT conj0 conj_add conj_mul)|].
    unfold P, on_chain. zcase.
    + apply after_ext; apply HF; assumption.
    + subst k. apply after_ext; [apply HF; lia|apply same_op_refl].
    + apply after_ext; [apply HF; lia|apply HI].
    + subst k. eapply same_op_trans; [apply after_ext; [apply same_op_sym, HBA; lia|apply HI]|]. apply SM.
    + apply after_ext; apply HI.
  - rewrite (expectation_scale r0 r1 radd rmul rsub ropp conj RT) by lia.
    rewrite <- (expectation_scale r0 r1 radd rmul rsub ropp conj RT ts P x i) by lia.
    apply same_expect. intros k Hk. unfold P, on_chain. zcase; try apply same_op_refl.
    + subst k. eapply same_op_trans; [|apply after_ext; [apply same_op_refl|apply same_op_sym, HB; lia]]. apply same_op_sym, SM'.
Qed.

Lemma rows_ok : forall n i L C f, (c0 <= i)%Z -> (i + Z.of_nat n = hi + 1)%Z ->
  ((1 <= n)%nat -> env_is (fun _ => ident) i L) -> rep nb C f ->
  (forall a b, a < nb -> b < nb -> (c0 + Z.of_nat a < i \/ c0 + Z.of_nat b < i)%Z -> right_value a b (f a b)) ->
  exists C' f', rows psi n2 op1 op2 ferm ferm herm c0 hi n i L C = Ok C' /\ rep nb C' f' /\ forall a b, a < nb -> b < nb -> right_value a b (f' a b).
Proof.
  induction n as [|n IH]; intros i L C f Hi Hn HL HC HV; cbn [CorrModel.rows].
  - exists C, f. split; [reflexivity|]. split; [assumption|]. intros a b Ha Hb. apply HV; [assumption|assumption|lia].
  - destruct (cut_at i) as (ts1 & t & ts2 & Ec & L1 & At & Dt & m & K1 & K2); [lia|]. rewrite At. cbn [obind].
    rewrite (env_closed (fun _ => ident) i L t _ ltac:(lia) Hi At (HL ltac:(lia))).
    rewrite corr_diag by lia.
    assert (Bi : ix c0 i < nb) by (unfold ix; lia).
    destruct (set2_rep nb C f (ix c0 i) (ix c0 i) (rdiv (corr i i) n2) HC Bi Bi) as (C1 & -> & R1). cbn [obind].
    assert (EM : forall M, env_is (between i M) (i + 1) (transfer L t M)).
    { intros M ts1' t' ts2' E' L' b b' Hb Hb'.
      assert (EE : env_is (between i M) i L).
      { refine (env_ext _ _ i L ltac:(lia) _ (HL ltac:(lia))). intros k Hk. unfold between. zcase. apply same_op_refl. }
      rewrite <- (env_step (between i M) i L t ltac:(lia) At EE ts1' t' ts2' E' L' b b' Hb Hb'). apply transfer_ext; [reflexivity|].
      unfold between. zcase. apply same_op_refl. }
    assert (EI : env_is (fun _ => ident) (i + 1) (transfer_plain L t)).
    { apply (env_plain (fun _ => ident) i L t ltac:(lia) At); [apply same_op_refl|apply HL; lia]. }
    set (put12 := fun (j : Z) (x : R) (C : list (list R)) => let! C' := set2 C (ix c0 i) (ix c0 j) x in if herm then set2 C' (ix c0 j) (ix c0 i) (conj x) else Ok C').
    set (sl12 := fun j a b => ((a =? ix c0 i) && (b =? ix c0 j)) || (herm && ((a =? ix c0 j) && (b =? ix c0 i)))).
    assert (P12 : forall j C f, (i + 1 <= j <= hi)%Z -> rep nb C f ->
      exists C' f', put12 j (rdiv (expectation ts (fun k => if (k <? j)%Z then between i (op (if ferm then op1 ++ [fname] else op1) i) k else if (k =? j)%Z then op op2 j else ident)) n2) C = Ok C' /\ rep nb C' f' /\
       (forall a b, a < nb -> b < nb -> sl12 j a b = true -> right_value a b (f' a b)) /\ (forall a b, a < nb -> b < nb -> sl12 j a b = false -> f' a b = f a b)).
    { intros j D g Hj HD'. rewrite corr_upper by lia. assert (Bj : ix c0 j < nb) by (unfold ix; lia).
      assert (Gu : right_value (ix c0 i) (ix c0 j) (rdiv (corr i j) n2)).
      { unfold right_value. rewrite div_mul by assumption. f_equal; unfold ix; lia. }
      assert (Gl : herm = true -> right_value (ix c0 j) (ix c0 i) (conj (rdiv (corr i j) n2))).
      { intros HH. unfold right_value. rewrite <- Hn2c at 2. rewrite <- conj_mul, div_mul by assumption. rewrite corr_hermitian by (auto; lia). f_equal; unfold ix; lia. }
      unfold put12, sl12. destruct (set2_rep nb D g (ix c0 i) (ix c0 j) (rdiv (corr i j) n2) HD' Bi Bj) as (D1 & -> & Q1). cbn [obind].
      assert (Nij : ix c0 i <> ix c0 j) by (unfold ix; lia).
      destruct herm eqn:EH.
      - destruct (set2_rep nb D1 _ (ix c0 j) (ix c0 i) (conj (rdiv (corr i j) n2)) Q1 Bj Bi) as (D2 & -> & Q2).
        eexists _, _. split; [reflexivity|]. split; [exact Q2|]. cbn [andb]. split.
        + intros a b Ha Hb S'. destruct ((a =? ix c0 j) && (b =? ix c0 i)) eqn:E2.
          * apply andb_true_iff in E2 as [X Y]. apply Nat.eqb_eq in X, Y. subst a b. auto.
          * rewrite orb_false_r in S'. rewrite S'. apply andb_true_iff in S' as [X Y]. apply Nat.eqb_eq in X, Y. subst a b. exact Gu.
        + intros a b Ha Hb S'. apply orb_false_iff in S' as [-> ->]. reflexivity.
      - eexists _, _. split; [reflexivity|]. split; [exact Q1|]. cbn [andb]. split.
        + intros a b Ha Hb S'. rewrite orb_false_r in S'. rewrite S'. apply andb_true_iff in S' as [X Y]. apply Nat.eqb_eq in X, Y. subst a b. exact Gu.
        + intros a b Ha Hb S'. rewrite orb_false_r in S'. now rewrite S'. }
    assert (HQ : forall M k, (i + 1 <= k <= hi)%Z -> same_op (dim k) (between i M k) (str k)).
    { intros M k Hk. unfold between. zcase. apply same_op_refl. }
    destruct (columns_ok put12 nb sl12 right_value n2 op2 ferm _ (i + 1) hi ltac:(lia) Hhi ltac:(lia) (HQ _) P12
      (Z.to_nat (hi - i)) (i + 1)%Z _ C1 _ ltac:(lia) ltac:(lia) (fun _ => EM (op (if ferm then op1 ++ [fname] else op1) i)) R1) as (C2 & f2 & -> & R2 & G2 & U2). cbn [obind].
    assert (D1 : forall a b, a < nb -> b < nb -> right_value a b (if (a =? ix c0 i) && (b =? ix c0 i) then rdiv (corr i i) n2 else f a b) \/ (i < c0 + Z.of_nat a \/ i < c0 + Z.of_nat b)%Z).
    { intros a b Ha Hb. destruct (Nat.eqb_spec a (ix c0 i)) as [Ea|Na], (Nat.eqb_spec b (ix c0 i)) as [Eb|Nb]; cbn [andb].
      - left. unfold right_value. rewrite div_mul by assumption. f_equal; unfold ix in *; lia.
      - destruct (Z.lt_ge_cases i (c0 + Z.of_nat b)); [auto|]. left. apply HV; [assumption|assumption|]. unfold ix in *. lia.
      - destruct (Z.lt_ge_cases i (c0 + Z.of_nat a)); [auto|]. left. apply HV; [assumption|assumption|]. unfold ix in *. lia.
      - destruct (Z.lt_ge_cases i (c0 + Z.of_nat a)); [auto|]. left. apply HV; [assumption|assumption|]. unfold ix in *. lia. }
    assert (Lower : exists C3 f3, (if herm then Ok C2 else columns (fun j x C => set2 C (ix c0 j) (ix c0 i) x) psi n2 op1 ferm (Z.to_nat (hi - i)) (i + 1)
         (fun b b' => if ferm then ropp (transfer L t (op (if ferm then op2 ++ [fname] else op2) i) b b') else transfer L t (op (if ferm then op2 ++ [fname] else op2) i) b b') C2) = Ok C3 /\
         rep nb C3 f3 /\ forall a b, a < nb -> b < nb -> (c0 + Z.of_nat a < i + 1 \/ c0 + Z.of_nat b < i + 1)%Z -> right_value a b (f3 a b)).
    { destruct herm eqn:EH.
      - exists C2, f2. split; [reflexivity|]. split; [assumption|]. intros a b Ha Hb Hab.
        destruct (Z.eq_dec (c0 + Z.of_nat a) i) as [Ea|Na]; [destruct (Z.lt_ge_cases i (c0 + Z.of_nat b)) as [Lb|Lb]|].
        + apply G2; [assumption|assumption|]. exists (c0 + Z.of_nat b)%Z. split; [lia|]. unfold sl12. apply orb_true_iff. left. apply andb_true_iff. rewrite !Nat.eqb_eq. unfold ix. lia.
        + rewrite U2; [destruct (D1 a b Ha Hb); [assumption|lia]|assumption|assumption|]. intros j' Hj'. unfold sl12, ix.
          destruct (Nat.eqb_spec b (Z.to_nat (j' - c0))); [lia|]. destruct (Nat.eqb_spec a (Z.to_nat (j' - c0))); [lia|]. rewrite !andb_false_r. reflexivity.
        + destruct (Z.eq_dec (c0 + Z.of_nat b) i) as [Eb|Nb]; [destruct (Z.lt_ge_cases i (c0 + Z.of_nat a)) as [La|La]|].
          * apply G2; [assumption|assumption|]. exists (c0 + Z.of_nat a)%Z. split; [lia|]. unfold sl12. apply orb_true_iff. right. cbn [andb]. apply andb_true_iff. rewrite !Nat.eqb_eq. unfold ix. lia.
          * rewrite U2; [destruct (D1 a b Ha Hb); [assumption|lia]|assumption|assumption|]. intros j' Hj'. unfold sl12, ix.
            destruct (Nat.eqb_spec a (Z.to_nat (i - c0))); [lia|]. destruct (Nat.eqb_spec a (Z.to_nat (j' - c0))); [lia|]. reflexivity.
          * rewrite U2; [|assumption|assumption|].
            -- destruct (Nat.eqb_spec a (ix c0 i)); [unfold ix in *; lia|]. cbn [andb]. apply HV; [assumption|assumption|lia].
            -- intros j' Hj'. unfold sl12, ix. destruct (Nat.eqb_spec a (Z.to_nat (i - c0))); [lia|]. destruct (Nat.eqb_spec b (Z.to_nat (i - c0))); [lia|]. rewrite !andb_false_r. reflexivity.
      - set (M := fun s s' => if ferm then ropp (op (op2 ++ [fname]) i s s') else op op2 i s s').
        set (sl21 := fun j a b => (a =? ix c0 j) && (b =? ix c0 i)).
        assert (P21 : forall j C f, (i + 1 <= j <= hi)%Z -> rep nb C f ->
          exists C' f', set2 C (ix c0 j) (ix c0 i) (rdiv (expectation ts (fun k => if (k <? j)%Z then between i M k else if (k =? j)%Z then op op1 j else ident)) n2) = Ok C' /\ rep nb C' f' /\
           (forall a b, a < nb -> b < nb -> sl21 j a b = true -> right_value a b (f' a b)) /\ (forall a b, a < nb -> b < nb -> sl21 j a b = false -> f' a b = f a b)).
        { intros j D g Hj HD'. unfold M. rewrite corr_lower by lia. assert (Bj : ix c0 j < nb) by (unfold ix; lia).
          destruct (set2_rep nb D g (ix c0 j) (ix c0 i) (rdiv (corr j i) n2) HD' Bj Bi) as (D2 & -> & Q1).
          eexists _, _. split; [reflexivity|]. split; [exact Q1|]. unfold sl21. split.
          - intros a b Ha Hb S'. rewrite S'. apply andb_true_iff in S' as [X Y]. apply Nat.eqb_eq in X, Y. subst a b. unfold right_value. rewrite div_mul by assumption. f_equal; unfold ix; lia.
          - intros a b Ha Hb S'. now rewrite S'. }
        assert (E21 : env_is (between i M) (i + 1) (fun b b' => if ferm then ropp (transfer L t (op (if ferm then op2 ++ [fname] else op2) i) b b') else transfer L t (op (if ferm then op2 ++ [fname] else op2) i) b b')).
        { intros ts1' t' ts2' E' L' b b' Hb Hb'. rewrite <- (EM M ts1' t' ts2' E' L' b b' Hb Hb'). unfold M. destruct ferm; [|reflexivity].
          unfold CorrModel.transfer. rewrite <- (bsum_opp r0 r1 radd rmul rsub ropp RT). apply bsum_ext. intros a Ha.
          rewrite <- (bsum_opp r0 r1 radd rmul rsub ropp RT). apply bsum_ext. intros a' Ha'. rewrite <- (bsum_opp r0 r1 radd rmul rsub ropp RT). apply bsum_ext. intros s Hs.
          rewrite <- (bsum_opp r0 r1 radd rmul rsub ropp RT). apply bsum_ext. intros s' Hs'. ring. }
        destruct (columns_ok (fun j x C => set2 C (ix c0 j) (ix c0 i) x) nb sl21 right_value n2 op1 ferm _ (i + 1) hi ltac:(lia) Hhi ltac:(lia) (HQ _) P21
          (Z.to_nat (hi - i)) (i + 1)%Z _ C2 f2 ltac:(lia) ltac:(lia) (fun _ => E21) R2) as (C3 & f3 & -> & R3 & G3 & U3).
        exists C3, f3. split; [reflexivity|]. split; [assumption|]. intros a b Ha Hb Hab.
        destruct (Z.eq_dec (c0 + Z.of_nat b) i) as [Eb|Nb]; [destruct (Z.lt_ge_cases i (c0 + Z.of_nat a)) as [La|La]|].
        + apply G3; [assumption|assumption|]. exists (c0 + Z.of_nat a)%Z. split; [lia|]. unfold sl21. apply andb_true_iff. rewrite !Nat.eqb_eq. unfold ix. lia.
        + rewrite U3; [|assumption|assumption|].
          * rewrite U2; [destruct (D1 a b Ha Hb); [assumption|lia]|assumption|assumption|]. intros j' Hj'. unfold sl12, ix.
            destruct (Nat.eqb_spec b (Z.to_nat (j' - c0))); [lia|]. rewrite !andb_false_r. reflexivity.
          * intros j' Hj'. unfold sl21, ix. destruct (Nat.eqb_spec a (Z.to_nat (j' - c0))); [lia|]. reflexivity.
        + rewrite U3; [|assumption|assumption|].
          * destruct (Z.eq_dec (c0 + Z.of_nat a) i) as [Ea|Na]; [destruct (Z.lt_ge_cases i (c0 + Z.of_nat b)) as [Lb|Lb]|].
            -- apply G2; [assumption|assumption|]. exists (c0 + Z.of_nat b)%Z. split; [lia|]. unfold sl12. apply orb_true_iff. left. apply andb_true_iff. rewrite !Nat.eqb_eq. unfold ix. lia.
            -- rewrite U2; [destruct (D1 a b Ha Hb); [assumption|lia]|assumption|assumption|]. intros j' Hj'. unfold sl12, ix.
               destruct (Nat.eqb_spec b (Z.to_nat (j' - c0))); [lia|]. rewrite !andb_false_r. reflexivity.
            -- rewrite U2; [|assumption|assumption|].
               ++ destruct (Nat.eqb_spec a (ix c0 i)); [unfold ix in *; lia|]. cbn [andb]. apply HV; [assumption|assumption|lia].
               ++ intros j' Hj'. unfold sl12, ix. destruct (Nat.eqb_spec a (Z.to_nat (i - c0))); [lia|]. reflexivity.
          * intros j' Hj'. unfold sl21, ix. destruct (Nat.eqb_spec b (Z.to_nat (i - c0))); [lia|]. now rewrite andb_false_r. }
    destruct Lower as (C3 & f3 & -> & R3 & V3). cbn [obind].
    apply (IH (i + 1)%Z _ C3 f3); [lia|lia|auto|assumption|exact V3].
Qed.
End Rows.
End State.

(** What made_ortho and position give: the same state, with orthogonal tensors around the centre. *)
Definition same_as (ts ts' : list tensor) : Prop :=
  proper ts' /\ sites ts' = sites ts /\ forall c, Forall2 lt c (sites ts) -> amplitude ts' c = amplitude ts c.
Lemma same_as_trans ts1 ts2 ts3 : same_as ts1 ts2 -> same_as ts2 ts3 -> same_as ts1 ts3.
Proof.
  intros (P1 & S1 & A1) (P2 & S2 & A2). split; [assumption|]. split; [congruence|]. intros c Hc. rewrite A2 by (now rewrite S1). now apply A1.
Qed.
Lemma made_ortho_ok psi psi1 ts : holds psi ts -> proper ts -> (isOrtho psi = true -> good psi) -> made_ortho psi = Ok psi1 ->
  good psi1 /\ isOrtho psi1 = true /\ exists ts1, holds psi1 ts1 /\ same_as ts ts1.
Proof.
  intros HD PR HG H. unfold CorrModel.made_ortho in H. destruct (isOrtho psi) eqn:EO.
  - injection H as <-. split; [auto|]. split; [assumption|]. exists ts. split; [assumption|]. split; [assumption|]. auto.
  - destruct (C55_orthogonalize r0 r1 radd rmul rsub ropp conj RT conj0 conj1 conj_add conj_mul conj_conj conj_definite diag DIAG None psi psi1 ts HD PR H)
      as (G & OC & ts1 & H1 & P1 & S1 & A1). split; [assumption|]. split.
    + unfold orthoCenter in OC. destruct (isOrtho psi1); [reflexivity|discriminate].
    + exists ts1. split; [assumption|]. split; [assumption|]. split; [assumption|]. apply A1. discriminate.
Qed.
Lemma position_ok d d' s s' i ts : good s -> (1 <= i <= mN s)%Z -> holds s ts -> proper ts -> position d s i = Ok (d', s') ->
  good s' /\ orthoCenter s' = Ok i /\ exists ts', holds s' ts' /\ same_as ts ts' /\
   (forall k t, nth_error ts' k = Some t -> (1 + Z.of_nat k < i)%Z -> LO t) /\ (forall k t, nth_error ts' k = Some t -> (i < 1 + Z.of_nat k)%Z -> RO t).
Proof.
  intros G Hi HD PR H.
  destruct (position_good r0 r1 radd rmul rsub ropp conj RT svdl svdr SVDL SVDR d d' s s' i G Hi H) as (_ & G' & EN & El & Er & SS).
  split; [assumption|]. split.
  { assert (I : isOrtho s' = true) by (unfold isOrtho; rewrite El, Er; apply Z.eqb_eq; lia). unfold orthoCenter. rewrite I, El. f_equal. lia. }
  destruct (SS ts HD PR) as (ts' & HD' & PR' & ES & EA). exists ts'. split; [assumption|]. split; [split; auto|].
  destruct G' as (_ & _ & _ & _ & _ & (CL & CR')). destruct HD' as [HL HA]. split.
  - intros k t Hk Hlt. apply (CL (1 + Z.of_nat k)%Z); [rewrite El; lia|]. rewrite HA; [assumption|]. apply nth_error_Some. congruence.
  - intros k t Hk Hlt. assert (k < length ts') by (apply nth_error_Some; congruence). apply (CR' (1 + Z.of_nat k)%Z); [rewrite Er, EN; rewrite EN in HL; lia|]. now rewrite HA.
Qed.
Lemma same_norm2 ts ts' : same_as ts ts' -> norm2 ts' = norm2 ts.
Proof. intros (_ & S1 & A1). unfold MpsSpec.norm2. rewrite S1. apply BigSum.csum_ext. intros c Hc. now rewrite A1. Qed.
Lemma same_dims ts ts' : same_as ts ts' -> (forall k t, nth_error ts k = Some t -> tp t = dim (1 + Z.of_nat k)) -> (forall k t, nth_error ts' k = Some t -> tp t = dim (1 + Z.of_nat k)).
Proof.
  intros (_ & S1 & _) DM k t Hk. assert (E : nth_error (sites ts') k = Some (tp t)) by (unfold sites; rewrite nth_error_map, Hk; reflexivity).
  rewrite S1 in E. unfold sites in E. rewrite nth_error_map in E. destruct (nth_error ts k) as [u|] eqn:Eu; [|discriminate]. cbn in E. injection E as <-. now apply DM.
Qed.
Lemma same_len ts ts' : same_as ts ts' -> length ts' = length ts.
Proof. intros (_ & S1 & _). apply (f_equal (@length nat)) in S1. unfold sites in S1. now rewrite !map_length in S1. Qed.
Lemma conj_bsum n f : conj (bsum n f) = bsum n (fun i => conj (f i)).
Proof. induction n as [|n IH]; cbn [BigSum.bsum]; [assumption|]. now rewrite conj_add, IH. Qed.

(** The sites a range stands for: a null range means all. *)
Definition range_of (n : Z) (r : Z * Z) : Z * Z := if (fst r =? snd r)%Z then (1, n + 1)%Z else r.

Section Corr.
Variables (d : disk tensor) (psi : mps tensor) (ts : list tensor) (op1 op2 : opname) (r : Z * Z) (arg : option bool).
Notation first := (fst (range_of (Z.of_nat (length ts)) r)).
Notation last := (snd (range_of (Z.of_nat (length ts)) r)).
Notation N := (Z.of_nat (length ts)).
Hypothesis HD : holds psi ts.
Hypothesis PR : proper ts.
Hypothesis HG : isOrtho psi = true -> good psi.
Hypothesis DM : forall k t, nth_error ts k = Some t -> tp t = dim (1 + Z.of_nat k).
Hypothesis HN : norm2 ts <> r0.
Hypothesis HR : (1 <= first < last)%Z /\ (last <= N + 1)%Z.
Hypothesis PAR : isFermionic op1 = true -> parity r0 r1 radd rmul conj N dim F /\ odd r0 radd rmul ropp N dim F (op op2).
Hypothesis ADJ : hermitian_mode arg op1 op2 = true -> adjoint_pair rmul conj N dim (op op1) (op op2).

Lemma correlation_run psi1 d2 psi2 t nrm : made_ortho psi = Ok psi1 -> position d psi1 first = Ok (d2, psi2) -> tensor_at psi2 first = Ok t -> norm t = Ok nrm ->
  isFermionic op1 = isFermionic op2 -> exists C, correlationMatrix d psi op1 op2 r arg = Ok C /\ square (Z.to_nat (last - first)) C /\
  forall i j, (first <= i < last)%Z -> (first <= j < last)%Z -> exists x, entry C (Z.to_nat (i - first)) (Z.to_nat (j - first)) = Some x /\
    x * norm2 ts = correlator ts dim (isFermionic op1) F (op op1) (op op2) i j.
Proof.
  intros E1 E2 E3 E4 EF.
  destruct (made_ortho_ok psi psi1 ts HD PR HG E1) as (G1 & _ & ts1 & HD1 & S1).
  pose proof (same_len _ _ S1) as L1. destruct HD1 as [HN1 HA1].
  destruct (position_ok d d2 psi1 psi2 first ts1 G1 ltac:(lia) (Logic.conj HN1 HA1) (proj1 S1) E2) as (G2 & OC & ts2 & HD2 & S2 & OL & OR).
  pose proof (same_as_trans _ _ _ S1 S2) as S3. pose proof (same_len _ _ S3) as L3.
  assert (Et : mA psi2 first = Some t) by (unfold tensor_at in E3; destruct (mA psi2 first); [injection E3 as <-; reflexivity|discriminate]).
  pose proof (C38_norm r0 r1 radd rmul rsub ropp conj RT psi2 ts2 first t conj_add conj_mul conj0 conj1 G2 HD2 (proj1 S3) OC Et) as NT.
  destruct (NORM t nrm E4) as [NQ NC]. rewrite <- NT, (same_norm2 _ _ S3) in NQ.
  destruct (rows_ok psi2 ts2 first HD2 (proj1 S3) (same_dims _ _ S3 DM) OR (nrm * nrm) op1 op2 (isFermionic op1) (hermitian_mode arg op1 op2) (last - 1)%Z) with
    (n := Z.to_nat (last - first)) (i := first) (L := if (1 <? first)%Z then delta else fun (_ _ : nat) => r1) (C := repeat (repeat r0 (Z.to_nat (last - first))) (Z.to_nat (last - first))) (f := fun (_ _ : nat) => r0)
    as (C & f & EC & RC & VC).
  - now rewrite NQ.
  - now rewrite conj_mul, NC.
  - lia.
  - rewrite L3. lia.
  - rewrite L3. intros X. now apply PAR.
  - rewrite L3. intros X. now apply PAR.
  - rewrite L3. exact ADJ.
  - lia.
  - lia.
  - intros _. refine (env_start ts2 first (proj1 S3) (same_dims _ _ S3 DM) OL _ _ _); [rewrite L3; lia|]. intros k Hk. apply same_op_refl.
  - replace (last - 1 + 1)%Z with last by lia. apply rep_repeat.
  - intros a b _ _ Hab. lia.
  - exists C. replace (last - 1 + 1)%Z with last in RC, VC by lia. split; [|split; [apply RC|]].
    + unfold CorrModel.correlationMatrix, CorrModel.fixRange. fold (range_of (mN psi) r). destruct HD as [-> _].
      destruct (range_of N r) as [fi la] eqn:ER. cbn [fst snd] in *. rewrite E1. cbn [obind].
      unfold CorrModel.position in E2 |- *. rewrite E2. cbn [obind]. rewrite E3. cbn [obind]. rewrite E4. cbn [obind]. rewrite <- EF, Bool.eqb_reflx. cbn [negb]. exact EC.
    + intros i j Hi Hj. exists (f (Z.to_nat (i - first)) (Z.to_nat (j - first))). split; [apply RC; lia|].
      specialize (VC (Z.to_nat (i - first)) (Z.to_nat (j - first)) ltac:(lia) ltac:(lia)). unfold right_value in VC. rewrite NQ in VC. rewrite VC.
      replace (first + Z.of_nat (Z.to_nat (i - first)))%Z with i by lia. replace (first + Z.of_nat (Z.to_nat (j - first)))%Z with j by lia.
      unfold CorrSpec.correlator. apply expectation_amp; [apply S3|apply S3].
Qed.
End Corr.

(** correlationMatrix(psi,sites,op1,op2,range): the entry for the sites i, j of the range is
    <op1_i op2_j>, the expectation value in the normalised state, fermionic operators carrying
    their strings; provided that, if only half of the table is computed, op2 is the adjoint of
    op1 up to a real factor. *)
Theorem C56_correlation : forall d psi ts op1 op2 r arg C first last,
  holds psi ts -> proper ts -> (isOrtho psi = true -> good psi) ->
  (forall k t, nth_error ts k = Some t -> tp t = dim (1 + Z.of_nat k)) -> norm2 ts <> r0 ->
  range_of (Z.of_nat (length ts)) r = (first, last) -> (1 <= first < last)%Z -> (last <= Z.of_nat (length ts) + 1)%Z ->
  (isFermionic op1 = true -> parity r0 r1 radd rmul conj (Z.of_nat (length ts)) dim F /\ odd r0 radd rmul ropp (Z.of_nat (length ts)) dim F (op op2)) ->
  (hermitian_mode arg op1 op2 = true -> adjoint_pair rmul conj (Z.of_nat (length ts)) dim (op op1) (op op2)) ->
  correlationMatrix d psi op1 op2 r arg = Ok C ->
  square (Z.to_nat (last - first)) C /\
  forall i j, (first <= i < last)%Z -> (first <= j < last)%Z -> exists x, entry C (Z.to_nat (i - first)) (Z.to_nat (j - first)) = Some x /\
    x * norm2 ts = correlator ts dim (isFermionic op1) F (op op1) (op op2) i j.
Proof.
  intros d psi ts op1 op2 r arg C first last HD PR HG DM HN ER HR1 HR2 PAR ADJ H. pose proof H as H0.
  unfold CorrModel.correlationMatrix, CorrModel.fixRange in H. fold (range_of (mN psi) r) in H. rewrite (proj1 HD), ER in H.
  destruct (made_ortho psi) as [psi1| |] eqn:E1; cbn [obind] in H; try discriminate.
  destruct (position d psi1 first) as [[d2 psi2]| |] eqn:E2; cbn [obind] in H; try discriminate.
  destruct (tensor_at psi2 first) as [t| |] eqn:E3; cbn [obind] in H; try discriminate.
  destruct (norm t) as [nrm| |] eqn:E4; cbn [obind] in H; try discriminate.
  destruct (Bool.eqb (isFermionic op1) (isFermionic op2)) eqn:EF; cbn [negb] in H; [|discriminate]. apply Bool.eqb_prop in EF.
  assert (A1 : fst (range_of (Z.of_nat (length ts)) r) = first) by now rewrite ER. assert (A2 : snd (range_of (Z.of_nat (length ts)) r) = last) by now rewrite ER.
  destruct (correlation_run d psi ts op1 op2 r arg HD PR HG DM HN ltac:(lia) PAR ADJ psi1 d2 psi2 t nrm E1) as (C' & EC & SC & VC); try (rewrite A1; assumption); try assumption.
  rewrite H0 in EC. injection EC as <-. rewrite A1, A2 in SC, VC. auto.
Qed.

(** One fermionic and one bosonic operator: an error. *)
Theorem C56_mixed : forall d psi op1 op2 r arg C, isFermionic op1 <> isFermionic op2 -> correlationMatrix d psi op1 op2 r arg <> Ok C.
Proof.
  intros d psi op1 op2 r arg C NF H. unfold CorrModel.correlationMatrix in H. destruct (fixRange (mN psi) r) as [first last].
  destruct (made_ortho psi) as [psi1| |]; cbn [obind] in H; try discriminate.
  destruct (position d psi1 first) as [[d2 psi2]| |]; cbn [obind] in H; try discriminate.
  destruct (tensor_at psi2 first) as [t| |]; cbn [obind] in H; try discriminate.
  destruct (norm t) as [nrm| |]; cbn [obind] in H; try discriminate.
  destruct (isFermionic op1), (isFermionic op2); try congruence; cbn in H; discriminate.
Qed.

(** Scaling the centre scales the amplitudes. *)
Lemma scale_amp k pre t post c n : linked 1 pre n -> Forall2 lt c (sites (pre ++ t :: post)) ->
  amplitude (pre ++ tscale rmul k t :: post) c = k * amplitude (pre ++ t :: post) c.
Proof.
  intros L Hc. unfold sites in Hc. rewrite map_app in Hc. cbn [map] in Hc. apply Forall2_app_inv_r in Hc as (c1 & c2 & F1 & F2 & ->).
  inversion F2 as [|s ? c3 ? F3 F4]; subst. pose proof (Forall2_length_eq _ _ _ F1) as L1. rewrite map_length in L1.
  unfold MpsSpec.amplitude. rewrite !(chain_app r0 r1 radd rmul rsub ropp RT pre c1 _ _ 1 n) by (auto; lia).
  rewrite <- (bsum_mul_l r0 r1 radd rmul rsub ropp RT). apply bsum_ext. intros e He. cbn [MpsSpec.chain tr te CorrModel.tscale].
  transitivity (MpsSpec.chain r0 r1 radd rmul pre c1 0 e * (k * bsum (tr t) (fun e0 => te t e s e0 * MpsSpec.chain r0 r1 radd rmul post c3 e0 0))); [|ring].
  f_equal. rewrite <- (bsum_mul_l r0 r1 radd rmul rsub ropp RT). apply bsum_ext. intros; ring.
Qed.

(** The state after normalize: expectation values are divided by the squared norm. *)
Definition normalised (ts ts' : list tensor) : Prop :=
  proper ts' /\ sites ts' = sites ts /\ forall P, expectation ts' P * norm2 ts = expectation ts P.
Lemma normalize_ok d d' s s' ts : good s -> isOrtho s = true -> holds s ts -> proper ts -> normalize d s = Ok (d', s') ->
  good s' /\ mN s' = mN s /\ exists ts', holds s' ts' /\ normalised ts ts'.
Proof.
  intros G IO HD PR H. pose proof G as (Gm & G2 & G3 & G4 & Gf & (Cl & Cr)).
  unfold CorrModel.normalize in H. unfold orthoCenter in H. rewrite IO in H. cbn [obind] in H.
  pose proof IO as IO'. unfold isOrtho in IO'. apply Z.eqb_eq in IO'. set (i := (ml s + 1)%Z) in *.
  destruct (get_mem d s i Gm) as (s1 & K1 & N1 & A1 & L1 & R1 & D1 & _ & _); [lia|]. rewrite K1 in H. cbn [obind] in H.
  destruct (Gf i) as (t & Et & Jt); [lia|]. rewrite Et in H.
  destruct (norm t) as [nrm| |] eqn:EN; cbn [obind] in H; try discriminate. destruct (tiny nrm) eqn:ET; [discriminate|].
  assert (OC : orthoCenter s = Ok i) by (unfold orthoCenter; now rewrite IO).
  pose proof (C38_norm r0 r1 radd rmul rsub ropp conj RT s ts i t conj_add conj_mul conj0 conj1 G HD PR OC Et) as NT.
  destruct (NORM t nrm EN) as [NQ NC]. assert (Nz : nrm <> r0) by (intros ->; congruence).
  set (k := rdiv r1 nrm) in *. assert (Kn : k * nrm = r1) by (apply div_mul; assumption).
  assert (Kc : conj k * nrm = r1) by (transitivity (conj (k * nrm)); [now rewrite conj_mul, NC|now rewrite Kn]).
  unfold scale in H. rewrite L1 in H. fold i in H. apply modify_mem in H; [|assumption|unfold wrap; destruct (Z.ltb_spec i 0); lia].
  cbn zeta in H. replace (wrap s1 i) with i in H by (unfold wrap; destruct (Z.ltb_spec i 0); lia).
  destruct H as (_ & Hm & Hn & Hl & Hr & Hi & Ho). rewrite L1, R1, A1 in *. rewrite Et in Hi. cbn [option_map] in Hi.
  assert (Hl' : ml s' = ml s) by (rewrite Hl; destruct (Z.leb_spec i (ml s)); lia).
  assert (Hr' : mr s' = mr s) by (rewrite Hr; destruct (Z.leb_spec (mr s) i); lia).
  split; [|split; [congruence|]].
  { split; [assumption|]. rewrite Hn, N1, Hl', Hr'. split; [assumption|]. split; [assumption|]. split; [assumption|]. split.
    - intros j Hj. rewrite Hn, N1 in *. destruct (Z.eq_dec j i) as [->|Ne]; [exists (tscale rmul k t); split; [assumption|exact Jt]|]. rewrite Ho by assumption. now apply Gf.
    - split; intros j u Hj Eu; rewrite ?Hl', ?Hr', ?Hn, ?N1 in Hj; (rewrite Ho in Eu by lia); [apply (Cl j)|apply (Cr j)]; (lia || assumption). }
  destruct HD as [HL HA]. pose proof (HA (Z.to_nat (i - 1)) ltac:(lia)) as Q. replace (1 + Z.of_nat (Z.to_nat (i - 1)))%Z with i in Q by lia. rewrite Et in Q. symmetry in Q.
  destruct (nth_error_split ts _ Q) as (pre & post & Ec & Lp). pose proof PR as PR'. unfold proper in PR'. rewrite Ec in PR'. apply linked_app in PR' as (n & K2 & K3).
  exists (pre ++ tscale rmul k t :: post). split; [|split; [|split]].
  - split; [rewrite Hn, N1, HL, Ec, !app_length; reflexivity|]. intros q Hq. destruct (Nat.eq_dec q (length pre)) as [->|Ne].
    + replace (1 + Z.of_nat (length pre))%Z with i by lia. rewrite Hi, nth_error_app2, Nat.sub_diag by lia. reflexivity.
    + rewrite Ho by lia. assert (Hq' : q < length ts) by (rewrite app_length in Hq; rewrite Ec, app_length; cbn [length] in *; lia). rewrite HA by assumption. rewrite Ec.
      destruct (Nat.lt_ge_cases q (length pre)); [now rewrite !nth_error_app1|]. rewrite !nth_error_app2 by lia.
      destruct (q - length pre) as [|q'] eqn:Eq; [lia|]. reflexivity.
  - unfold proper. apply linked_app. exists n. split; [assumption|exact K3].
  - rewrite Ec. unfold sites. now rewrite !map_app.
  - intros P. rewrite NT, <- NQ. unfold CorrSpec.expectation.
    assert (ES : sites (pre ++ tscale rmul k t :: post) = sites ts) by (rewrite Ec; unfold sites; now rewrite !map_app). rewrite ES.
    assert (AM : forall c, Forall2 lt c (sites ts) -> amplitude (pre ++ tscale rmul k t :: post) c = k * amplitude ts c).
    { intros c Hc. rewrite Ec in Hc |- *. now apply (scale_amp k pre t post c n). }
    rewrite <- (csum_mul_r r0 r1 radd rmul rsub ropp RT). apply BigSum.csum_ext. intros c Hc. rewrite <- (csum_mul_r r0 r1 radd rmul rsub ropp RT). apply BigSum.csum_ext. intros c' Hc'.
    rewrite !AM by assumption. rewrite conj_mul.
    transitivity ((k * nrm) * (conj k * nrm) * (amplitude ts c * CorrSpec.element r1 rmul P 1 c c' * conj (amplitude ts c'))); [ring|]. rewrite Kn, Kc. ring.
Qed.
Lemma local_closed t M : local t M = closed delta t M.
Proof.
  unfold CorrModel.local, CorrModel.closed. apply bsum_ext. intros a Ha.
  transitivity (bsum (tl t) (fun a' => delta a a' * bsum (tp t) (fun s => bsum (tp t) (fun s' => bsum (tr t) (fun b => te t a s b * M s s' * conj (te t a' s' b)))))).
  - now rewrite (bsum_delta r0 r1 radd rmul rsub ropp RT).
  - apply bsum_ext. intros a' Ha'. rewrite <- (bsum_mul_l r0 r1 radd rmul rsub ropp RT). apply bsum_ext. intros s Hs. rewrite <- (bsum_mul_l r0 r1 radd rmul rsub ropp RT). apply bsum_ext. intros s' Hs'.
    rewrite <- (bsum_mul_l r0 r1 radd rmul rsub ropp RT). apply bsum_ext. intros b Hb. ring.
Qed.

(** expect(psi,sites,ops,site_list): the row for site i has the expectation values of the operators
    at site i in the normalised state. *)
Theorem C56_expect : forall d psi ts vops site_list ex,
  holds psi ts -> proper ts -> (isOrtho psi = true -> good psi) ->
  (forall k t, nth_error ts k = Some t -> tp t = dim (1 + Z.of_nat k)) ->
  Forall (fun i => 1 <= i <= Z.of_nat (length ts))%Z site_list ->
  expect d psi vops site_list = Ok ex ->
  length ex = length site_list /\ Forall (fun row => length row = length vops) ex /\
  forall p q i o, nth_error site_list p = Some i -> nth_error vops q = Some o ->
    exists x, entry ex p q = Some x /\ x * norm2 ts = expectation ts (single r0 r1 (op o) i).
Proof.
  intros d psi ts vops site_list ex HD PR HG DM FS H. unfold CorrModel.expect in H.
  destruct (made_ortho psi) as [psi1| |] eqn:E1; cbn [obind] in H; try discriminate.
  destruct (made_ortho_ok psi psi1 ts HD PR HG E1) as (G1 & IO & ts1 & HD1 & S1).
  destruct (normalize d psi1) as [[d2 psi2]| |] eqn:E2; cbn [obind] in H; try discriminate.
  destruct (normalize_ok d d2 psi1 psi2 ts1 G1 IO HD1 (proj1 S1) E2) as (G2 & EN2 & ts2 & HD2 & P2 & S2 & X2).
  assert (X3 : forall P, expectation ts2 P * norm2 ts = expectation ts P).
  { intros P. rewrite <- (same_norm2 _ _ S1), X2. apply expectation_amp; apply S1. }
  assert (S3 : sites ts2 = sites ts) by (rewrite S2; apply S1).
  clear E1 E2 S1 HD1 IO G1 X2 S2 EN2 psi1 HD HG. revert d2 psi2 ts2 ex G2 HD2 P2 X3 S3 H.
  induction site_list as [|i site_list IH]; intros d2 psi2 ts2 ex G2 HD2 P2 X3 S3 H; cbn [expect_loop] in H.
  - injection H as <-. split; [reflexivity|]. split; [constructor|]. intros [|p]; discriminate.
  - inversion FS as [|? ? Hi FS']; subst.
    destruct (CorrModel.position r0 radd rmul svdl svdr d2 psi2 i) as [[d3 psi3]| |] eqn:E3; cbn [obind] in H; try discriminate.
    assert (L2 : length ts2 = length ts) by (apply (f_equal (@length nat)) in S3; unfold sites in S3; now rewrite !map_length in S3).
    destruct (position_ok d2 d3 psi2 psi3 i ts2 G2 ltac:(rewrite (proj1 HD2); lia) HD2 P2 E3) as (G3 & OC & ts3 & HD3 & S4 & OL & OR).
    pose proof (same_len _ _ S4) as L3.
    assert (X4 : forall P, expectation ts3 P * norm2 ts = expectation ts P).
    { intros P. rewrite <- X3. f_equal. apply expectation_amp; apply S4. }
    assert (S5 : sites ts3 = sites ts) by (rewrite <- S3; apply S4).
    assert (DM3 : forall k t, nth_error ts3 k = Some t -> tp t = dim (1 + Z.of_nat k)).
    { intros k t Hk. assert (E : nth_error (sites ts3) k = Some (tp t)) by (unfold sites; rewrite nth_error_map, Hk; reflexivity).
      rewrite S5 in E. unfold sites in E. rewrite nth_error_map in E. destruct (nth_error ts k) as [u|] eqn:Eu; [|discriminate]. cbn in E. injection E as <-. now apply DM. }
    destruct (tensor_at psi3 i) as [t| |] eqn:Et; cbn [obind] in H; try discriminate.
    destruct (expect_loop _ _ _ _ _ _ _ _ _ _ _ _ _) as [rest| |] eqn:E4 in H; cbn [obind] in H; try discriminate. injection H as <-.
    destruct (IH FS' d3 psi3 ts3 rest G3 HD3 (proj1 S4) X4 S5 E4) as (I1 & I2 & I3).
    split; [cbn [length]; congruence|]. split; [constructor; [apply map_length|assumption]|].
    intros [|p] q j o Hp Hq; cbn [nth_error] in Hp.
    + injection Hp as <-. exists (local t (op o i)). split; [unfold entry; cbn [nth_error]; rewrite nth_error_map, Hq; reflexivity|].
      rewrite <- X4. f_equal. rewrite local_closed.
      assert (E0 : env_is ts3 (fun _ => ident) i (if (1 <? i)%Z then delta else fun _ _ => r1)) by
        (refine (env_start ts3 i (proj1 S4) DM3 OL _ _ _); [lia|]; intros; apply same_op_refl).
      assert (E5 : env_is ts3 (fun _ => ident) i delta).
      { intros u1 u u2 Eu Lu b b' Hb Hb'. rewrite <- (E0 u1 u u2 Eu Lu b b' Hb Hb'). destruct (Z.ltb_spec 1 i); [reflexivity|].
        assert (u1 = []) as -> by (destruct u1; [reflexivity|cbn in Lu; lia]). cbn in Eu. pose proof (proj1 S4) as Pq. rewrite Eu in Pq. destruct Pq as [Pq _]. rewrite Pq in Hb, Hb'.
        assert (b = 0) as -> by lia. assert (b' = 0) as -> by lia. reflexivity. }
      rewrite (env_closed psi3 ts3 i HD3 (proj1 S4) DM3 OR (fun _ => ident) i delta t (op o i)); [|lia|lia|assumption|assumption].
      apply (same_expect ts3 DM3). intros k Hk. unfold single. destruct (Z.ltb_spec k i), (Z.eqb_spec k i); try lia; apply same_op_refl.
    + destruct (I3 p q j o Hp Hq) as (x & Hx & Vx). exists x. split; [exact Hx|exact Vx].
Qed.

(** correlationMatrix cannot fail, if the decompositions and norms it calls return and the
    operators are not mixed; on one site the centre must be set already. *)
Theorem C56_returns : forall d psi ts op1 op2 r arg first last,
  holds psi ts -> proper ts -> (isOrtho psi = true -> good psi) ->
  (forall k t, nth_error ts k = Some t -> tp t = dim (1 + Z.of_nat k)) -> norm2 ts <> r0 ->
  range_of (Z.of_nat (length ts)) r = (first, last) -> (1 <= first < last)%Z -> (last <= Z.of_nat (length ts) + 1)%Z ->
  (isFermionic op1 = true -> parity r0 r1 radd rmul conj (Z.of_nat (length ts)) dim F /\ odd r0 radd rmul ropp (Z.of_nat (length ts)) dim F (op op2)) ->
  (hermitian_mode arg op1 op2 = true -> adjoint_pair rmul conj (Z.of_nat (length ts)) dim (op op1) (op op2)) ->
  (forall t, exists z, svdl t = Ok z) -> (forall t, exists z, svdr t = Ok z) -> (forall t, exists x, norm t = Ok x) ->
  (forall mx p q rho, gram r0 radd rmul conj p q rho -> exists x, diag mx p q rho = Ok x) ->
  mdo psi = false -> (2 <= length ts)%nat \/ isOrtho psi = true -> isFermionic op1 = isFermionic op2 ->
  exists C, correlationMatrix d psi op1 op2 r arg = Ok C.
Proof.
  intros d psi ts op1 op2 r arg first last HD PR HG DM HN ER HR1 HR2 PAR ADJ TL TR TN TD Hm H2 EF.
  assert (exists psi1, made_ortho psi = Ok psi1) as (psi1 & E1).
  { unfold CorrModel.made_ortho. destruct (isOrtho psi) eqn:EO; [eauto|]. destruct H2 as [H2|H2]; [|discriminate].
    exact (C55_returns r0 r1 radd rmul rsub ropp conj RT conj0 conj1 conj_add conj_mul diag None psi ts HD PR Hm H2 TD). }
  destruct (made_ortho_ok psi psi1 ts HD PR HG E1) as (G1 & _ & ts1 & HD1 & S1). pose proof (same_len _ _ S1) as L1.
  pose proof G1 as (M1 & _ & M3 & M4 & _).
  destruct (C38_total r0 radd rmul svdl svdr d psi1 first TL TR M1 M3 M4) as (psi2 & E2); [rewrite (proj1 HD1); lia|].
  destruct (position_ok d d psi1 psi2 first ts1 G1 ltac:(rewrite (proj1 HD1); lia) HD1 (proj1 S1) E2) as (G2 & OC & ts2 & HD2 & S2 & _). pose proof (same_len _ _ S2) as L2.
  pose proof G2 as (_ & _ & _ & _ & Gf & _). destruct (Gf first) as (t & Et & _); [rewrite (proj1 HD2); lia|].
  destruct (TN t) as (x & Ex).
  assert (A1 : fst (range_of (Z.of_nat (length ts)) r) = first) by now rewrite ER. assert (A2 : snd (range_of (Z.of_nat (length ts)) r) = last) by now rewrite ER.
  destruct (correlation_run d psi ts op1 op2 r arg HD PR HG DM HN ltac:(lia) PAR ADJ psi1 d psi2 t x E1) as (C & EC & _); try (rewrite A1); try assumption.
  - unfold tensor_at. now rewrite Et.
  - eauto.
Qed.
End Props.

(** The complex numbers over an ordered field meet the hypotheses. *)
Section Complex.
Context {F : Type} (f0 f1 : F) (fadd fmul fsub : F -> F -> F) (fopp : F -> F)
  (fdiv : F -> F -> F) (finv : F -> F) (fltb : F -> F -> bool)
  (OF : ordered_field f0 f1 fadd fmul fsub fopp fdiv finv fltb).
Let FT := of_field _ _ _ _ _ _ _ _ _ OF.
Add Field FFcop : FT.
Notation le x y := (fltb y x = false).
Notation lt x y := (fltb x y = true).
Lemma sum_zero x y : le f0 x -> le f0 y -> fadd x y = f0 -> x = f0 /\ y = f0.
Proof.
  intros Hx Hy E. assert (le x f0).
  { rewrite <- E. pose proof (le_add2 f0 f1 fadd fmul fsub fopp fdiv finv fltb OF x x f0 y (le_refl f0 f1 fadd fmul fsub fopp fdiv finv fltb OF x) Hy) as Q. now replace (fadd x f0) with x in Q by ring. }
  assert (x = f0) as -> by (apply (of_total _ _ _ _ _ _ _ _ _ OF); assumption). split; [reflexivity|]. rewrite <- E. ring.
Qed.
Lemma square_zero x : fmul x x = f0 -> x = f0.
Proof.
  intros E. destruct (fltb f0 x) eqn:L1.
  - pose proof (of_mul _ _ _ _ _ _ _ _ _ OF _ _ L1 L1) as Q. rewrite E in Q. now rewrite (of_irrefl _ _ _ _ _ _ _ _ _ OF) in Q.
  - destruct (fltb x f0) eqn:L2; [|now apply (of_total _ _ _ _ _ _ _ _ _ OF)].
    apply (neg_pos f0 f1 fadd fmul fsub fopp fdiv finv fltb OF) in L2. pose proof (of_mul _ _ _ _ _ _ _ _ _ OF _ _ L2 L2) as Q.
    replace (fmul (fopp x) (fopp x)) with (fmul x x) in Q by ring. rewrite E in Q. now rewrite (of_irrefl _ _ _ _ _ _ _ _ _ OF) in Q.
Qed.
Lemma complex_definite : definite (c0 f0) (cadd fadd) (cmul fadd fmul fsub) (cconj fopp).
Proof.
  assert (NN : forall l, le f0 (fst (square_sum (c0 f0) (cadd fadd) (cmul fadd fmul fsub) (cconj fopp) l))).
  { induction l as [|z l IH]; cbn [square_sum]; [apply (le_refl f0 f1 fadd fmul fsub fopp fdiv finv fltb OF)|].
    rewrite (abs2_conj' f0 f1 fadd fmul fsub fopp fdiv finv fltb OF). cbn [fst cadd cof].
    pose proof (le_add2 f0 f1 fadd fmul fsub fopp fdiv finv fltb OF _ _ _ _ (abs2_nonneg f0 f1 fadd fmul fsub fopp fdiv finv fltb OF z) IH) as Q.
    now replace (fadd f0 f0) with f0 in Q by ring. }
  intros l. induction l as [|z l IH]; intros H; constructor; cbn [square_sum] in H; rewrite (abs2_conj' f0 f1 fadd fmul fsub fopp fdiv finv fltb OF) in H.
  - apply (f_equal fst) in H. cbn [fst cadd cof c0] in H.
    apply sum_zero in H as [H _]; [|apply (abs2_nonneg f0 f1 fadd fmul fsub fopp fdiv finv fltb OF)|apply NN].
    unfold abs2 in H. apply sum_zero in H as [H1 H2]; try apply (sq_nonneg f0 f1 fadd fmul fsub fopp fdiv finv fltb OF).
    apply square_zero in H1, H2. destruct z. cbn in *. subst. reflexivity.
  - apply IH. pose proof (f_equal fst H) as H1. pose proof (f_equal snd H) as H2. cbn [fst snd cadd cof c0] in H1, H2.
    apply sum_zero in H1 as [_ H1]; [|apply (abs2_nonneg f0 f1 fadd fmul fsub fopp fdiv finv fltb OF)|apply NN].
    destruct (square_sum _ _ _ _ l) as [a b]. cbn [fst snd] in *. unfold c0. f_equal; [assumption|]. rewrite <- H2. ring.
Qed.
(** Division of complex numbers. *)
Definition cdiv (x y : @cplx F) : @cplx F := cmul fadd fmul fsub x (cmul fadd fmul fsub (cconj fopp y) (cof f0 (finv (abs2 fadd fmul y)))).
Lemma cdiv_mul x y : y <> c0 f0 -> cmul fadd fmul fsub (cdiv x y) y = x.
Proof.
  intros Hy. assert (abs2 fadd fmul y <> f0).
  { intros E. apply Hy. unfold abs2 in E. apply sum_zero in E as [H1 H2]; try apply (sq_nonneg f0 f1 fadd fmul fsub fopp fdiv finv fltb OF).
    apply square_zero in H1, H2. destruct y. cbn in *. subst. reflexivity. }
  unfold cdiv, cmul, cconj, cof, abs2 in *. destruct x as [a b], y as [u v]. cbn [fst snd] in *. f_equal; field; assumption.
Qed.
End Complex.

(** Two sites of dimension 2, over the complex rationals. *)
Section Example.
Notation K := (@cplx Qc).
Notation q0 := (Q2Qc 0). Notation q1 := (Q2Qc 1).
Notation z0 := (c0 q0). Notation z1 := (c1 q0 q1).
Notation za := (cadd Qcplus). Notation zm := (cmul Qcplus Qcmult Qcminus). Notation zs := (csub Qcminus). Notation zo := (copp Qcopp). Notation zc := (cconj Qcopp).
Notation zd := (cdiv q0 Qcplus Qcmult Qcminus Qcopp Qcinv).
Notation zz a b := (Q2Qc (a # 1)%Q, Q2Qc (b # 1)%Q).
Definition znorm (t : @tensor K) : outcome K :=
  let x := tnorm2 z0 za zm zc t in if Qc_eq_bool (snd x) q0 then let! r := qsqrt (fst x) in Ok (r, q0) else Err.
Definition ztiny (x : K) : bool := ceqb x z0.
(** The state x |i j> + y |1-i 1-j>, as two tensors with the centre at site 1. *)
Definition ex1 (x y : K) (i : nat) : @tensor K := mkT 1 2 2 true (fun _ s b => if (s =? i) && (b =? 0) then x else if (s =? 1 - i) && (b =? 1) then y else z0).
Definition ex2 (j : nat) : @tensor K := mkT 2 2 1 false (fun b s _ => if (b =? 0) && (s =? j) || (b =? 1) && (s =? 1 - j) then z1 else z0).
Definition expsi (x y : K) (i j : nat) : mps (@tensor K) := mkMps 2 (fun k => if (k =? 1)%Z then Some (ex1 x y i) else if (k =? 2)%Z then Some (ex2 j) else None) 0 2 1 false 0.
(** Operators: 0 = F, 1 = the annihilator <0|A|1> = 1, 2 = its adjoint. *)
Definition exbase (o : nat) (k : Z) : @site_op K := fun s s' =>
  match o with
  | 0 => if s =? s' then (if s =? 0 then z1 else zz (-1) 0) else z0
  | 1 => if (s =? 1) && (s' =? 0) then z1 else z0
  | _ => if (s =? 0) && (s' =? 1) then z1 else z0
  end.
Notation nosvd := (fun _ : @tensor K => @Err (@tensor K * @matrix K)).
Notation nodiag := (fun (_ : option nat) (_ _ : nat) (_ : @pmatrix K) => @Err (nat * (nat -> nat -> nat -> K))).
Notation corrmat ferm := (correlationMatrix z0 z1 za zm zo zc zd nosvd nosvd nodiag znorm (fun _ => 2) exbase 0 (fun _ => ferm) (fun _ _ => false) (fun _ _ => None)).
Notation exexpect := (expect z0 z1 za zm zc zd nosvd nosvd nodiag znorm ztiny (fun _ => 2) exbase (fun _ _ => None)).
Notation exop := (op z0 z1 za zm (fun _ => 2) exbase).
Notation excorr ferm ts o o' i j := (correlator z0 z1 za zm zc ts (fun _ => 2) ferm (exop [0]) (exop [o]) (exop [o']) i j).

Lemma zring : ring_theory z0 z1 za zm zs zo eq. Proof. apply (cring q0 q1 Qcplus Qcmult Qcminus Qcopp Qcdiv Qcinv Qcltb). exact Qc_ordered. Qed.
Lemma ceqb_eq (a b : K) : ceqb a b = true -> a = b.
Proof. unfold ceqb. intros H. apply andb_true_iff in H as [H1 H2]. apply Qc_eq_bool_correct in H1, H2. destruct a, b. cbn in *. congruence. Qed.
Lemma ceqb_refl (a : K) : ceqb a a = true.
Proof. unfold ceqb. destruct a as [x y]. cbn. unfold Qc_eq_bool. destruct (Qc_eq_dec x x), (Qc_eq_dec y y); auto. Qed.
Lemma ceqb_neq (a b : K) : ceqb a b = false -> a <> b.
Proof. intros H ->. rewrite ceqb_refl in H. discriminate. Qed.
Lemma znorm_ok t x : znorm t = Ok x -> zm x x = tnorm2 z0 za zm zc t /\ zc x = x.
Proof.
  unfold znorm. destruct (tnorm2 z0 za zm zc t) as [a b]. cbn [fst snd]. destruct (Qc_eq_bool b q0) eqn:Eb; [|discriminate]. apply Qc_eq_bool_correct in Eb. subst b.
  destruct (qsqrt a) as [r| |] eqn:Er; cbn [obind]; try discriminate. intros [= <-]. apply qsqrt_ok in Er as [Er _].
  unfold cmul, cconj. cbn [fst snd]. split; [|f_equal; ring]. f_equal; [rewrite Er; ring|ring].
Qed.
Lemma znorm_tiny : ztiny z0 = true. Proof. apply ceqb_refl. Qed.
Lemma nosvdl : svdl_ok z0 z1 za zm zc nosvd. Proof. intros t u M H. discriminate. Qed.
Lemma nosvdr : svdr_ok z0 z1 za zm zc nosvd. Proof. intros t u M H. discriminate. Qed.
Lemma nodiag_ok : diag_ok z0 z1 za zm zc nodiag. Proof. intros mx p r rho m U _ H. discriminate. Qed.
Lemma exholds x y i j : holds (expsi x y i j) [ex1 x y i; ex2 j].
Proof. split; [reflexivity|]. intros [|[|k]] Hk; cbn in Hk; [reflexivity|reflexivity|lia]. Qed.
Lemma exproper x y i j : proper [ex1 x y i; ex2 j]. Proof. repeat split. Qed.
Lemma exdims x y i j : forall k t, nth_error [ex1 x y i; ex2 j] k = Some t -> tp t = 2.
Proof. intros [|[|k]] t Hk; cbn in Hk; [injection Hk as <-; reflexivity|injection Hk as <-; reflexivity|destruct k; discriminate]. Qed.
Lemma exgood x y i j : j < 2 -> good z0 z1 za zm zc (expsi x y i j).
Proof.
  intros Hj. split; [reflexivity|]. split; [cbn; lia|]. split; [cbn; lia|]. split; [cbn; lia|]. split.
  - intros k Hk. cbn in Hk. assert (k = 1 \/ k = 2)%Z as [-> | ->] by lia; eexists; (split; [reflexivity|]); cbn; [reflexivity|lia].
  - split; intros k t Hk Et; cbn in Hk; [lia|]. assert (k = 2)%Z as -> by lia. cbn in Et. injection Et as <-.
    intros c c' Hc Hc'. cbn [tl ex2] in Hc, Hc'. apply ceqb_eq. destruct j as [|[|j]]; [| |lia]; destruct c as [|[|c]]; try lia; destruct c' as [|[|c']]; try lia; vm_compute; reflexivity.
Qed.
Lemma exparity n : parity z0 z1 za zm zc n (fun _ => 2) (exop [0]).
Proof.
  intros k _. split; intros s s' Hs Hs'; apply ceqb_eq; (destruct s as [|[|s]]; [| |lia]); (destruct s' as [|[|s']]; [| |lia]); vm_compute; reflexivity.
Qed.
Lemma exodd n o : o = 1 \/ o = 2 -> odd z0 za zm zo n (fun _ => 2) (exop [0]) (exop [o]).
Proof.
  intros Ho k _ s s' Hs Hs'. apply ceqb_eq. destruct Ho as [-> | ->]; (destruct s as [|[|s]]; [| |lia]); (destruct s' as [|[|s']]; [| |lia]); vm_compute; reflexivity.
Qed.

(** <Cdag_i C_j> in the state 3 |01> + 4i |10>, both ways (halving the work and not), and two
    expectation values. *)
Example C56_nonvacuous :
  exists C C' x ex, corrmat true (expsi (zz 3 0) (zz 0 4) 0 1) [2] [1] (0, 0)%Z (Some false) = Ok C /\
   corrmat true (expsi (zz 3 0) (zz 0 4) 0 1) [2] [1] (1, 3)%Z (Some true) = Ok C' /\
   entry C 0 1 = Some x /\ x <> z0 /\ entry C' 1 0 = Some (zc x) /\ zc x <> x /\
   exexpect (expsi (zz 3 0) (zz 0 4) 0 1) [[0]; [2; 1]] [1%Z] = Ok ex /\ entry ex 0 1 <> Some z0 /\
   adjoint_pair zm zc 2 (fun _ => 2) (exop [2]) (exop [1]) /\ norm2 z0 z1 za zm zc [ex1 (zz 3 0) (zz 0 4) 0; ex2 1] <> z0.
Proof.
  set (ps := expsi (zz 3 0) (zz 0 4) 0 1). set (ts := [ex1 (zz 3 0) (zz 0 4) 0; ex2 1]).
  assert (N0 : norm2 z0 z1 za zm zc ts <> z0) by (apply ceqb_neq; vm_compute; reflexivity).
  assert (AD : adjoint_pair zm zc 2 (fun _ => 2) (exop [2]) (exop [1])).
  { exists z1. split; [apply ceqb_eq; vm_compute; reflexivity|]. intros k _ s s' Hs Hs'. apply ceqb_eq. (destruct s as [|[|s]]; [| |lia]); (destruct s' as [|[|s']]; [| |lia]); vm_compute; reflexivity. }
  destruct (corrmat true ps [2] [1] (0, 0)%Z (Some false)) as [C| |] eqn:E1; [|exfalso; vm_compute in E1; discriminate..].
  destruct (corrmat true ps [2] [1] (1, 3)%Z (Some true)) as [C'| |] eqn:E2; [|exfalso; vm_compute in E2; discriminate..].
  destruct (exexpect ps [[0]; [2; 1]] [1%Z]) as [ex| |] eqn:E3; [|exfalso; vm_compute in E3; discriminate..].
  assert (PAR : parity z0 z1 za zm zc 2 (fun _ => 2) (exop [0]) /\ odd z0 za zm zo 2 (fun _ => 2) (exop [0]) (exop [1])) by (split; [apply exparity|apply exodd; auto]).
  pose proof (C56_correlation z0 z1 za zm zs zo zc zd zring
    (conj_0 _ _ _ _ _ _ _ _ _ Qc_ordered) (conj_1 _ _ _ _ _ _ _ _ _ Qc_ordered) (DavProofs.conj_add _ _ _ _ _ _ _ _ _ Qc_ordered) (DavProofs.conj_mul _ _ _ _ _ _ _ _ _ Qc_ordered)
    (DavProofs.conj_conj _ _ _ _ _ _ _ _ _ Qc_ordered) (complex_definite _ _ _ _ _ _ _ _ _ Qc_ordered) (cdiv_mul _ _ _ _ _ _ _ _ _ Qc_ordered)
    nosvd nosvd nodiag znorm nosvdl nosvdr nodiag_ok znorm_ok (fun _ => 2) exbase 0 (fun _ => true) (fun _ _ => false)) as T.
  pose proof (T (fun _ _ => None) ps ts [2] [1] (0, 0)%Z (Some false) C 1%Z 3%Z (exholds _ _ _ _) (exproper _ _ _ _) (fun _ => exgood (zz 3 0) (zz 0 4) 0 1 ltac:(lia)) (exdims _ _ _ _) N0 eq_refl ltac:(lia) ltac:(cbn; lia)
    (fun _ => PAR) ltac:(discriminate) E1) as (S1 & V1).
  pose proof (T (fun _ _ => None) ps ts [2] [1] (1, 3)%Z (Some true) C' 1%Z 3%Z (exholds _ _ _ _) (exproper _ _ _ _) (fun _ => exgood (zz 3 0) (zz 0 4) 0 1 ltac:(lia)) (exdims _ _ _ _) N0 eq_refl ltac:(lia) ltac:(cbn; lia)
    (fun _ => PAR) (fun _ => AD) E2) as (S2 & V2).
  destruct (V1 1%Z 2%Z ltac:(lia) ltac:(lia)) as (x & Ex & Vx). cbn [Z.sub Z.to_nat] in Ex. change (Z.to_nat (1 - 1)) with 0 in Ex. change (Z.to_nat (2 - 1)) with 1 in Ex.
  exists C, C', x, ex. split; [reflexivity|]. split; [reflexivity|]. split; [exact Ex|].
  assert (CX : match corrmat true ps [2] [1] (0, 0)%Z (Some false) with Ok D => match entry D 0 1 with Some y => negb (ceqb y z0) && negb (ceqb (zc y) y) | None => false end | _ => false end = true) by (vm_compute; reflexivity).
  assert (CY : match corrmat true ps [2] [1] (0, 0)%Z (Some false), corrmat true ps [2] [1] (1, 3)%Z (Some true) with Ok D, Ok D' => match entry D 0 1, entry D' 1 0 with Some y, Some y' => ceqb y' (zc y) | _, _ => false end | _, _ => false end = true) by (vm_compute; reflexivity).
  assert (CZ : match exexpect ps [[0]; [2; 1]] [1%Z] with Ok D => match entry D 0 1 with Some y => negb (ceqb y z0) | None => false end | _ => false end = true) by (vm_compute; reflexivity).
  rewrite E1, E2 in CY. rewrite E1 in CX. rewrite E3 in CZ. rewrite Ex in CX, CY. apply andb_true_iff in CX as [CX1 CX2]. apply negb_true_iff in CX1, CX2.
  split; [apply ceqb_neq; assumption|]. split; [|split; [apply ceqb_neq; assumption|split; [reflexivity|split; [|split; [exact AD|exact N0]]]]].
  - destruct (entry C' 1 0) as [y'|]; [|discriminate]. f_equal. now apply ceqb_eq.
  - destruct (entry ex 0 1) as [y|]; [|discriminate]. apply negb_true_iff in CZ. intros [= ->]. rewrite ceqb_refl in CZ. discriminate.
Qed.

(** Finding: without the isHermitian argument, equal operator names halve the work, although
    the table is then Hermitian only for a Hermitian operator.  For the raising operator and the
    state 3 |00> + 4i |11> the lower entry is the conjugate of the right value. *)
Theorem C56_equal_names_refuted : exists psi ts C x,
  holds psi ts /\ proper ts /\ good z0 z1 za zm zc psi /\ (forall k t, nth_error ts k = Some t -> tp t = 2) /\
  corrmat false psi [2] [2] (0, 0)%Z None = Ok C /\ entry C 1 0 = Some x /\
  zm x (norm2 z0 z1 za zm zc ts) <> excorr false ts 2 2 2%Z 1%Z /\ zm (zc x) (norm2 z0 z1 za zm zc ts) = excorr false ts 2 2 2%Z 1%Z.
Proof.
  exists (expsi (zz 3 0) (zz 0 4) 0 0), [ex1 (zz 3 0) (zz 0 4) 0; ex2 0]. set (ps := expsi (zz 3 0) (zz 0 4) 0 0). set (ts := [ex1 (zz 3 0) (zz 0 4) 0; ex2 0]).
  destruct (corrmat false ps [2] [2] (0, 0)%Z None) as [C| |] eqn:E1; [|exfalso; vm_compute in E1; discriminate..].
  assert (CX : match corrmat false ps [2] [2] (0, 0)%Z None with Ok D => match entry D 1 0 with
      Some y => negb (ceqb (zm y (norm2 z0 z1 za zm zc ts)) (excorr false ts 2 2 2%Z 1%Z)) && ceqb (zm (zc y) (norm2 z0 z1 za zm zc ts)) (excorr false ts 2 2 2%Z 1%Z) | None => false end | _ => false end = true) by (vm_compute; reflexivity).
  rewrite E1 in CX. destruct (entry C 1 0) as [x|] eqn:Ex; [|discriminate]. apply andb_true_iff in CX as [X1 X2]. apply negb_true_iff in X1.
  exists C, x. split; [apply exholds|]. split; [apply exproper|]. split; [apply exgood; lia|]. split; [apply exdims|]. split; [reflexivity|]. split; [assumption|].
  split; [apply ceqb_neq; assumption|apply ceqb_eq; assumption].
Qed.

(** Finding: the same for a fermionic operator with itself, where the lower entry has the wrong
    sign even in a real state: <C_2 C_1> = - <C_1 C_2>. *)
Theorem C56_equal_fermions_refuted : exists psi ts C x,
  holds psi ts /\ proper ts /\ good z0 z1 za zm zc psi /\ (forall k t, nth_error ts k = Some t -> tp t = 2) /\
  parity z0 z1 za zm zc 2 (fun _ => 2) (exop [0]) /\ odd z0 za zm zo 2 (fun _ => 2) (exop [0]) (exop [1]) /\
  corrmat true psi [1] [1] (0, 0)%Z None = Ok C /\ entry C 1 0 = Some x /\
  zm x (norm2 z0 z1 za zm zc ts) <> excorr true ts 1 1 2%Z 1%Z /\ zm (zo x) (norm2 z0 z1 za zm zc ts) = excorr true ts 1 1 2%Z 1%Z.
Proof.
  exists (expsi (zz 3 0) (zz 4 0) 0 0), [ex1 (zz 3 0) (zz 4 0) 0; ex2 0]. set (ps := expsi (zz 3 0) (zz 4 0) 0 0). set (ts := [ex1 (zz 3 0) (zz 4 0) 0; ex2 0]).
  destruct (corrmat true ps [1] [1] (0, 0)%Z None) as [C| |] eqn:E1; [|exfalso; vm_compute in E1; discriminate..].
  assert (CX : match corrmat true ps [1] [1] (0, 0)%Z None with Ok D => match entry D 1 0 with
      Some y => negb (ceqb (zm y (norm2 z0 z1 za zm zc ts)) (excorr true ts 1 1 2%Z 1%Z)) && ceqb (zm (zo y) (norm2 z0 z1 za zm zc ts)) (excorr true ts 1 1 2%Z 1%Z) | None => false end | _ => false end = true) by (vm_compute; reflexivity).
  rewrite E1 in CX. destruct (entry C 1 0) as [x|] eqn:Ex; [|discriminate]. apply andb_true_iff in CX as [X1 X2]. apply negb_true_iff in X1.
  exists C, x. split; [apply exholds|]. split; [apply exproper|]. split; [apply exgood; lia|]. split; [apply exdims|]. split; [apply exparity|]. split; [apply exodd; auto|]. split; [reflexivity|]. split; [assumption|].
  split; [apply ceqb_neq; assumption|apply ceqb_eq; assumption].
Qed.
End Example.

Print Assumptions C56_correlation.
Print Assumptions C56_mixed.
Print Assumptions C56_expect.
Print Assumptions C56_returns.
Print Assumptions C56_nonvacuous.
Print Assumptions C56_equal_names_refuted.
Print Assumptions C56_equal_fermions_refuted.
