(** Lemmas for property C73. *)
From Coq Require Import ZArith List Bool Arith Lia Ring Field.
From Verif Require Import Util BigSum MpsModel MpsTensor MpsSpec MpsProofs LocalTensor LocalMeaning LocalSem SweepsModel ApplySpec ApplyModel ApplyProofs DmrgAlg FitSpec FitProofs FapSpec FapModel.
Import ListNotations.
Local Open Scope outcome_scope.
Local Open Scope nat_scope.

Section FapProofs.
Context {R : Type} (r0 r1 : R) (radd rmul rsub : R -> R -> R) (ropp : R -> R) (rdiv : R -> R -> R) (rinv : R -> R) (conj : R -> R).
Context (FT : field_theory r0 r1 radd rmul rsub ropp rdiv rinv eq).
Hypothesis conj0 : conj r0 = r0.
Hypothesis conj1 : conj r1 = r1.
Hypothesis conj_add : forall x y, conj (radd x y) = radd (conj x) (conj y).
Hypothesis conj_mul : forall x y, conj (rmul x y) = rmul (conj x) (conj y).
Hypothesis conj_conj : forall x, conj (conj x) = x.
Let RT := F_R FT.
Add Ring RRfap : RT.
Notation tensor := (@tensor R).
Notation wave := (@wave R).
Notation kten := (kten R).
Notation bsum := (bsum r0 radd).
Notation csum := (csum r0 radd).
Notation lsum := (lsum r0 radd).
Notation chain := (chain r0 r1 radd rmul).
Notation amp := (amplitude r0 r1 radd rmul).
Notation delta := (delta r0 r1).
Notation insert := (insert r0 r1 radd rmul).
Notation tdot := (DmrgAlg.tdot r0 radd rmul conj).
Notation whole := (DmrgAlg.whole r0 r1 radd rmul).
Notation pt := (pt r0 radd rmul).
Notation dagt := (dagt conj).
Notation LO := (left_orth r0 r1 radd rmul conj).
Notation RO := (right_orth r0 r1 radd rmul conj).
Notation dist2 := (dist2 r0 radd rmul rsub conj).
Notation overlap := (overlap r0 radd rmul conj).
Notation lwf := (lwf r0 radd rmul). Notation rwf := (rwf r0 radd rmul).
Notation lenv := (lenv r0 radd rmul). Notation renv := (renv r0 radd rmul).
Notation "x + y" := (radd x y). Notation "x * y" := (rmul x y).
Let ls_ext := @lsum_ext R r0 radd.
Let ls_l := @lsum_mul_l R r0 r1 radd rmul rsub ropp RT.
Let ls_r := @lsum_mul_r R r0 r1 radd rmul rsub ropp RT.
Let ls_conj : forall A (l : list A) f, conj (lsum l f) = lsum l (fun x => conj (f x)).
Proof. intros A l f. induction l as [|x l IH]; cbn [LocalSem.lsum]; [assumption|]. rewrite conj_add, IH. reflexivity. Qed.
Let bs_ls := @bsum_lsum R r0 r1 radd rmul rsub ropp RT.
Let cs_ls := @csum_lsum R r0 r1 radd rmul rsub ropp RT.
Let b1 := fun A B => @br1 R r0 r1 radd rmul rsub ropp RT A B.
Let b2 := fun A B C => @br2 R r0 r1 radd rmul rsub ropp RT A B C.
Let b3 := fun A B C D => @br3 R r0 r1 radd rmul rsub ropp RT A B C D.
Let b4 := fun A B C D E => @br4 R r0 r1 radd rmul rsub ropp RT A B C D E.
Let b5 := fun A B C D E F => @br5 R r0 r1 radd rmul rsub ropp RT A B C D E F.
Let b6 := fun A B C D E F G => @br6 R r0 r1 radd rmul rsub ropp RT A B C D E F G.
Let mul_cg : forall a a' b b' c, a = a' -> b = b' -> a' * b' = c -> a * b = c.
Proof. intros; subst; reflexivity. Qed.
Let conj_cg : forall a a' c, a = a' -> conj a' = c -> conj a = c.
Proof. intros; subst; reflexivity. Qed.
Ltac nmul :=
  lazymatch goal with
  | |- lsum _ _ * _ = _ => etransitivity; [apply ls_r|]; eapply ls_ext; intros; nmul
  | |- _ * lsum _ _ = _ => etransitivity; [apply ls_l|]; eapply ls_ext; intros; nmul
  | |- _ => reflexivity
  end.
Ltac nconj :=
  lazymatch goal with
  | |- conj (lsum _ _) = _ => etransitivity; [apply ls_conj|]; eapply ls_ext; intros; nconj
  | |- conj (_ * _) = _ => etransitivity; [apply conj_mul|]; eapply mul_cg; [nconj|nconj|reflexivity]
  | |- _ => reflexivity
  end.
Ltac norm :=
  lazymatch goal with
  | |- bsum _ _ = _ => etransitivity; [apply bs_ls|]; eapply ls_ext; intros; norm
  | |- csum _ _ = _ => etransitivity; [apply cs_ls|]; eapply ls_ext; intros; norm
  | |- lsum _ _ = _ => eapply ls_ext; intros; norm
  | |- _ * _ = _ => eapply mul_cg; [norm|norm|nmul]
  | |- conj _ = _ => eapply conj_cg; [norm|nconj]
  | |- _ => reflexivity
  end.
Ltac both := etransitivity; [norm|]; symmetry; etransitivity; [norm|]; symmetry.
Ltac pick k :=
  (lazymatch k with
   | 0 => idtac
   | 1 => etransitivity; [|symmetry; apply b1] | 2 => etransitivity; [|symmetry; apply b2]
   | 3 => etransitivity; [|symmetry; apply b3] | 4 => etransitivity; [|symmetry; apply b4]
   | 5 => etransitivity; [|symmetry; apply b5] | 6 => etransitivity; [|symmetry; apply b6] end); apply ls_ext; intros.
Let bprod := bsum_prod r0 r1 radd rmul rsub ropp RT.

Ltac csplit := repeat match goal with |- _ /\ _ => split end.

(** * dag *)
Lemma chain_dag : forall ts c a b, chain (map dagt ts) c a b = conj (chain ts c a b).
Proof.
  assert (D : forall a b, delta a b = conj (delta a b)) by (intros a b; unfold BigSum.delta; destruct (a =? b); auto).
  induction ts as [|t ts IH]; intros [|s c] a b; cbn [map MpsSpec.chain]; [apply D|apply D|apply D|].
  rewrite (bconj r0 radd conj conj0 conj_add). apply (bsum_ext r0 radd). intros e _. rewrite conj_mul, IH. reflexivity.
Qed.
Lemma sites_dag ts : sites (map dagt ts) = sites ts.
Proof. unfold sites. rewrite map_map. reflexivity. Qed.
Lemma linked_dag ts : forall a b, linked a (map dagt ts) b <-> linked a ts b.
Proof. induction ts as [|t ts IH]; intros a b; cbn; [reflexivity|]. rewrite IH. reflexivity. Qed.
Lemma conj_delta a b : conj (delta a b) = delta a b.
Proof. unfold BigSum.delta; destruct (a =? b); auto. Qed.
Lemma LO_dag t : LO t -> LO (dagt t).
Proof.
  intros H c c' Hc Hc'. cbn in Hc, Hc'. cbn [FapSpec.dagt te tl tr tp]. rewrite <- conj_delta, <- (H c c' Hc Hc').
  rewrite (bconj r0 radd conj conj0 conj_add). apply (bsum_ext r0 radd). intros a _.
  rewrite (bconj r0 radd conj conj0 conj_add). apply (bsum_ext r0 radd). intros s _. rewrite conj_mul. reflexivity.
Qed.
Lemma RO_dag t : RO t -> RO (dagt t).
Proof.
  intros H c c' Hc Hc'. cbn in Hc, Hc'. cbn [FapSpec.dagt te tl tr tp]. rewrite <- conj_delta, <- (H c c' Hc Hc').
  rewrite (bconj r0 radd conj conj0 conj_add). apply (bsum_ext r0 radd). intros a _.
  rewrite (bconj r0 radd conj conj0 conj_add). apply (bsum_ext r0 radd). intros s _. rewrite conj_mul. reflexivity.
Qed.

(** * The parts of <Kx|K|x> on either side of a bond *)
Definition Lp (ys ts : list tensor) (j k : nat) : R := csum (sites ts) (fun c => chain ys c 0 j * chain ts c 0 k).
Definition Rp (ys ts : list tensor) (j k : nat) : R := csum (sites ts) (fun c => chain ys c j 0 * chain ts c k 0).

Lemma Rp_cons y ys t ts j k : Rp (y :: ys) (t :: ts) j k =
  bsum (tp t) (fun s => bsum (tr y) (fun j' => bsum (tr t) (fun k' => te y j s j' * te t k s k' * Rp ys ts j' k'))).
Proof.
  unfold Rp. cbn [sites map BigSum.csum]. apply (bsum_ext r0 radd). intros s _. cbn [MpsSpec.chain]. both.
  pick 2. pick 0. pick 0. ring.
Qed.
Lemma chain_snoc ys y c s j D : linked 1 ys D -> length c = length ys -> j < tr y ->
  chain (ys ++ [y]) (c ++ [s]) 0 j = bsum D (fun i => chain ys c 0 i * te y i s j).
Proof.
  intros L LC Hj. rewrite (chain_app r0 r1 radd rmul rsub ropp RT ys c [y] [s] 1 D 0 j L LC ltac:(lia)).
  apply (bsum_ext r0 radd). intros i _. f_equal. cbn [MpsSpec.chain]. exact (delta_sum r0 r1 radd rmul rsub ropp RT (tr y) j (te y i s) Hj).
Qed.
Lemma Lp_snoc ys y ts t j k D d : linked 1 ys D -> linked 1 ts d -> length ys = length ts -> j < tr y -> k < tr t ->
  Lp (ys ++ [y]) (ts ++ [t]) j k =
  bsum (tp t) (fun s => bsum D (fun j' => bsum d (fun k' => te y j' s j * te t k' s k * Lp ys ts j' k'))).
Proof.
  intros LY LT LN Hj Hk. unfold Lp. unfold sites at 1. rewrite map_app, (csum_app r0 radd). cbn [map BigSum.csum].
  transitivity (csum (sites ts) (fun c => bsum (tp t) (fun s => bsum D (fun i => chain ys c 0 i * te y i s j) * bsum d (fun i => chain ts c 0 i * te t i s k)))).
  - apply (csum_ext r0 radd). intros c Hc. apply (F2len) in Hc. unfold sites in Hc. rewrite map_length in Hc.
    apply (bsum_ext r0 radd). intros s _. rewrite (chain_snoc ys y c s j D), (chain_snoc ts t c s k d); auto. congruence.
  - both. pick 3. pick 0. pick 0. pick 0. ring.
Qed.

(** * The environments *)
Definition Lok (ys ts : list tensor) (da dw dk : nat) (e : env) : Prop :=
  forall a w k, a < da -> w < dw -> k < dk -> e a w k = Lp ys ts (a + da * w)%nat k.
Definition Rok (ys ts : list tensor) (da dw dk : nat) (e : env) : Prop :=
  forall a w k, a < da -> w < dw -> k < dk -> e a w k = Rp ys ts (a + da * w)%nat k.

Lemma pair_lt a m w n : a < m -> w < n -> (a + m * w < m * n)%nat.
Proof. intros. nia. Qed.
Lemma lenv_ok e x K ys ts t : linked 1 ys (tl x * kl K) -> linked 1 ts (tl t) -> length ys = length ts -> tp t = ko K ->
  Lok ys ts (tl x) (kl K) (tl t) e -> Lok (ys ++ [pt (x, K)]) (ts ++ [t]) (tr x) (kr K) (tr t) (lenv (lwf e x K) t).
Proof.
  intros LY LT LN HP HE b v k' Hb Hv Hk. rewrite (Lp_snoc ys (pt (x, K)) ts t _ _ (tl x * kl K) (tl t)); auto;
    [|cbn [ApplyProofs.pt tr]; now apply pair_lt].
  unfold FapModel.lenv, FapModel.lwf.
  transitivity (bsum (tp t) (fun s => bsum (kl K) (fun w => bsum (tl x) (fun a => bsum (tl t) (fun k =>
     bsum (tp x) (fun s0 => te x a s0 b * ke K w s0 s v) * te t k s k' * e a w k))))).
  - both. pick 3. pick 0. pick 0. pick 1. pick 0. ring.
  - apply (bsum_ext r0 radd). intros s _. rewrite bprod. apply (bsum_ext r0 radd). intros w Hw. apply (bsum_ext r0 radd). intros a Ha.
    apply (bsum_ext r0 radd). intros k Hk'. rewrite HE by assumption. rewrite (pt_te r0 radd rmul) by assumption. reflexivity.
Qed.
Lemma renv_ok e x K ys ts t : tp t = ko K ->
  Rok ys ts (tr x) (kr K) (tr t) e -> Rok (pt (x, K) :: ys) (t :: ts) (tl x) (kl K) (tl t) (renv (rwf e x K) t).
Proof.
  intros HP HE a w k Ha Hw Hk. rewrite Rp_cons. unfold FapModel.renv, FapModel.rwf.
  transitivity (bsum (tp t) (fun s => bsum (kr K) (fun v => bsum (tr x) (fun b => bsum (tr t) (fun k' =>
     bsum (tp x) (fun s0 => te x a s0 b * ke K w s0 s v) * te t k s k' * e b v k'))))).
  - both. pick 3. pick 0. pick 0. pick 1. pick 0. ring.
  - apply (bsum_ext r0 radd). intros s _. cbn [ApplyProofs.pt tr]. rewrite bprod. apply (bsum_ext r0 radd). intros v Hv. apply (bsum_ext r0 radd). intros b Hb.
    apply (bsum_ext r0 radd). intros k' Hk'. rewrite HE by assumption.
    change (te (mkT _ _ _ _ _)) with (te (pt (x, K))). rewrite (pt_te r0 radd rmul) by assumption. reflexivity.
Qed.

(** * Projection onto the states with the other tensors fixed *)
Lemma insert_cross TL TR YL YR dl dr Dl Dr ps v psi :
  csum (sites TL) (fun cL => csum ps (fun c => csum (sites TR) (fun cR =>
    conj (insert (map dagt TL) (map dagt TR) dl dr v cL c cR) * insert YL YR Dl Dr psi cL c cR))) =
  tdot dl ps dr v (fun a c b => bsum Dl (fun j => bsum Dr (fun j' => Lp YL TL j a * psi j c j' * Rp YR TR j' b))).
Proof.
  unfold LocalMeaning.insert, DmrgAlg.tdot, Lp, Rp. both.
  pick 5. pick 1. pick 4. pick 0. pick 0. pick 0. pick 0. rewrite !chain_dag, !conj_conj. ring.
Qed.
Lemma chain2 (y1 y2 : tensor) s s' j j' : j' < tr y2 ->
  chain [y1; y2] [s; s'] j j' = bsum (tr y1) (fun e => te y1 j s e * te y2 e s' j').
Proof.
  intros H. cbn [MpsSpec.chain]. apply (bsum_ext r0 radd). intros e _. f_equal.
  exact (delta_sum r0 r1 radd rmul rsub ropp RT (tr y2) j' (te y2 e s') H).
Qed.
Lemma wf_ok fac el er x1 K1 x2 K2 YL YR TL TR dl dr k s s' k' :
  Lok YL TL (tl x1) (kl K1) dl el -> Rok YR TR (tr x2) (kr K2) dr er -> tr x1 = tl x2 -> kr K1 = kl K2 -> k < dl -> k' < dr ->
  fac * bsum (tr x1) (fun b => bsum (kr K1) (fun v => lwf el x1 K1 k s b v * rwf er x2 K2 k' s' b v)) =
  fac * bsum (tl x1 * kl K1) (fun j => bsum (tr x2 * kr K2) (fun j' => Lp YL TL j k * chain [pt (x1, K1); pt (x2, K2)] [s; s'] j j' * Rp YR TR j' k')).
Proof.
  intros HL HR E1 E2 Hk Hk'. f_equal.
  transitivity (bsum (kl K1) (fun w => bsum (tl x1) (fun a => bsum (kr K2) (fun v2 => bsum (tr x2) (fun b2 =>
    el a w k * bsum (kr K1) (fun v => bsum (tr x1) (fun b => bsum (tp x1) (fun s0 => te x1 a s0 b * ke K1 w s0 s v) * bsum (tp x2) (fun t0 => te x2 b t0 b2 * ke K2 v t0 s' v2)))
     * er b2 v2 k'))))).
  - unfold FapModel.lwf, FapModel.rwf. both. pick 5. pick 4. pick 0. pick 3. pick 0. pick 0. pick 1. pick 0. ring.
  - rewrite bprod. apply (bsum_ext r0 radd). intros w Hw. apply (bsum_ext r0 radd). intros a Ha.
    rewrite bprod. apply (bsum_ext r0 radd). intros v2 Hv2. apply (bsum_ext r0 radd). intros c2 Hc2.
    rewrite HL, HR by assumption. f_equal. f_equal. rewrite chain2 by (cbn [ApplyProofs.pt tr]; now apply pair_lt).
    change (tr (pt (x1, K1))) with (tr x1 * kr K1)%nat. rewrite bprod. apply (bsum_ext r0 radd). intros v Hv. apply (bsum_ext r0 radd). intros b Hb.
    rewrite (pt_te r0 radd rmul) by assumption. f_equal. rewrite E1 in *. now rewrite (pt_te r0 radd rmul) by assumption.
Qed.

(** * Segments of a chain *)
Definition sg {A} (f : nat -> A) (i n : nat) : list A := map f (seq i n).
Lemma sg_ext {A} (f g : nat -> A) i n : (forall j, i <= j < (i + n)%nat -> f j = g j) -> sg f i n = sg g i n.
Proof. intros H. apply map_ext_in. intros j Hj. apply in_seq in Hj. apply H. lia. Qed.
Lemma sg_snoc {A} (f : nat -> A) i n : sg f i (S n) = sg f i n ++ [f (i + n)%nat].
Proof. unfold sg. rewrite seq_S, map_app. reflexivity. Qed.
Lemma sg_len {A} (f : nat -> A) i n : length (sg f i n) = n.
Proof. unfold sg. now rewrite map_length, seq_length. Qed.
Lemma sg_cut {A} (f : nat -> A) n b : 1 <= b < n -> sg f 1 n = sg f 1 (b - 1) ++ [f b; f (b + 1)%nat] ++ sg f (b + 2)%nat (n - b - 1).
Proof.
  intros H. unfold sg. replace n with ((b - 1) + (2 + (n - b - 1)))%nat at 1 by lia. rewrite seq_app, map_app. f_equal.
  rewrite seq_app, map_app. replace (1 + (b - 1))%nat with b by lia. cbn [seq map]. now rewrite Nat.add_1_r.
Qed.
Lemma sg_map {A B} (g : A -> B) (f : nat -> A) i n : map g (sg f i n) = sg (fun j => g (f j)) i n.
Proof. unfold sg. apply map_map. Qed.
Lemma linked_sg (f : nat -> tensor) n : forall i, (forall j, i <= j < (i + n)%nat -> tr (f j) = tl (f (S j))) -> linked (tl (f i)) (sg f i (S n)) (tr (f (i + n)%nat)).
Proof.
  induction n as [|n IH]; intros i H; [cbn; rewrite Nat.add_0_r; auto|].
  change (sg f i (S (S n))) with (f i :: sg f (S i) (S n)). cbn [linked]. split; [reflexivity|].
  rewrite (H i) by lia. replace (i + S n)%nat with (S i + n)%nat by lia. apply IH. intros j Hj. apply H. lia.
Qed.
Lemma sg_linked (f : nat -> tensor) n : forall i a b, linked a (sg f i (S n)) b -> tl (f i) = a /\ tr (f (i + n)%nat) = b /\ forall j, i <= j < (i + n)%nat -> tr (f j) = tl (f (S j)).
Proof.
  induction n as [|n IH]; intros i a b H.
  - cbn in H. rewrite Nat.add_0_r. destruct H. csplit; auto. intros; lia.
  - change (sg f i (S (S n))) with (f i :: sg f (S i) (S n)) in H. destruct H as [H1 H]. destruct (IH _ _ _ H) as (A & B & C).
    split; [assumption|]. replace (i + S n)%nat with (S i + n)%nat by lia. split; [assumption|].
    intros j Hj. destruct (Nat.eq_dec j i) as [->|]; [congruence|]. apply C. lia.
Qed.
Lemma ksg_linked (f : nat -> kten) n : forall i a b, klinked a (sg f i (S n)) b -> kl (f i) = a /\ kr (f (i + n)%nat) = b /\ forall j, i <= j < (i + n)%nat -> kr (f j) = kl (f (S j)).
Proof.
  induction n as [|n IH]; intros i a b H.
  - cbn in H. rewrite Nat.add_0_r. destruct H. csplit; auto. intros; lia.
  - change (sg f i (S (S n))) with (f i :: sg f (S i) (S n)) in H. destruct H as [H1 H]. destruct (IH _ _ _ H) as (A & B & C).
    split; [assumption|]. replace (i + S n)%nat with (S i + n)%nat by lia. split; [assumption|].
    intros j Hj. destruct (Nat.eq_dec j i) as [->|]; [congruence|]. apply C. lia.
Qed.

Context (N : nat) (HN : 2 <= N).
(** Pointwise: the links of the tensors 1..N match. *)
Definition link (f : nat -> tensor) : Prop := tl (f 1) = 1 /\ tr (f N) = 1 /\ forall j, 1 <= j < N -> tr (f j) = tl (f (S j)).
Lemma link_iff f : linked 1 (sg f 1 N) 1 <-> link f.
Proof.
  unfold link. assert (E : exists m, N = S m) by (exists (N - 1); lia). destruct E as [m Em]. rewrite Em. split.
  - intros H. apply sg_linked in H. exact H.
  - intros (A & B & C). pose proof (linked_sg f m 1 C) as Q. rewrite A in Q. change (1 + m)%nat with (S m) in Q. rewrite B in Q. exact Q.
Qed.
Lemma link_left f j : link f -> j < N -> linked 1 (sg f 1 j) (tl (f (S j))).
Proof.
  intros (A & B & C) H. destruct j as [|j]; [cbn; congruence|]. rewrite <- (C (S j)) by lia.
  pose proof (linked_sg f j 1 ltac:(intros i Hi; apply C; lia)) as Q. rewrite A in Q. exact Q.
Qed.
Lemma link_right f j : link f -> 2 <= j <= (N + 1)%nat -> linked (tr (f (j - 1))) (sg f j (N + 1 - j)%nat) 1.
Proof.
  intros (A & B & C) H. destruct (Nat.eq_dec j (N + 1)%nat) as [->|].
  - rewrite Nat.sub_diag. cbn. replace (N + 1 - 1)%nat with N by lia. assumption.
  - rewrite (C (j - 1)) by lia. replace (S (j - 1)) with j by lia. 
    pose proof (linked_sg f (N - j) j ltac:(intros i Hi; apply C; lia)) as Q.
    replace (N + 1 - j)%nat with (S (N - j)) by lia. replace (j + (N - j))%nat with N in Q by lia. rewrite B in Q. exact Q.
Qed.
Lemma link_ext f g : (forall j, 1 <= j <= N -> tl (f j) = tl (g j) /\ tr (f j) = tr (g j)) -> link f -> link g.
Proof.
  intros H (A & B & C). unfold link. csplit.
  - rewrite <- (proj1 (H 1 ltac:(lia))). assumption.
  - rewrite <- (proj2 (H N ltac:(lia))). assumption.
  - intros j Hj. rewrite <- (proj2 (H j ltac:(lia))), <- (proj1 (H (S j) ltac:(lia))). now apply C.
Qed.

Context (fac : R) (x : nat -> tensor) (K : nat -> kten).
Context (XP : proper (tensors x N)) (KP : kproper (tensors K N)).
Context (split : nat -> nat -> bool -> wave -> outcome (tensor * tensor)).
(** An exact factorisation up to a factor k, about which [good] is known. *)
Context (good : wave -> R -> Prop) (SE : forall sw b d w p q, split sw b d w = Ok (p, q) ->
  tl p = wl w /\ tp p = wp1 w /\ tp q = wp2 w /\ tr q = wr w /\ tr p = tl q /\ exists k, good w k /\
  forall a s s' e, a < wl w -> s < wp1 w -> s' < wp2 w -> e < wr w -> bsum (tr p) (fun c => te p a s c * te q c s' e) = k * we w a s s' e).
Context (SLo : forall sw b, splitl_ok r0 r1 radd rmul conj (split sw b true)).
Context (SRo : forall sw b, splitr_ok r0 r1 radd rmul conj (split sw b false)).
Definition Y (j : nat) : tensor := pt (x j, K j).
Definition D : list nat := sg (fun j => ko (K j)) 1 N.
Lemma link_x : link x. Proof. apply link_iff. exact XP. Qed.
Lemma link_k : kl (K 1) = 1 /\ kr (K N) = 1 /\ forall j, 1 <= j < N -> kr (K j) = kl (K (S j)).
Proof.
  assert (E : exists m, N = S m) by (exists (N - 1); lia). destruct E as [m Em].
  assert (H : klinked 1 (sg K 1 N) 1) by exact KP. rewrite Em in *. apply ksg_linked in H. exact H.
Qed.
Lemma link_Y : link Y.
Proof.
  destruct link_x as (A & B & C), link_k as (A' & B' & C'). unfold link, Y. cbn [ApplyProofs.pt tl tr]. csplit; [rewrite A, A'; reflexivity|rewrite B, B'; reflexivity|].
  intros j Hj. rewrite C, C' by assumption. reflexivity.
Qed.
Lemma sites_Y i n : sites (sg Y i n) = sg (fun j => ko (K j)) i n.
Proof. unfold sites. rewrite sg_map. reflexivity. Qed.
Definition target (c : list nat) : R := fac * applied r0 r1 radd rmul (tensors K N) (tensors x N) c.
Lemma combine_sg {A B} (f : nat -> A) (g : nat -> B) i n : List.combine (sg f i n) (sg g i n) = sg (fun j => (f j, g j)) i n.
Proof. revert i. induction n as [|n IH]; intros i; [reflexivity|]. cbn. f_equal. apply IH. Qed.
Lemma target_amp c : length c = N -> target c = fac * amp (sg Y 1 N) c.
Proof.
  intros H. unfold target. f_equal. rewrite <- (amplitude_pt r0 r1 radd rmul rsub ropp RT (tensors x N) (tensors K N) c).
  - unfold tensors. fold (@sg tensor x 1 N). fold (@sg kten K 1 N). rewrite combine_sg, sg_map. reflexivity.
  - unfold tensors. now rewrite !map_length.
  - exact XP.
  - exact KP.
  - unfold tensors. now rewrite map_length, seq_length.
Qed.

(** * The invariant of the sweep *)
Record Inv (l r : nat) (s : fstate) : Prop := mkInv {
  i_link : link (fkx s);
  i_site : forall j, 1 <= j <= N -> tp (fkx s j) = ko (K j);
  i_lo : forall j, 1 <= j < l -> LO (fkx s j);
  i_ro : forall j, r < j <= N -> RO (fkx s j);
  i_L : forall j, j < l -> j < N -> Lok (sg Y 1 j) (sg (fkx s) 1 j) (tl (x (S j))) (kl (K (S j))) (tl (fkx s (S j))) (fE s j);
  i_R : forall j, r < j <= (N + 1)%nat -> 2 <= j -> Rok (sg Y j (N + 1 - j)%nat) (sg (fkx s) j (N + 1 - j)%nat) (tr (x (j - 1))) (kr (K (j - 1))) (tr (fkx s (j - 1))) (fE s j) }.
Lemma Inv_weak l r l' r' s : Inv l r s -> l' <= l -> r <= r' -> Inv l' r' s.
Proof. intros [A B C E F G] H1 H2. constructor; auto; intros; [apply C|apply E|apply F|apply G]; lia. Qed.

Definition dk (s : fstate) (j : nat) : tensor := dagt (fkx s j).
Definition st (s : fstate) : list nat -> R := amp (sg (dk s) 1 N).
(** No state that differs in the two tensors at b and b+1 only is closer. *)
Definition closest (b : nat) (f : nat -> tensor) : Prop :=
  forall p q, tl p = tl (f b) -> tp p = tp (f b) -> tr p = tl q -> tp q = tp (f (b + 1)%nat) -> tr q = tr (f (b + 1)%nat) ->
    dist2 D target (amp (sg (upd (upd f b p) (b + 1)%nat q) 1 N)) =
    dist2 D target (amp (sg f 1 N)) + dist2 D (amp (sg f 1 N)) (amp (sg (upd (upd f b p) (b + 1)%nat q) 1 N)).

Lemma overlap_sub ds u v w : overlap ds (fun c => rsub (u c) (v c)) w = rsub (overlap ds u w) (overlap ds v w).
Proof.
  unfold FitSpec.overlap. transitivity (csum ds (fun c => conj (u c) * w c + ropp r1 * (conj (v c) * w c))).
  - apply (csum_ext r0 radd). intros c _. rewrite (FitProofs.conj_sub r0 r1 radd rmul rsub ropp rdiv rinv conj FT conj_add). ring.
  - rewrite (csum_add r0 r1 radd rmul rsub ropp RT), (csum_mul_l r0 r1 radd rmul rsub ropp RT). ring.
Qed.
Lemma dist2_ext ds u u' v v' : (forall c, Forall2 lt c ds -> u c = u' c) -> (forall c, Forall2 lt c ds -> v c = v' c) -> dist2 ds u v = dist2 ds u' v'.
Proof. intros A B. unfold FitSpec.dist2. apply (csum_ext r0 radd). intros c Hc. rewrite A, B by assumption. reflexivity. Qed.

Lemma overlap_ext ds u u' v v' : (forall c, Forall2 lt c ds -> u c = u' c) -> (forall c, Forall2 lt c ds -> v c = v' c) -> overlap ds u v = overlap ds u' v'.
Proof. intros A B. unfold FitSpec.overlap. apply (csum_ext r0 radd). intros c Hc. rewrite A, B by assumption. reflexivity. Qed.
Notation wsq := (wsq r0 radd rmul conj).
Notation tdot_scale := (DmrgAlg.tdot_scale r0 r1 radd rmul rsub ropp conj RT).
Notation tdot_conj := (DmrgAlg.tdot_conj r0 r1 radd rmul rsub ropp conj RT conj0 conj_add conj_mul conj_conj).

Section Bond.
Context (s : fstate) (b : nat) (Hb : 1 <= b < N) (I : Inv b (b + 1)%nat s).
Let kx := fkx s.
Let TL := sg kx 1 (b - 1).
Let TR := sg kx (b + 2)%nat (N - b - 1).
Let dl := tl (kx b).
Let dr := tr (kx (b + 1)%nat).
Let ps := [ko (K b); ko (K (b + 1)%nat)].
Let DL := map dagt TL.
Let DR := map dagt TR.
Let l := lwf (fE s (b - 1)) (x b) (K b).
Let r := rwf (fE s (b + 2)%nat) (x (b + 1)%nat) (K (b + 1)%nat).
Definition mid (a : nat) (c : list nat) (e : nat) : R :=
  fac * bsum (tr (x b)) (fun i => bsum (kr (K b)) (fun v => l a (nth 0 c 0) i v * r e (nth 1 c 0) i v)).
Notation big v := (whole DL DR 2 dl dr v).

Lemma sites_kx (f : nat -> tensor) i n : (forall j, 1 <= j <= N -> tp (f j) = ko (K j)) -> 1 <= i -> (i + n <= N + 1)%nat -> sites (sg f i n) = sg (fun j => ko (K j)) i n.
Proof. intros H H1 H2. unfold sites. rewrite sg_map. apply sg_ext. intros j Hj. apply H. lia. Qed.
Lemma D_cut : D = sites DL ++ ps ++ sites DR.
Proof.
  unfold DL, DR, TL, TR. rewrite !sites_dag. unfold D. rewrite (sg_cut _ N b Hb).
  rewrite !(sites_kx kx); try apply (i_site _ _ _ I); try lia. reflexivity.
Qed.
Lemma link_TL : linked 1 TL dl.
Proof. unfold TL, dl. pose proof (link_left kx (b - 1) (i_link _ _ _ I) ltac:(lia)) as Q. replace (S (b - 1)) with b in Q by lia. exact Q. Qed.
Lemma link_TR : linked dr TR 1.
Proof.
  unfold TR, dr. pose proof (link_right kx (b + 2)%nat (i_link _ _ _ I) ltac:(lia)) as Q.
  replace (b + 2 - 1)%nat with (b + 1)%nat in Q by lia. replace (N + 1 - (b + 2))%nat with (N - b - 1) in Q by lia. exact Q.
Qed.
Lemma cross v : overlap D (big v) target = tdot dl ps dr v mid.
Proof.
  pose (YL := sg Y 1 (b - 1)). pose (YR := sg Y (b + 2)%nat (N - b - 1)).
  assert (LYL : linked 1 YL (tl (x b) * kl (K b))%nat).
  { pose proof (link_left Y (b - 1) link_Y ltac:(lia)) as Q. replace (S (b - 1)) with b in Q by lia. exact Q. }
  assert (LY2 : linked (tl (x b) * kl (K b)) [Y b; Y (b + 1)%nat] (tr (x (b + 1)%nat) * kr (K (b + 1)%nat))).
  { cbn [linked]. split; [reflexivity|]. split; [|reflexivity]. symmetry. rewrite Nat.add_1_r. now apply link_Y. }
  unfold FitSpec.overlap. rewrite D_cut, confs_app_sum.
  transitivity (csum (sites TL) (fun cL => csum ps (fun c => csum (sites TR) (fun cR =>
    conj (insert DL DR dl dr v cL c cR) * insert YL YR (tl (x b) * kl (K b)) (tr (x (b + 1)%nat) * kr (K (b + 1)%nat))
      (fun j c j' => fac * chain [Y b; Y (b + 1)%nat] c j j') cL c cR)))).
  - unfold DL, DR. rewrite !sites_dag.
    apply (csum_ext r0 radd). intros cL HL. apply (csum_ext r0 radd). intros c Hc. apply (csum_ext r0 radd). intros cR HR.
    apply F2len in HL, Hc, HR. unfold sites in HL, HR. rewrite map_length in HL, HR.
    rewrite whole_app by (rewrite ?map_length; assumption). f_equal.
    rewrite (insert_scale r0 r1 radd rmul rsub ropp RT). rewrite (insert_chain r0 r1 radd rmul rsub ropp RT); auto.
    + unfold YL, YR. rewrite <- (sg_cut Y N b Hb). apply target_amp. rewrite !app_length, HL, Hc, HR. unfold TL, TR. rewrite !sg_len. cbn. lia.
    + unfold YL. rewrite HL. unfold TL. now rewrite !sg_len.
  - unfold DL, DR. rewrite insert_cross. apply (tdot_ext r0 radd rmul conj); [reflexivity|]. intros a c e Ha Hc He.
    inversion Hc as [|s1 ? c' ? _ Hc']; subst. inversion Hc' as [|s2 ? c'' ? _ Hc'']; subst. inversion Hc''; subst.
    unfold mid. cbn [nth]. unfold l, r. rewrite (wf_ok fac _ _ _ _ _ _ YL YR TL TR dl dr).
    + unfold Y. both. pick 0. pick 0. ring.
    + pose proof (i_L _ _ _ I (b - 1) ltac:(lia) ltac:(lia)) as Q. replace (S (b - 1)) with b in Q by lia. exact Q.
    + pose proof (i_R _ _ _ I (b + 2)%nat ltac:(lia) ltac:(lia)) as Q. replace (b + 2 - 1)%nat with (b + 1)%nat in Q by lia.
      replace (N + 1 - (b + 2))%nat with (N - b - 1) in Q by lia. exact Q.
    + rewrite Nat.add_1_r. now apply link_x.
    + rewrite Nat.add_1_r. now apply link_k.
    + assumption.
    + assumption.
Qed.
Lemma dots u v : overlap D (big u) (big v) = tdot dl ps dr u v.
Proof.
  rewrite D_cut. apply (dot_whole r0 r1 radd rmul rsub ropp conj RT conj0 conj1 conj_add conj_mul DL DR ps).
  - apply linked_dag, link_TL.
  - apply linked_dag, link_TR.
  - unfold DL, TL. rewrite sg_map. apply Forall_forall. intros t Ht. apply in_map_iff in Ht as (j & <- & Hj). apply in_seq in Hj.
    apply LO_dag, (i_lo _ _ _ I). lia.
  - unfold DR, TR. rewrite sg_map. apply Forall_forall. intros t Ht. apply in_map_iff in Ht as (j & <- & Hj). apply in_seq in Hj.
    apply RO_dag, (i_ro _ _ _ I). lia.
Qed.
Lemma best v : dist2 D target (big v) = dist2 D target (big mid) + dist2 D (big mid) (big v).
Proof.
  apply (pythagoras r0 r1 radd rmul rsub ropp rdiv rinv conj FT conj0 conj_add conj_mul conj_conj).
  rewrite !overlap_sub, !cross, !dots. reflexivity.
Qed.
(** The state with tensors p, q at b, b+1. *)
Lemma put_cut (f : nat -> tensor) p q : (forall j, 1 <= j <= N -> j <> b -> j <> (b + 1)%nat -> f j = dk s j) ->
  sg (upd (upd f b p) (b + 1)%nat q) 1 N = DL ++ [p; q] ++ DR.
Proof.
  intros H. rewrite (sg_cut _ N b Hb). unfold DL, DR, TL, TR. rewrite !sg_map. f_equal; [|f_equal].
  - apply sg_ext. intros j Hj. unfold upd. rewrite !(proj2 (Nat.eqb_neq _ _)) by lia. apply H; lia.
  - unfold upd. rewrite !Nat.eqb_refl. replace (b =? b + 1)%nat with false by (symmetry; apply Nat.eqb_neq; lia). reflexivity.
  - apply sg_ext. intros j Hj. unfold upd. rewrite !(proj2 (Nat.eqb_neq _ _)) by lia. apply H; lia.
Qed.
Lemma put_big p q c : tl p = dl -> tp p = ko (K b) -> tr p = tl q -> tp q = ko (K (b + 1)%nat) -> tr q = dr -> Forall2 lt c D ->
  amp (DL ++ [p; q] ++ DR) c = big (fun a c e => chain [p; q] c a e) c.
Proof.
  intros A1 A2 A3 A4 A5 Hc. symmetry. apply (whole_chain r0 r1 radd rmul rsub ropp RT DL [p; q] DR).
  - apply linked_dag, link_TL.
  - cbn. auto.
  - rewrite D_cut in Hc. cbn [sites map]. rewrite A2, A4. exact Hc.
Qed.

(** Two new tensors and the environment between them. *)
Lemma inv_put (ha : Z) (s' : fstate) p q : fkx s' = upd (upd kx b p) (b + 1)%nat q ->
  tl p = dl -> tp p = ko (K b) -> tr p = tl q -> tp q = ko (K (b + 1)%nat) -> tr q = dr ->
  (ha = 1%Z -> LO p /\ fE s' = upd (fE s) b (lenv l p)) -> (ha <> 1%Z -> RO q /\ fE s' = upd (fE s) (b + 1)%nat (renv r q)) ->
  Inv (if (ha =? 1)%Z then b + 1 else b)%nat (if (ha =? 1)%Z then b + 1 else b)%nat s'.
Proof.
  intros F A1 A2 A3 A4 A5 G1 G2.
  assert (Fb : fkx s' b = p) by (rewrite F; unfold upd; rewrite Nat.eqb_refl; replace (b =? b + 1)%nat with false by (symmetry; apply Nat.eqb_neq; lia); reflexivity).
  assert (Fb1 : fkx s' (b + 1)%nat = q) by (rewrite F; unfold upd; rewrite Nat.eqb_refl; reflexivity).
  assert (Fo : forall j, j <> b -> j <> (b + 1)%nat -> fkx s' j = kx j).
  { intros j H1 H2. rewrite F. unfold upd. rewrite !(proj2 (Nat.eqb_neq _ _)) by assumption. reflexivity. }
  assert (LK : link (fkx s')).
  { destruct (i_link _ _ _ I) as (L1 & L2 & L3). fold kx in L1, L2, L3. unfold link. csplit.
    - destruct (Nat.eq_dec b 1) as [Eb|]; [rewrite <- Eb, Fb, A1; unfold dl; rewrite Eb; exact L1|]. rewrite Fo by lia. exact L1.
    - destruct (Nat.eq_dec (b + 1)%nat N) as [Eb|]; [rewrite <- Eb, Fb1, A5; unfold dr; rewrite Eb; exact L2|]. rewrite Fo by lia. exact L2.
    - intros j Hj. destruct (Nat.eq_dec j b) as [->|].
      + rewrite Fb. replace (S b) with (b + 1)%nat by lia. rewrite Fb1. exact A3.
      + destruct (Nat.eq_dec j (b + 1)%nat) as [->|].
        * rewrite Fb1, Fo, A5 by lia. unfold dr. now apply L3.
        * rewrite (Fo j) by lia. destruct (Nat.eq_dec (S j) b) as [Eb|].
          -- rewrite Eb, Fb, A1. unfold dl. rewrite <- Eb. now apply L3.
          -- rewrite Fo by lia. now apply L3. }
  assert (ST : forall j, 1 <= j <= N -> tp (fkx s' j) = ko (K j)).
  { intros j Hj. destruct (Nat.eq_dec j b) as [->|]; [rewrite Fb; exact A2|]. destruct (Nat.eq_dec j (b + 1)%nat) as [->|]; [rewrite Fb1; exact A4|].
    rewrite Fo by assumption. now apply (i_site _ _ _ I). }
  assert (TLs : forall j, 1 <= j <= b -> tl (fkx s' j) = tl (kx j)).
  { intros j Hj. destruct (Nat.eq_dec j b) as [->|]; [rewrite Fb; exact A1|]. rewrite Fo by lia. reflexivity. }
  assert (TRs : forall j, b + 1 <= j <= N -> tr (fkx s' j) = tr (kx j)).
  { intros j Hj. destruct (Nat.eq_dec j (b + 1)%nat) as [->|]; [rewrite Fb1; exact A5|]. rewrite Fo by lia. reflexivity. }
  assert (SL : forall j, j < b -> sg (fkx s') 1 j = sg kx 1 j) by (intros j Hj; apply sg_ext; intros; apply Fo; lia).
  assert (SR : forall j n, b + 2 <= j -> sg (fkx s') j n = sg kx j n) by (intros j n Hj; apply sg_ext; intros; apply Fo; lia).
  assert (LL : forall e j, j < b -> e = fE s j -> Lok (sg Y 1 j) (sg (fkx s') 1 j) (tl (x (S j))) (kl (K (S j))) (tl (fkx s' (S j))) e).
  { intros e j Hj ->. rewrite (SL j) by lia. rewrite (TLs (S j)) by lia. apply (i_L _ _ _ I); lia. }
  assert (RR : forall e j, b + 2 <= j -> j <= N + 1 -> e = fE s j -> Rok (sg Y j (N + 1 - j)%nat) (sg (fkx s') j (N + 1 - j)%nat) (tr (x (j - 1))) (kr (K (j - 1))) (tr (fkx s' (j - 1))) e).
  { intros e j Hj Hj' ->. rewrite (SR j) by lia. rewrite (TRs (j - 1)) by lia. apply (i_R _ _ _ I); lia. }
  destruct (Z.eqb_spec ha 1) as [H1|H1].
  - destruct (G1 H1) as [O FE]. constructor; auto.
    + intros j Hj. destruct (Nat.eq_dec j b) as [->|]; [rewrite Fb; exact O|]. rewrite Fo by lia. apply (i_lo _ _ _ I). lia.
    + intros j Hj. rewrite Fo by lia. apply (i_ro _ _ _ I). lia.
    + intros j Hj Hj'. rewrite FE. unfold upd. destruct (Nat.eqb_spec j b) as [->|]; [|apply LL; [lia|reflexivity]].
      replace (sg Y 1 b) with (sg Y 1 (b - 1) ++ [Y b]) by (replace b with (S (b - 1)) at 3 by lia; rewrite sg_snoc; do 3 f_equal; lia).
      replace (sg (fkx s') 1 b) with (TL ++ [p]).
      2:{ unfold TL. rewrite <- (SL (b - 1)) by lia. pose proof (sg_snoc (fkx s') 1 (b - 1)) as Q. replace (S (b - 1)) with b in Q by lia.
          replace (1 + (b - 1))%nat with b in Q by lia. rewrite Fb in Q. symmetry. exact Q. }
      replace (tl (x (S b))) with (tr (x b)) by now apply link_x. replace (kl (K (S b))) with (kr (K b)) by now apply link_k.
      replace (tl (fkx s' (S b))) with (tr p) by (rewrite A3; replace (S b) with (b + 1)%nat by lia; now rewrite Fb1).
      unfold Y at 2, l. apply lenv_ok.
      * pose proof (link_left Y (b - 1) link_Y ltac:(lia)) as Q. replace (S (b - 1)) with b in Q by lia. exact Q.
      * rewrite A1. apply link_TL.
      * unfold TL. now rewrite !sg_len.
      * exact A2.
      * rewrite A1. pose proof (i_L _ _ _ I (b - 1) ltac:(lia) ltac:(lia)) as Q. replace (S (b - 1)) with b in Q by lia. exact Q.
    + intros j Hj Hj2. rewrite FE. unfold upd. replace (j =? b) with false by (symmetry; apply Nat.eqb_neq; lia). apply RR; [lia|lia|reflexivity].
  - destruct (G2 H1) as [O FE]. constructor; auto.
    + intros j Hj. rewrite Fo by lia. apply (i_lo _ _ _ I). lia.
    + intros j Hj. destruct (Nat.eq_dec j (b + 1)%nat) as [->|]; [rewrite Fb1; exact O|]. rewrite Fo by lia. apply (i_ro _ _ _ I). lia.
    + intros j Hj Hj'. rewrite FE. unfold upd. replace (j =? b + 1)%nat with false by (symmetry; apply Nat.eqb_neq; lia). apply LL; [lia|reflexivity].
    + intros j Hj Hj2. rewrite FE. unfold upd. destruct (Nat.eqb_spec j (b + 1)%nat) as [->|]; [|apply RR; [lia|lia|reflexivity]].
      replace (N + 1 - (b + 1))%nat with (S (N - b - 1)) by lia. unfold sg. cbn [seq map]. fold (@sg tensor Y (S (b + 1)) (N - b - 1)). fold (@sg tensor (fkx s') (S (b + 1)) (N - b - 1)).
      replace (S (b + 1)) with (b + 2)%nat by lia. rewrite Fb1, SR by lia. replace (b + 1 - 1)%nat with b by lia. rewrite Fb, A3.
      replace (tr (x b)) with (tl (x (b + 1)%nat)) by (rewrite Nat.add_1_r; symmetry; now apply link_x).
      replace (kr (K b)) with (kl (K (b + 1)%nat)) by (rewrite Nat.add_1_r; symmetry; now apply link_k).
      unfold Y at 1, r. apply renv_ok; [exact A4|]. rewrite A5.
      pose proof (i_R _ _ _ I (b + 2)%nat ltac:(lia) ltac:(lia)) as Q. replace (b + 2 - 1)%nat with (b + 1)%nat in Q by lia.
      replace (N + 1 - (b + 2))%nat with (N - b - 1) in Q by lia. exact Q.
Qed.

Context (sw : nat) (ha : Z) (s' : fstate) (E : bond_step r0 radd rmul conj fac x K split sw b ha s = Ok s').
Let w := wfk r0 radd rmul conj fac l r (x b) (K b) (K (b + 1)%nat) (fkx s b) (fkx s (b + 1)%nat).
Lemma step_facts : exists p q, fkx s' = upd (upd kx b p) (b + 1)%nat q /\
  tl p = dl /\ tp p = ko (K b) /\ tr p = tl q /\ tp q = ko (K (b + 1)%nat) /\ tr q = dr /\
  (ha = 1%Z -> LO p /\ fE s' = upd (fE s) b (lenv l p)) /\
  (ha <> 1%Z -> RO q /\ fE s' = upd (fE s) (b + 1)%nat (renv r q)) /\
  exists k, good w k /\ forall a s1 s2 e, a < dl -> s1 < ko (K b) -> s2 < ko (K (b + 1)%nat) -> e < dr ->
    bsum (tr p) (fun c => te p a s1 c * te q c s2 e) = k * conj (mid a [s1; s2] e).
Proof.
  unfold bond_step in E. fold l in E. fold r in E. fold w in E.
  destruct (split sw b (ha =? 1)%Z w) as [[p q]| |] eqn:ES; try discriminate. cbn [obind] in E. exists p, q.
  destruct (SE _ _ _ _ _ _ ES) as (A1 & A2 & A3 & A4 & A5 & A6).
  assert (U1 : upd (upd (fkx s) b p) (b + 1)%nat q b = p).
  { unfold upd. rewrite Nat.eqb_refl. replace (b =? b + 1)%nat with false by (symmetry; apply Nat.eqb_neq; lia). reflexivity. }
  assert (U2 : upd (upd (fkx s) b p) (b + 1)%nat q (b + 1)%nat = q) by (unfold upd; now rewrite Nat.eqb_refl).
  rewrite U1, U2 in E.
  destruct (Z.eqb_spec ha 1) as [H1|H1]; injection E as <-; cbn [fkx fE].
  - destruct (SLo _ _ _ _ _ ES) as (O & _). csplit; auto; try congruence; try (intros; congruence).
  - destruct (SRo _ _ _ _ _ ES) as (O & _). csplit; auto; try congruence; try (intros; congruence).
Qed.

Lemma step_new p q k : fkx s' = upd (upd kx b p) (b + 1)%nat q -> tl p = dl -> tp p = ko (K b) -> tr p = tl q -> tp q = ko (K (b + 1)%nat) -> tr q = dr ->
  (forall a s1 s2 e, a < dl -> s1 < ko (K b) -> s2 < ko (K (b + 1)%nat) -> e < dr ->
    bsum (tr p) (fun c => te p a s1 c * te q c s2 e) = k * conj (mid a [s1; s2] e)) ->
  sg (dk s') 1 N = DL ++ [dagt p; dagt q] ++ DR /\ forall c, Forall2 lt c D -> st s' c = big (fun a c e => conj k * mid a c e) c.
Proof.
  intros F A1 A2 A3 A4 A5 A6.
  assert (C : sg (dk s') 1 N = DL ++ [dagt p; dagt q] ++ DR).
  { rewrite <- (put_cut (dk s) (dagt p) (dagt q)) by reflexivity. apply sg_ext. intros j _. unfold dk. rewrite F. unfold upd, kx.
    destruct (j =? b + 1)%nat; [reflexivity|]. destruct (j =? b); reflexivity. }
  split; [assumption|]. intros c Hc. unfold st. rewrite C, put_big by assumption.
  apply (whole_ext r0 r1 radd rmul DL DR 2 dl dr _ _ c ps); [reflexivity|rewrite <- D_cut; assumption|].
  intros a c' e Ha Hc' He.
  inversion Hc' as [|s1 ? c1 ? H1 Hc1]; subst. inversion Hc1 as [|s2 ? c2 ? H2 Hc2]; subst. inversion Hc2; subst.
  rewrite chain2 by (cbn; congruence). rewrite <- (conj_conj (mid a [s1; s2] e)), <- conj_mul, <- A6 by assumption.
  rewrite (bconj r0 radd conj conj0 conj_add). cbn [FapSpec.dagt tr te]. apply (bsum_ext r0 radd). intros i _. now rewrite conj_mul.
Qed.
Lemma step_inv : Inv (if (ha =? 1)%Z then b + 1 else b)%nat (if (ha =? 1)%Z then b + 1 else b)%nat s'.
Proof.
  destruct step_facts as (p & q & F & A1 & A2 & A3 & A4 & A5 & G1 & G2 & _). exact (inv_put ha s' p q F A1 A2 A3 A4 A5 G1 G2).
Qed.

Lemma step_one : (forall w k, good w k -> k = r1) -> exists p q, fkx s' = upd (upd kx b p) (b + 1)%nat q /\
  tl p = dl /\ tp p = ko (K b) /\ tr p = tl q /\ tp q = ko (K (b + 1)%nat) /\ tr q = dr /\ forall c, Forall2 lt c D -> st s' c = big mid c.
Proof.
  intros GO. destruct step_facts as (p & q & F & A1 & A2 & A3 & A4 & A5 & _ & _ & k & Gk & A6). exists p, q. csplit; auto.
  intros c Hc. rewrite (proj2 (step_new p q k F A1 A2 A3 A4 A5 A6) c Hc). apply GO in Gk. subst k.
  apply (whole_ext r0 r1 radd rmul DL DR 2 dl dr _ _ c ps); [reflexivity|rewrite <- D_cut; assumption|]. intros a c' e _ _ _. rewrite conj1. ring.
Qed.
(** Whatever the factor k, overlaps with the new state are those with the target, times k. *)
Lemma step_overlap : exists w k, good w k /\ overlap D (st s') (st s') = conj k * k * wsq w /\
  forall p q, tl p = tl (dk s' b) -> tp p = tp (dk s' b) -> tr p = tl q -> tp q = tp (dk s' (b + 1)%nat) -> tr q = tr (dk s' (b + 1)%nat) ->
    overlap D (amp (sg (upd (upd (dk s') b p) (b + 1)%nat q) 1 N)) (st s') = conj k * overlap D (amp (sg (upd (upd (dk s') b p) (b + 1)%nat q) 1 N)) target.
Proof.
  destruct step_facts as (p & q & F & A1 & A2 & A3 & A4 & A5 & _ & _ & k & Gk & A6). destruct (step_new p q k F A1 A2 A3 A4 A5 A6) as [C NW].
  exists w, k. split; [exact Gk|]. split.
  - rewrite (overlap_ext D _ _ _ _ NW NW), dots, tdot_scale, tdot_conj, tdot_scale. rewrite conj_mul, conj_conj, <- tdot_conj.
    enough (tdot dl ps dr mid mid = wsq w) as -> by ring.
    unfold DmrgAlg.tdot, wsq, w. cbn [wfk wl wp1 wp2 wr we]. apply (bsum_ext r0 radd). intros a _. cbn [BigSum.csum ps].
    apply (bsum_ext r0 radd). intros s1 _. apply (bsum_ext r0 radd). intros s2 _. apply (bsum_ext r0 radd). intros e _.
    unfold mid. cbn [nth]. rewrite conj_conj. ring.
  - assert (Fb : fkx s' b = p) by (rewrite F; unfold upd; rewrite Nat.eqb_refl; replace (b =? b + 1)%nat with false by (symmetry; apply Nat.eqb_neq; lia); reflexivity).
    assert (Fb1 : fkx s' (b + 1)%nat = q) by (rewrite F; unfold upd; rewrite Nat.eqb_refl; reflexivity).
    intros p' q' B1 B2 B3 B4 B5. unfold dk in B1, B2, B4, B5. rewrite Fb in B1, B2. rewrite Fb1 in B4, B5. cbn in B1, B2, B4, B5.
    rewrite put_cut.
    2:{ intros j Hj H1 H2. unfold dk. rewrite F. unfold upd. rewrite !(proj2 (Nat.eqb_neq _ _)) by assumption. reflexivity. }
    assert (X : forall c, Forall2 lt c D -> amp (DL ++ [p'; q'] ++ DR) c = big (fun a c e => chain [p'; q'] c a e) c).
    { intros c Hc. apply put_big; auto; congruence. }
    rewrite (overlap_ext D _ _ _ _ X NW), (overlap_ext D _ _ target target X (fun c _ => eq_refl)), dots, cross. apply tdot_scale.
Qed.
Context (GO : forall w k, good w k -> k = r1).
Lemma step_closest : closest b (dk s').
Proof.
  destruct (step_one GO) as (p & q & F & A1 & A2 & A3 & A4 & A5 & NW).
  assert (Fb : fkx s' b = p) by (rewrite F; unfold upd; rewrite Nat.eqb_refl; replace (b =? b + 1)%nat with false by (symmetry; apply Nat.eqb_neq; lia); reflexivity).
  assert (Fb1 : fkx s' (b + 1)%nat = q) by (rewrite F; unfold upd; rewrite Nat.eqb_refl; reflexivity).
  intros p' q' B1 B2 B3 B4 B5. unfold dk in B1, B2, B4, B5. rewrite Fb in B1, B2. rewrite Fb1 in B4, B5. cbn in B1, B2, B4, B5.
  fold (st s'). rewrite put_cut.
  2:{ intros j Hj H1 H2. unfold dk. rewrite F. unfold upd. rewrite !(proj2 (Nat.eqb_neq _ _)) by assumption. reflexivity. }
  assert (X : forall c, Forall2 lt c D -> amp (DL ++ [p'; q'] ++ DR) c = big (fun a c e => chain [p'; q'] c a e) c).
  { intros c Hc. apply put_big; auto; congruence. }
  rewrite (dist2_ext D target target _ _ (fun c _ => eq_refl) X), (dist2_ext D target target _ _ (fun c _ => eq_refl) NW), (dist2_ext D _ _ _ _ NW X).
  apply best.
Qed.
Lemma step_dist : dist2 D target (st s) = dist2 D target (st s') + dist2 D (st s') (st s).
Proof.
  destruct (step_one GO) as (p & q & F & A1 & A2 & A3 & A4 & A5 & NW).
  assert (X : forall c, Forall2 lt c D -> st s c = big (fun a c e => chain [dk s b; dk s (b + 1)%nat] c a e) c).
  { intros c Hc. unfold st. rewrite (sg_cut _ N b Hb).
    transitivity (amp (DL ++ [dk s b; dk s (b + 1)%nat] ++ DR) c); [unfold DL, DR, TL, TR; rewrite !sg_map; reflexivity|].
    apply put_big; auto; unfold dk; cbn [FapSpec.dagt tl tp tr]; try (apply (i_site _ _ _ I); lia); try reflexivity.
    rewrite Nat.add_1_r. now apply (i_link _ _ _ I). }
  rewrite (dist2_ext D target target _ _ (fun c _ => eq_refl) X), (dist2_ext D target target _ _ (fun c _ => eq_refl) NW), (dist2_ext D _ _ _ _ NW X).
  apply best.
Qed.
End Bond.

(** * The loops *)
Lemma dist2_sym ds u v : dist2 ds u v = dist2 ds v u.
Proof. unfold FitSpec.dist2. apply (csum_ext r0 radd). intros c _. rewrite !(FitProofs.conj_sub r0 r1 radd rmul rsub ropp rdiv rinv conj FT conj_add). ring. Qed.
Notation travelled := (travelled r0 radd rmul rsub conj D).
(** The path of n steps from s to s'. *)
Definition path (n : nat) (s s' : fstate) : Prop :=
  exists l, length l = n /\ last l (st s) = st s' /\ dist2 D target (st s) = dist2 D target (st s') + travelled (st s) l.
Lemma path_refl s : path 0 s s.
Proof. exists []. csplit; auto. cbn. ring. Qed.
Lemma last_cons {A} (l : list A) (u v : A) : last (u :: l) v = last l u.
Proof. revert u v. induction l as [|w l IH]; intros u v; [reflexivity|]. change (last (w :: l) v = last (w :: l) u). now rewrite !IH. Qed.
Lemma path_step n s s1 s' : dist2 D target (st s) = dist2 D target (st s1) + dist2 D (st s1) (st s) -> path n s1 s' -> path (S n) s s'.
Proof.
  intros H (l & A & B & C). exists (st s1 :: l). csplit; [cbn; congruence|now rewrite last_cons|].
  cbn [FapSpec.travelled]. rewrite H, C, (dist2_sym D (st s) (st s1)). ring.
Qed.
Lemma travelled_app l l' u : travelled u (l ++ l') = travelled u l + travelled (last l u) l'.
Proof.
  revert u. induction l as [|v l IH]; intros u; cbn [app FapSpec.travelled]; [cbn; ring|]. rewrite IH, last_cons. ring.
Qed.
Lemma last_app {A} (l l' : list A) u : last (l ++ l') u = last l' (last l u).
Proof. revert u. induction l as [|v l IH]; intros u; [reflexivity|]. cbn [app]. rewrite !last_cons. apply IH. Qed.
Lemma path_trans m n s1 s2 s3 : path m s1 s2 -> path n s2 s3 -> path (m + n)%nat s1 s3.
Proof.
  intros (l & A & B & C) (l' & A' & B' & C'). exists (l ++ l'). csplit; [rewrite app_length; congruence|rewrite last_app, B; exact B'|].
  rewrite travelled_app, B, C, C'. ring.
Qed.

Notation bond_loop := (bond_loop r0 radd rmul conj N fac x K split).
(** The last step of a sweep, whatever the factors. *)
Definition last_step (s' : fstate) : Prop := exists sw s, Inv 1 2 s /\ bond_step r0 radd rmul conj fac x K split sw 1 2 s = Ok s'.
Lemma loop_done fuel sw b s s' : bond_loop fuel sw b 3 s = Ok s' -> s' = s.
Proof. destruct fuel; cbn; congruence. Qed.
Lemma last_down sw : forall m fuel s s', (m + 1 < N)%nat -> Inv (m + 1)%nat (m + 2)%nat s ->
  bond_loop fuel sw (Z.of_nat (m + 1)) 2 s = Ok s' -> Inv 1 1 s' /\ last_step s'.
Proof.
  induction m as [|m IH]; intros fuel s s' Hm I E; (destruct fuel as [|fuel]; [discriminate|]); cbn [FapModel.bond_loop] in E; change (2 <=? 2)%Z with true in E; cbn iota in E;
    rewrite Nat2Z.id in E; destruct (bond_step r0 radd rmul conj fac x K split sw _ 2 s) as [s1| |] eqn:E1; try discriminate; cbn [obind] in E; unfold sweepnext in E; change (2 =? 1)%Z with false in E; cbn iota in E.
  - change (Z.of_nat (0 + 1) + -1 =? 1 - 1)%Z with true in E. cbn iota in E. apply loop_done in E. subst s'.
    pose proof (step_inv s 1 ltac:(lia) I sw 2 s1 E1) as I1. cbn in I1.
    split; [exact I1|]. exists sw, s. split; [exact I|exact E1].
  - replace (Z.of_nat (S m + 1) + -1 =? 1 - 1)%Z with false in E by (symmetry; apply Z.eqb_neq; lia). cbn iota in E.
    replace (Z.of_nat (S m + 1) + -1)%Z with (Z.of_nat (m + 1)) in E by lia.
    assert (I' : Inv (S m + 1)%nat (S m + 1 + 1)%nat s) by (eapply Inv_weak; [exact I|lia|lia]).
    pose proof (step_inv s (S m + 1)%nat ltac:(lia) I' sw 2 s1 E1) as I1. change (2 =? 1)%Z with false in I1. cbn iota in I1.
    destruct (IH fuel s1 s' ltac:(lia) ltac:(eapply Inv_weak; [exact I1|lia|lia]) E) as (J & C).
    split; assumption.
Qed.
Lemma last_up sw : forall m fuel b s s', (b + m + 1)%nat = N -> 1 <= b -> Inv b (b + 1)%nat s ->
  bond_loop fuel sw (Z.of_nat b) 1 s = Ok s' -> Inv 1 1 s' /\ last_step s'.
Proof.
  induction m as [|m IH]; intros fuel b s s' Hm Hb I E; (destruct fuel as [|fuel]; [discriminate|]); cbn [FapModel.bond_loop] in E; change (1 <=? 2)%Z with true in E; cbn iota in E;
    rewrite Nat2Z.id in E; destruct (bond_step r0 radd rmul conj fac x K split sw b 1 s) as [s1| |] eqn:E1; try discriminate; cbn [obind] in E; unfold sweepnext in E; change (1 =? 1)%Z with true in E; cbn iota in E;
    pose proof (step_inv s b ltac:(lia) I sw 1 s1 E1) as I1; change (1 =? 1)%Z with true in I1; cbn iota in I1.
  - replace (Z.of_nat b + 1 =? Z.of_nat N + 2 - 2)%Z with true in E by (symmetry; apply Z.eqb_eq; lia). cbn iota in E.
    replace (Z.of_nat b + 1 - 1)%Z with (Z.of_nat ((b - 1) + 1)) in E by lia. change (1 + 1)%Z with 2%Z in E.
    destruct (last_down sw (b - 1) fuel s1 s' ltac:(lia) ltac:(eapply Inv_weak; [exact I1|lia|lia]) E) as (J & C).
    split; assumption.
  - replace (Z.of_nat b + 1 =? Z.of_nat N + 2 - 2)%Z with false in E by (symmetry; apply Z.eqb_neq; lia). cbn iota in E.
    replace (Z.of_nat b + 1)%Z with (Z.of_nat (b + 1)) in E by lia.
    destruct (IH fuel (b + 1)%nat s1 s' ltac:(lia) ltac:(lia) ltac:(eapply Inv_weak; [exact I1|lia|lia]) E) as (J & C).
    split; assumption.
Qed.
Lemma sweeps_last : forall left sw s s', Inv 1 2 s -> (forall j, 2 <= j <= N -> RO (fkx s j)) -> sweeps_loop r0 radd rmul conj N fac x K split left sw s = Ok s' ->
  Inv 1 2 s' /\ (forall j, 2 <= j <= N -> RO (fkx s' j)) /\ (left <> 0 -> last_step s').
Proof.
  induction left as [|left IH]; intros sw s s' I O E; cbn [FapModel.sweeps_loop] in E.
  - injection E as <-. csplit; [assumption|assumption|congruence].
  - destruct (bond_loop (2 * N) sw 1 1 s) as [s1| |] eqn:E1; try discriminate. cbn [obind] in E.
    destruct (last_up sw (N - 2) (2 * N) 1 s s1 ltac:(lia) ltac:(lia) I E1) as (J & C).
    assert (J' : Inv 1 2 s1) by (eapply Inv_weak; [exact J|lia|lia]).
    assert (O1 : forall j, 2 <= j <= N -> RO (fkx s1 j)) by (intros j Hj; apply (i_ro _ _ _ J); lia).
    destruct (IH (S sw) s1 s' J' O1 E) as (J2 & O2 & C2). csplit; [assumption|assumption|].
    intros _. destruct left as [|left]; [cbn in E; injection E as <-; exact C|apply C2; discriminate].
Qed.

Context (GO : forall w k, good w k -> k = r1).
Lemma loop_down sw : forall m fuel s s', (m + 1 < N)%nat -> Inv (m + 1)%nat (m + 2)%nat s ->
  bond_loop fuel sw (Z.of_nat (m + 1)) 2 s = Ok s' -> Inv 1 1 s' /\ closest 1 (dk s') /\ path (m + 1)%nat s s'.
Proof.
  induction m as [|m IH]; intros fuel s s' Hm I E; (destruct fuel as [|fuel]; [discriminate|]); cbn [FapModel.bond_loop] in E; change (2 <=? 2)%Z with true in E; cbn iota in E;
    rewrite Nat2Z.id in E; destruct (bond_step r0 radd rmul conj fac x K split sw _ 2 s) as [s1| |] eqn:E1; try discriminate; cbn [obind] in E; unfold sweepnext in E; change (2 =? 1)%Z with false in E; cbn iota in E.
  - change (Z.of_nat (0 + 1) + -1 =? 1 - 1)%Z with true in E. cbn iota in E. apply loop_done in E. subst s'.
    pose proof (step_inv s 1 ltac:(lia) I sw 2 s1 E1) as I1. cbn in I1.
    split; [exact I1|]. split; [exact (step_closest s 1 ltac:(lia) I sw 2 s1 E1 GO)|].
    apply (path_step 0 s s1 s1); [exact (step_dist s 1 ltac:(lia) I sw 2 s1 E1 GO)|apply path_refl].
  - replace (Z.of_nat (S m + 1) + -1 =? 1 - 1)%Z with false in E by (symmetry; apply Z.eqb_neq; lia). cbn iota in E.
    replace (Z.of_nat (S m + 1) + -1)%Z with (Z.of_nat (m + 1)) in E by lia.
    assert (I' : Inv (S m + 1)%nat (S m + 1 + 1)%nat s) by (eapply Inv_weak; [exact I|lia|lia]).
    pose proof (step_inv s (S m + 1)%nat ltac:(lia) I' sw 2 s1 E1) as I1. change (2 =? 1)%Z with false in I1. cbn iota in I1.
    destruct (IH fuel s1 s' ltac:(lia) ltac:(eapply Inv_weak; [exact I1|lia|lia]) E) as (J & C & P).
    csplit; auto. apply (path_step (m + 1)%nat s s1 s'); [|exact P]. exact (step_dist s (S m + 1)%nat ltac:(lia) I' sw 2 s1 E1 GO).
Qed.
Lemma loop_up sw : forall m fuel b s s', (b + m + 1)%nat = N -> 1 <= b -> Inv b (b + 1)%nat s ->
  bond_loop fuel sw (Z.of_nat b) 1 s = Ok s' -> Inv 1 1 s' /\ closest 1 (dk s') /\ path (m + 1 + (N - 1))%nat s s'.
Proof.
  induction m as [|m IH]; intros fuel b s s' Hm Hb I E; (destruct fuel as [|fuel]; [discriminate|]); cbn [FapModel.bond_loop] in E; change (1 <=? 2)%Z with true in E; cbn iota in E;
    rewrite Nat2Z.id in E; destruct (bond_step r0 radd rmul conj fac x K split sw b 1 s) as [s1| |] eqn:E1; try discriminate; cbn [obind] in E; unfold sweepnext in E; change (1 =? 1)%Z with true in E; cbn iota in E;
    pose proof (step_inv s b ltac:(lia) I sw 1 s1 E1) as I1; change (1 =? 1)%Z with true in I1; cbn iota in I1; pose proof (step_dist s b ltac:(lia) I sw 1 s1 E1 GO) as SD.
  - replace (Z.of_nat b + 1 =? Z.of_nat N + 2 - 2)%Z with true in E by (symmetry; apply Z.eqb_eq; lia). cbn iota in E.
    replace (Z.of_nat b + 1 - 1)%Z with (Z.of_nat ((b - 1) + 1)) in E by lia. change (1 + 1)%Z with 2%Z in E.
    destruct (loop_down sw (b - 1) fuel s1 s' ltac:(lia) ltac:(eapply Inv_weak; [exact I1|lia|lia]) E) as (J & C & P).
    csplit; auto. replace (0 + 1 + (N - 1))%nat with (S (b - 1 + 1)) by lia. exact (path_step _ s s1 s' SD P).
  - replace (Z.of_nat b + 1 =? Z.of_nat N + 2 - 2)%Z with false in E by (symmetry; apply Z.eqb_neq; lia). cbn iota in E.
    replace (Z.of_nat b + 1)%Z with (Z.of_nat (b + 1)) in E by lia.
    destruct (IH fuel (b + 1)%nat s1 s' ltac:(lia) ltac:(lia) ltac:(eapply Inv_weak; [exact I1|lia|lia]) E) as (J & C & P).
    csplit; auto. exact (path_step _ s s1 s' SD P).
Qed.
Lemma sweeps_ok : forall left sw s s', Inv 1 2 s -> (forall j, 2 <= j <= N -> RO (fkx s j)) -> sweeps_loop r0 radd rmul conj N fac x K split left sw s = Ok s' ->
  Inv 1 2 s' /\ (forall j, 2 <= j <= N -> RO (fkx s' j)) /\ (left <> 0 -> closest 1 (dk s')) /\ path (left * (2 * (N - 1)))%nat s s'.
Proof.
  induction left as [|left IH]; intros sw s s' I O E; cbn [FapModel.sweeps_loop] in E.
  - injection E as <-. csplit; [assumption|assumption|congruence|apply path_refl].
  - destruct (bond_loop (2 * N) sw 1 1 s) as [s1| |] eqn:E1; try discriminate. cbn [obind] in E.
    destruct (loop_up sw (N - 2) (2 * N) 1 s s1 ltac:(lia) ltac:(lia) I E1) as (J & C & P).
    assert (J' : Inv 1 2 s1) by (eapply Inv_weak; [exact J|lia|lia]).
    assert (O1 : forall j, 2 <= j <= N -> RO (fkx s1 j)) by (intros j Hj; apply (i_ro _ _ _ J); lia).
    destruct (IH (S sw) s1 s' J' O1 E) as (J2 & O2 & C2 & P2). csplit; [assumption|assumption| |].
    + intros _. destruct left as [|left]; [cbn in E; injection E as <-; exact C|apply C2; discriminate].
    + replace (S left * (2 * (N - 1)))%nat with ((N - 2 + 1 + (N - 1)) + left * (2 * (N - 1)))%nat by lia. exact (path_trans _ _ _ _ _ P P2).
Qed.
(** * The initial environments *)
Lemma init_ok kx (LK : link kx) (ST : forall j, 1 <= j <= N -> tp (kx j) = ko (K j)) : forall m E, (m + 2 <= N)%nat ->
  (forall j, m + 3 <= j <= N + 1 -> Rok (sg Y j (N + 1 - j)%nat) (sg kx j (N + 1 - j)%nat) (tr (x (j - 1))) (kr (K (j - 1))) (tr (kx (j - 1))) (E j)) ->
  (forall j, 3 <= j <= N + 1 -> Rok (sg Y j (N + 1 - j)%nat) (sg kx j (N + 1 - j)%nat) (tr (x (j - 1))) (kr (K (j - 1))) (tr (kx (j - 1))) (init_env r0 radd rmul x K kx m E j)) /\
  init_env r0 radd rmul x K kx m E 0 = E 0.
Proof.
  induction m as [|m IH]; intros E Hm H; [split; [exact H|reflexivity]|]. cbn [init_env].
  destruct (IH (upd E (S m + 2)%nat (renv (rwf (E (S m + 2 + 1)%nat) (x (S m + 2)%nat) (K (S m + 2)%nat)) (kx (S m + 2)%nat)))) as [A B]; [lia| |].
  - intros j Hj. unfold upd. destruct (Nat.eqb_spec j (S m + 2)%nat) as [->|]; [|apply H; lia].
    replace (N + 1 - (S m + 2))%nat with (S (N - (S m + 2))) by lia. unfold sg. cbn [seq map].
    fold (@sg tensor Y (S (S m + 2)) (N - (S m + 2))). fold (@sg tensor kx (S (S m + 2)) (N - (S m + 2))).
    replace (tr (x (S m + 2 - 1)%nat)) with (tl (x (S m + 2)%nat)) by (replace (S m + 2)%nat with (S (S m + 2 - 1)) at 1 by lia; symmetry; apply link_x; lia).
    replace (kr (K (S m + 2 - 1)%nat)) with (kl (K (S m + 2)%nat)) by (replace (S m + 2)%nat with (S (S m + 2 - 1)) at 1 by lia; symmetry; apply link_k; lia).
    replace (tr (kx (S m + 2 - 1)%nat)) with (tl (kx (S m + 2)%nat)) by (replace (S m + 2)%nat with (S (S m + 2 - 1)) at 1 by lia; symmetry; apply LK; lia).
    unfold Y at 1. apply renv_ok; [apply ST; lia|].
    pose proof (H (S (S m + 2)) ltac:(lia)) as Q. replace (S (S m + 2) - 1)%nat with (S m + 2)%nat in Q by lia.
    replace (N + 1 - S (S m + 2))%nat with (N - (S m + 2))%nat in Q by lia. replace (S m + 2 + 1)%nat with (S (S m + 2)) by lia. exact Q.
  - split; [exact A|]. rewrite B. reflexivity.
Qed.
Lemma start_inv kx : link kx -> (forall j, 1 <= j <= N -> tp (kx j) = ko (K j)) -> (forall j, 2 <= j <= N -> RO (kx j)) ->
  Inv 1 2 (mkF (init_env r0 radd rmul x K kx (N - 2) (fun _ => env_one r1)) kx).
Proof.
  intros LK ST O. destruct link_x as (X1 & X2 & _), link_k as (K1 & K2 & _). pose proof LK as (L1 & L2 & _).
  destruct (init_ok kx LK ST (N - 2) (fun _ => env_one r1) ltac:(lia)) as [A B].
  { intros j Hj. assert (j = N + 1)%nat as -> by lia. rewrite Nat.sub_diag. replace (N + 1 - 1)%nat with N by lia. rewrite X2, K2, L2.
    intros a w k Ha Hw Hk. assert (a = 0) as -> by lia. assert (w = 0) as -> by lia. assert (k = 0) as -> by lia.
    unfold Rp, env_one. cbn. unfold BigSum.delta. cbn. ring. }
  constructor; cbn [fkx fE]; auto.
  - intros; lia.
  - intros j Hj. apply O. lia.
  - intros j Hj _. assert (j = 0) as -> by lia. rewrite B, X1, K1, L1.
    intros a w k Ha Hw Hk. assert (a = 0) as -> by lia. assert (w = 0) as -> by lia. assert (k = 0) as -> by lia.
    unfold Lp, env_one. cbn. unfold BigSum.delta. cbn. ring.
Qed.

(** * The whole *)
Context (position1 : (nat -> tensor) -> outcome (nat -> tensor)) (PO : position1_ok r0 r1 radd rmul conj N position1).
Lemma fit_apply_ok nsweep kx res : proper (tensors kx N) -> sites (tensors kx N) = outs (tensors K N) ->
  fit_apply r0 r1 radd rmul conj N fac x K split position1 nsweep kx = Ok res ->
  link res /\ (forall j, 1 <= j <= N -> tp (res j) = ko (K j)) /\ (forall j, 2 <= j <= N -> RO (res j)) /\
  (nsweep <> 0 -> closest 1 res) /\
  exists l, length l = (nsweep * (2 * (N - 1)))%nat /\ (forall c, Forall2 lt c D -> last l (amp (tensors kx N)) c = amp (tensors res N) c) /\
    dist2 D target (amp (tensors kx N)) = dist2 D target (amp (tensors res N)) + travelled (amp (tensors kx N)) l.
Proof.
  intros P S E. unfold fit_apply in E. destruct (position1 (fun j => dagt (kx j))) as [kx1| |] eqn:E1; try discriminate. cbn [obind] in E.
  set (s0 := mkF _ kx1) in E. destruct (sweeps_loop r0 radd rmul conj N fac x K split nsweep 1 s0) as [s| |] eqn:E2; try discriminate.
  cbn [obind] in E. injection E as <-.
  assert (TD : tensors (fun j => dagt (kx j)) N = map dagt (tensors kx N)) by (unfold tensors; now rewrite map_map).
  destruct (PO (fun j => dagt (kx j)) kx1) as (Q1 & Q2 & Q3 & Q4); [rewrite TD; now apply linked_dag|exact E1|].
  rewrite TD, sites_dag in Q2, Q3. rewrite S in Q2, Q3.
  assert (DO : outs (tensors K N) = D) by (unfold outs, tensors, D, sg; now rewrite map_map).
  rewrite DO in *.
  assert (LK : link kx1) by (apply link_iff; exact Q1).
  assert (ST : forall j, 1 <= j <= N -> tp (kx1 j) = ko (K j)).
  { intros j Hj. unfold sites, tensors, D, sg in Q2. rewrite map_map in Q2.
    apply (f_equal (fun l => nth_error l (j - 1))) in Q2. rewrite !nth_error_map in Q2.
    assert (NE : nth_error (seq 1 N) (j - 1) = Some j).
    { rewrite (nth_error_nth' _ 0) by (rewrite seq_length; lia). rewrite seq_nth by lia. f_equal. lia. }
    rewrite NE in Q2. cbn in Q2. congruence. }
  pose proof (start_inv kx1 LK ST Q4) as I0. fold s0 in I0.
  destruct (sweeps_ok nsweep 1 s0 s I0 Q4 E2) as (I & O & C & (l & L1 & L2 & L3)).
  assert (A0 : forall c, Forall2 lt c D -> amp (tensors kx N) c = st s0 c).
  { intros c Hc. unfold st, dk. rewrite <- (sg_map dagt). unfold amplitude. rewrite chain_dag. fold (amp (sg (fkx s0) 1 N) c).
    change (amp (sg (fkx s0) 1 N) c) with (amp (tensors kx1 N) c). rewrite Q3 by assumption. unfold amplitude. now rewrite chain_dag, conj_conj. }
  csplit.
  - apply (link_ext (fkx s)); [intros; split; reflexivity|]. apply (i_link _ _ _ I).
  - intros j Hj. cbn. now apply (i_site _ _ _ I).
  - intros j Hj. now apply RO_dag, O.
  - exact C.
  - exists l. csplit; [exact L1| |].
    + intros c Hc. change (amp (tensors (fun j => dagt (fkx s j)) N) c) with (st s c). rewrite <- L2.
      destruct l as [|u l]; [cbn; now apply A0|]. now rewrite !last_cons.
    + change (amp (tensors (fun j => dagt (fkx s j)) N)) with (st s).
      rewrite (dist2_ext D target target _ _ (fun c _ => eq_refl) A0), L3. f_equal. destruct l as [|u l]; [reflexivity|].
      cbn [FapSpec.travelled]. f_equal. apply dist2_ext; [intros c Hc; symmetry; now apply A0|reflexivity].
Qed.
Lemma fit_apply_last nsweep kx res : proper (tensors kx N) -> sites (tensors kx N) = outs (tensors K N) ->
  fit_apply r0 r1 radd rmul conj N fac x K split position1 nsweep kx = Ok res ->
  link res /\ (forall j, 1 <= j <= N -> tp (res j) = ko (K j)) /\ (forall j, 2 <= j <= N -> RO (res j)) /\
  (nsweep <> 0 -> exists w k, good w k /\ overlap D (amp (tensors res N)) (amp (tensors res N)) = conj k * k * wsq w /\
  forall p q, tl p = tl (res 1) -> tp p = tp (res 1) -> tr p = tl q -> tp q = tp (res 2) -> tr q = tr (res 2) ->
    overlap D (amp (sg (upd (upd res 1 p) 2 q) 1 N)) (amp (tensors res N)) = conj k * overlap D (amp (sg (upd (upd res 1 p) 2 q) 1 N)) target).
Proof.
  intros P S E. unfold fit_apply in E. destruct (position1 (fun j => dagt (kx j))) as [kx1| |] eqn:E1; try discriminate. cbn [obind] in E.
  set (s0 := mkF _ kx1) in E. destruct (sweeps_loop r0 radd rmul conj N fac x K split nsweep 1 s0) as [s| |] eqn:E2; try discriminate.
  cbn [obind] in E. injection E as <-.
  assert (TD : tensors (fun j => dagt (kx j)) N = map dagt (tensors kx N)) by (unfold tensors; now rewrite map_map).
  destruct (PO (fun j => dagt (kx j)) kx1) as (Q1 & Q2 & Q3 & Q4); [rewrite TD; now apply linked_dag|exact E1|].
  rewrite TD, sites_dag in Q2, Q3. rewrite S in Q2, Q3.
  assert (DO : outs (tensors K N) = D) by (unfold outs, tensors, D, sg; now rewrite map_map).
  rewrite DO in *.
  assert (LK : link kx1) by (apply link_iff; exact Q1).
  assert (ST : forall j, 1 <= j <= N -> tp (kx1 j) = ko (K j)).
  { intros j Hj. unfold sites, tensors, D, sg in Q2. rewrite map_map in Q2.
    apply (f_equal (fun l => nth_error l (j - 1))) in Q2. rewrite !nth_error_map in Q2.
    assert (NE : nth_error (seq 1 N) (j - 1) = Some j).
    { rewrite (nth_error_nth' _ 0) by (rewrite seq_length; lia). rewrite seq_nth by lia. f_equal. lia. }
    rewrite NE in Q2. cbn in Q2. congruence. }
  pose proof (start_inv kx1 LK ST Q4) as I0. fold s0 in I0.
  destruct (sweeps_last nsweep 1 s0 s I0 Q4 E2) as (I & O & C).
  csplit.
  - apply (link_ext (fkx s)); [intros; split; reflexivity|]. apply (i_link _ _ _ I).
  - intros j Hj. cbn. now apply (i_site _ _ _ I).
  - intros j Hj. now apply RO_dag, O.
  - intros Nz. destruct (C Nz) as (sw & s1 & I1 & E3). exact (step_overlap s1 1 ltac:(lia) I1 sw 2 s E3).
Qed.
(** * One center site *)
Lemma chain1 (y : tensor) s j j' : j' < tr y -> chain [y] [s] j j' = te y j s j'.
Proof. intros H. cbn [MpsSpec.chain]. exact (delta_sum r0 r1 radd rmul rsub ropp RT (tr y) j' (te y j s) H). Qed.
Definition mix (x1 : tensor) (K1 : kten) YL TL YR TR k s k' : R :=
  fac * bsum (tl x1 * kl K1) (fun j => bsum (tr x1 * kr K1) (fun j' => Lp YL TL j k * te (pt (x1, K1)) j s j' * Rp YR TR j' k')).
Lemma mix_l el er x1 K1 YL YR TL TR dl dr k s k' :
  Lok YL TL (tl x1) (kl K1) dl el -> Rok YR TR (tr x1) (kr K1) dr er -> k < dl -> k' < dr ->
  fac * bsum (tr x1) (fun b => bsum (kr K1) (fun v => lwf el x1 K1 k s b v * er b v k')) = mix x1 K1 YL TL YR TR k s k'.
Proof.
  intros HL HR Hk Hk'. unfold mix. f_equal.
  transitivity (bsum (kl K1) (fun w => bsum (tl x1) (fun a => bsum (kr K1) (fun v2 => bsum (tr x1) (fun b2 =>
    el a w k * bsum (tp x1) (fun s0 => te x1 a s0 b2 * ke K1 w s0 s v2) * er b2 v2 k'))))).
  - unfold FapModel.lwf. both. pick 3. pick 2. pick 0. pick 1. pick 0. ring.
  - rewrite bprod. apply (bsum_ext r0 radd). intros w Hw. apply (bsum_ext r0 radd). intros a Ha.
    rewrite bprod. apply (bsum_ext r0 radd). intros v2 Hv2. apply (bsum_ext r0 radd). intros c2 Hc2.
    rewrite HL, HR by assumption. now rewrite (pt_te r0 radd rmul) by assumption.
Qed.
Lemma mix_r el er x1 K1 YL YR TL TR dl dr k s k' :
  Lok YL TL (tl x1) (kl K1) dl el -> Rok YR TR (tr x1) (kr K1) dr er -> k < dl -> k' < dr ->
  fac * bsum (tl x1) (fun a => bsum (kl K1) (fun w => rwf er x1 K1 k' s a w * el a w k)) = mix x1 K1 YL TL YR TR k s k'.
Proof.
  intros HL HR Hk Hk'. unfold mix. f_equal.
  transitivity (bsum (kl K1) (fun w => bsum (tl x1) (fun a => bsum (kr K1) (fun v2 => bsum (tr x1) (fun b2 =>
    el a w k * bsum (tp x1) (fun s0 => te x1 a s0 b2 * ke K1 w s0 s v2) * er b2 v2 k'))))).
  - unfold FapModel.rwf. both. pick 1. pick 0. pick 0. pick 1. pick 0. ring.
  - rewrite bprod. apply (bsum_ext r0 radd). intros w Hw. apply (bsum_ext r0 radd). intros a Ha.
    rewrite bprod. apply (bsum_ext r0 radd). intros v2 Hv2. apply (bsum_ext r0 radd). intros c2 Hc2.
    rewrite HL, HR by assumption. now rewrite (pt_te r0 radd rmul) by assumption.
Qed.
Lemma sg_cut1 {A} (f : nat -> A) n c : 1 <= c <= n -> sg f 1 n = sg f 1 (c - 1) ++ [f c] ++ sg f (c + 1)%nat (n - c).
Proof.
  intros H. unfold sg. replace n with ((c - 1) + (1 + (n - c)))%nat at 1 by lia. rewrite seq_app, map_app. f_equal.
  rewrite seq_app, map_app. replace (1 + (c - 1))%nat with c by lia. reflexivity.
Qed.

Section Site.
Context (s : fstate) (c : nat) (Hc : 1 <= c <= N) (I : Inv c c s).
Let kx := fkx s.
Let TL := sg kx 1 (c - 1).
Let TR := sg kx (c + 1)%nat (N - c).
Let dl := tl (kx c).
Let dr := tr (kx c).
Let ps := [ko (K c)].
Let DL := map dagt TL.
Let DR := map dagt TR.
Let YL := sg Y 1 (c - 1).
Let YR := sg Y (c + 1)%nat (N - c).
Definition mid1 (a : nat) (o : list nat) (e : nat) : R := mix (x c) (K c) YL TL YR TR a (nth 0 o 0) e.
Notation big v := (whole DL DR 1 dl dr v).
Lemma sites_kx1 (f : nat -> tensor) i n : (forall j, 1 <= j <= N -> tp (f j) = ko (K j)) -> 1 <= i -> (i + n <= N + 1)%nat -> sites (sg f i n) = sg (fun j => ko (K j)) i n.
Proof. intros H H1 H2. unfold sites. rewrite sg_map. apply sg_ext. intros j Hj. apply H. lia. Qed.
Lemma D_cut1 : D = sites DL ++ ps ++ sites DR.
Proof.
  unfold DL, DR, TL, TR. rewrite !sites_dag. unfold D. rewrite (sg_cut1 _ N c Hc).
  rewrite !(sites_kx1 kx); try apply (i_site _ _ _ I); try lia. reflexivity.
Qed.
Lemma link_TL1 : linked 1 TL dl.
Proof. unfold TL, dl. pose proof (link_left kx (c - 1) (i_link _ _ _ I) ltac:(lia)) as Q. replace (S (c - 1)) with c in Q by lia. exact Q. Qed.
Lemma link_TR1 : linked dr TR 1.
Proof.
  unfold TR, dr. pose proof (link_right kx (c + 1)%nat (i_link _ _ _ I) ltac:(lia)) as Q.
  replace (c + 1 - 1)%nat with c in Q by lia. replace (N + 1 - (c + 1))%nat with (N - c) in Q by lia. exact Q.
Qed.
Lemma site_L : Lok YL TL (tl (x c)) (kl (K c)) dl (fE s (c - 1)).
Proof. pose proof (i_L _ _ _ I (c - 1) ltac:(lia) ltac:(lia)) as Q. replace (S (c - 1)) with c in Q by lia. exact Q. Qed.
Lemma site_R : Rok YR TR (tr (x c)) (kr (K c)) dr (fE s (c + 1)%nat).
Proof.
  pose proof (i_R _ _ _ I (c + 1)%nat ltac:(lia) ltac:(lia)) as Q. replace (c + 1 - 1)%nat with c in Q by lia.
  replace (N + 1 - (c + 1))%nat with (N - c) in Q by lia. exact Q.
Qed.
Lemma cross1 v : overlap D (big v) target = tdot dl ps dr v mid1.
Proof.
  assert (LYL : linked 1 YL (tl (x c) * kl (K c))%nat).
  { pose proof (link_left Y (c - 1) link_Y ltac:(lia)) as Q. replace (S (c - 1)) with c in Q by lia. exact Q. }
  unfold FitSpec.overlap. rewrite D_cut1, confs_app_sum.
  transitivity (csum (sites TL) (fun cL => csum ps (fun o => csum (sites TR) (fun cR =>
    conj (insert DL DR dl dr v cL o cR) * insert YL YR (tl (x c) * kl (K c)) (tr (x c) * kr (K c))
      (fun j o j' => fac * chain [Y c] o j j') cL o cR)))).
  - unfold DL, DR. rewrite !sites_dag.
    apply (csum_ext r0 radd). intros cL HL. apply (csum_ext r0 radd). intros o Ho. apply (csum_ext r0 radd). intros cR HR.
    apply F2len in HL, Ho, HR. unfold sites in HL, HR. rewrite map_length in HL, HR.
    rewrite whole_app by (rewrite ?map_length; assumption). f_equal.
    rewrite (insert_scale r0 r1 radd rmul rsub ropp RT). rewrite (insert_chain r0 r1 radd rmul rsub ropp RT); auto.
    + unfold YL, YR. rewrite <- (sg_cut1 Y N c Hc). apply target_amp. rewrite !app_length, HL, Ho, HR. unfold TL, TR. rewrite !sg_len. cbn. lia.
    + cbn. auto.
    + unfold YL. rewrite HL. unfold TL. now rewrite !sg_len.
  - unfold DL, DR. rewrite insert_cross. apply (tdot_ext r0 radd rmul conj); [reflexivity|]. intros a o e Ha Ho He.
    inversion Ho as [|s1 ? c' ? _ Ho']; subst. inversion Ho'; subst.
    unfold mid1, mix. cbn [nth].
    transitivity (bsum (tl (x c) * kl (K c)) (fun j => bsum (tr (x c) * kr (K c)) (fun j' => Lp YL TL j a * (fac * te (Y c) j s1 j') * Rp YR TR j' e))).
    + apply (bsum_ext r0 radd). intros j _. apply (bsum_ext r0 radd). intros j' Hj'. rewrite chain1 by exact Hj'. reflexivity.
    + unfold Y. both. pick 0. pick 0. ring.
Qed.
Lemma dots1 u v : overlap D (big u) (big v) = tdot dl ps dr u v.
Proof.
  rewrite D_cut1. apply (dot_whole r0 r1 radd rmul rsub ropp conj RT conj0 conj1 conj_add conj_mul DL DR ps).
  - apply linked_dag, link_TL1.
  - apply linked_dag, link_TR1.
  - unfold DL, TL. rewrite sg_map. apply Forall_forall. intros t Ht. apply in_map_iff in Ht as (j & <- & Hj). apply in_seq in Hj.
    apply LO_dag, (i_lo _ _ _ I). lia.
  - unfold DR, TR. rewrite sg_map. apply Forall_forall. intros t Ht. apply in_map_iff in Ht as (j & <- & Hj). apply in_seq in Hj.
    apply RO_dag, (i_ro _ _ _ I). lia.
Qed.
Lemma best1 v : dist2 D target (big v) = dist2 D target (big mid1) + dist2 D (big mid1) (big v).
Proof.
  apply (pythagoras r0 r1 radd rmul rsub ropp rdiv rinv conj FT conj0 conj_add conj_mul conj_conj).
  rewrite !overlap_sub, !cross1, !dots1. reflexivity.
Qed.
(** The state with tensor p at c. *)
Lemma put_cut1 (f : nat -> tensor) p : (forall j, 1 <= j <= N -> j <> c -> f j = dk s j) -> sg (upd f c p) 1 N = DL ++ [p] ++ DR.
Proof.
  intros H. rewrite (sg_cut1 _ N c Hc). unfold DL, DR, TL, TR. rewrite !sg_map. f_equal; [|f_equal].
  - apply sg_ext. intros j Hj. unfold upd. rewrite !(proj2 (Nat.eqb_neq _ _)) by lia. apply H; lia.
  - unfold upd. rewrite !Nat.eqb_refl. reflexivity.
  - apply sg_ext. intros j Hj. unfold upd. rewrite !(proj2 (Nat.eqb_neq _ _)) by lia. apply H; lia.
Qed.
Lemma put_big1 p o : tl p = dl -> tp p = ko (K c) -> tr p = dr -> Forall2 lt o D ->
  amp (DL ++ [p] ++ DR) o = big (fun a o e => chain [p] o a e) o.
Proof.
  intros A1 A2 A3 Ho. symmetry. apply (whole_chain r0 r1 radd rmul rsub ropp RT DL [p] DR).
  - apply linked_dag, link_TL1.
  - cbn. auto.
  - rewrite D_cut1 in Ho. cbn [sites map]. rewrite A2. exact Ho.
Qed.
(** The best tensor P at c. *)
Context (P : tensor) (P1 : tl P = dl) (P2 : tp P = ko (K c)) (P3 : tr P = dr)
  (P4 : forall a s1 e, a < dl -> s1 < ko (K c) -> e < dr -> te P a s1 e = mid1 a [s1] e).
Definition center : fstate := mkF (fE s) (upd kx c (dagt P)).
Lemma center_st o : Forall2 lt o D -> st center o = big mid1 o.
Proof.
  intros Ho. unfold st.
  assert (C : sg (dk center) 1 N = DL ++ [dagt (dagt P)] ++ DR).
  { rewrite <- (put_cut1 (dk s)) by reflexivity. apply sg_ext. intros j _. unfold dk, center, upd, kx. cbn [fkx]. destruct (j =? c); reflexivity. }
  rewrite C, put_big1 by assumption.
  apply (whole_ext r0 r1 radd rmul DL DR 1 dl dr _ _ o ps); [reflexivity|rewrite <- D_cut1; assumption|].
  intros a c' e Ha Hc' He. inversion Hc' as [|s1 ? c1 ? H1 Hc1]; subst. inversion Hc1; subst.
  rewrite chain1 by (cbn; congruence). cbn [FapSpec.dagt te]. rewrite conj_conj. now apply P4.
Qed.
Lemma old_st o : Forall2 lt o D -> st s o = big (fun a o e => chain [dk s c] o a e) o.
Proof.
  intros Ho. unfold st. rewrite (sg_cut1 _ N c Hc).
  transitivity (amp (DL ++ [dk s c] ++ DR) o); [unfold DL, DR, TL, TR; rewrite !sg_map; reflexivity|].
  apply put_big1; auto; unfold dk; cbn [FapSpec.dagt tl tp tr]; try reflexivity. apply (i_site _ _ _ I). lia.
Qed.
Lemma center_dist : dist2 D target (st s) = dist2 D target (st center) + dist2 D (st center) (st s).
Proof.
  rewrite (dist2_ext D target target _ _ (fun c _ => eq_refl) old_st), (dist2_ext D target target _ _ (fun c _ => eq_refl) center_st), (dist2_ext D _ _ _ _ center_st old_st).
  apply best1.
Qed.
Lemma center_closest p : tl p = dl -> tp p = ko (K c) -> tr p = dr ->
  dist2 D target (amp (sg (upd (dk center) c p) 1 N)) = dist2 D target (st center) + dist2 D (st center) (amp (sg (upd (dk center) c p) 1 N)).
Proof.
  intros B1 B2 B3. rewrite put_cut1.
  2:{ intros j Hj H1. unfold dk, center, upd. cbn [fkx]. now rewrite !(proj2 (Nat.eqb_neq _ _)) by assumption. }
  assert (X : forall o, Forall2 lt o D -> amp (DL ++ [p] ++ DR) o = big (fun a o e => chain [p] o a e) o) by (intros o Ho; now apply put_big1).
  rewrite (dist2_ext D target target _ _ (fun c _ => eq_refl) X), (dist2_ext D target target _ _ (fun c _ => eq_refl) center_st), (dist2_ext D _ _ _ _ center_st X).
  apply best1.
Qed.
Lemma center_inv E' : (forall j, j <> c -> E' j = fE s j) -> Inv c c (mkF E' (upd kx c (dagt P))).
Proof.
  intros HE. assert (U : forall j, j <> c -> upd kx c (dagt P) j = kx j) by (intros j Hj; unfold upd; now rewrite (proj2 (Nat.eqb_neq _ _)) by assumption).
  assert (Uc : upd kx c (dagt P) c = dagt P) by (unfold upd; now rewrite Nat.eqb_refl).
  assert (Ul : forall j, tl (upd kx c (dagt P) j) = tl (kx j)) by (intros j; destruct (Nat.eq_dec j c) as [->|]; [rewrite Uc; exact P1|now rewrite U]).
  assert (Ur : forall j, tr (upd kx c (dagt P) j) = tr (kx j)) by (intros j; destruct (Nat.eq_dec j c) as [->|]; [rewrite Uc; exact P3|now rewrite U]).
  constructor; cbn [fkx fE].
  - apply (link_ext kx); [intros; now rewrite Ul, Ur|]. apply (i_link _ _ _ I).
  - intros j Hj. destruct (Nat.eq_dec j c) as [->|]; [rewrite Uc; exact P2|]. rewrite U by assumption. now apply (i_site _ _ _ I).
  - intros j Hj. rewrite U by lia. apply (i_lo _ _ _ I). lia.
  - intros j Hj. rewrite U by lia. apply (i_ro _ _ _ I). lia.
  - intros j Hj Hj'. rewrite HE, Ul by lia. rewrite (sg_ext (upd kx c (dagt P)) kx 1 j) by (intros; apply U; lia). now apply (i_L _ _ _ I).
  - intros j Hj Hj'. rewrite HE, Ur by lia. rewrite (sg_ext (upd kx c (dagt P)) kx j _) by (intros; apply U; lia). now apply (i_R _ _ _ I).
Qed.
End Site.

(** Two tensors with the same product. *)
Lemma same_two s b (Hb : 1 <= b < N) (I : Inv b (b + 1)%nat s) E' p q : tl p = tl (fkx s b) -> tp p = ko (K b) -> tr p = tl q -> tp q = ko (K (b + 1)%nat) -> tr q = tr (fkx s (b + 1)%nat) ->
  (forall a s1 s2 e, a < tl p -> s1 < tp p -> s2 < tp q -> e < tr q ->
     bsum (tr p) (fun k => conj (te p a s1 k) * conj (te q k s2 e)) = bsum (tr (fkx s b)) (fun k => conj (te (fkx s b) a s1 k) * conj (te (fkx s (b + 1)%nat) k s2 e))) ->
  forall o, Forall2 lt o D -> st (mkF E' (upd (upd (fkx s) b p) (b + 1)%nat q)) o = st s o.
Proof.
  intros A1 A2 A3 A4 A5 A6 o Ho. unfold st.
  assert (C : sg (dk (mkF E' (upd (upd (fkx s) b p) (b + 1)%nat q))) 1 N = map dagt (sg (fkx s) 1 (b - 1)) ++ [dagt p; dagt q] ++ map dagt (sg (fkx s) (b + 2)%nat (N - b - 1))).
  { rewrite <- (put_cut s b Hb (dk s)) by reflexivity. apply sg_ext. intros j _. unfold dk, upd. cbn [fkx]. destruct (j =? b + 1)%nat; [reflexivity|]. destruct (j =? b); reflexivity. }
  assert (C0 : sg (dk s) 1 N = map dagt (sg (fkx s) 1 (b - 1)) ++ [dk s b; dk s (b + 1)%nat] ++ map dagt (sg (fkx s) (b + 2)%nat (N - b - 1))).
  { rewrite (sg_cut _ N b Hb). rewrite !sg_map. reflexivity. }
  rewrite C, C0. rewrite !(put_big s b Hb I); auto; unfold dk; cbn [FapSpec.dagt tl tp tr]; auto; try (apply (i_site _ _ _ I); lia).
  2:{ rewrite Nat.add_1_r. now apply (i_link _ _ _ I). }
  apply (whole_ext r0 r1 radd rmul _ _ 2 _ _ _ _ o [ko (K b); ko (K (b + 1)%nat)]); [reflexivity|rewrite <- (D_cut s b Hb I); assumption|].
  intros a c' e Ha Hc' He.
  inversion Hc' as [|s1 ? c1 ? H1 Hc1]; subst. inversion Hc1 as [|s2 ? c2 ? H2 Hc2]; subst. inversion Hc2; subst.
  rewrite !chain2 by (cbn; congruence). cbn [FapSpec.dagt tr te]. apply A6; congruence.
Qed.

Context (svd1 : nat -> nat -> bool -> tensor -> outcome tensor) (SV : forall sw j, svd1_ok r0 r1 radd rmul conj (svd1 sw j)).
Notation one_step := (one_step r0 radd rmul conj N fac x K svd1).
(** v is the state of which the stored tensors lack the center. *)
Definition same (c : nat) (v : nat -> tensor) (s : @fstate R) : Prop := forall j, 1 <= j <= N -> j <> c -> v j = fkx s j.
Section Step.
Context (s : @fstate R) (v : nat -> tensor) (c sw : nat) (Hc : 1 <= c <= N).
Notation sv := (mkF (fE s) v).
Context (I : Inv c c sv) (SM : same c v s).
Lemma dim_l : (if c =? 1 then 1 else tr (fkx s (c - 1))) = tl (v c).
Proof.
  destruct (i_link _ _ _ I) as (A & B & C). cbn [fkx] in *. destruct (Nat.eqb_spec c 1) as [->|]; [congruence|].
  rewrite <- SM by lia. rewrite C by lia. f_equal. f_equal. lia.
Qed.
Lemma dim_r : (if c =? N then 1 else tl (fkx s (c + 1)%nat)) = tr (v c).
Proof.
  destruct (i_link _ _ _ I) as (A & B & C). cbn [fkx] in *. destruct (Nat.eqb_spec c N) as [->|]; [congruence|].
  rewrite <- SM by lia. rewrite C by lia. f_equal. f_equal. lia.
Qed.
Definition is_best (P : tensor) : Prop := tl P = tl (v c) /\ tp P = ko (K c) /\ tr P = tr (v c) /\
  forall a s1 e, a < tl (v c) -> s1 < ko (K c) -> e < tr (v c) -> te P a s1 e = mid1 sv c a [s1] e.
Lemma pl_best j : is_best (pl r0 radd rmul fac (if c =? 1 then 1 else tr (fkx s (c - 1))) (if c =? N then 1 else tl (fkx s (c + 1)%nat)) j (lwf (fE s (c - 1)) (x c) (K c)) (fE s (c + 1)%nat) (x c) (K c)).
Proof.
  rewrite dim_l, dim_r. unfold is_best, pl. cbn [tl tp tr te]. csplit; auto. intros a s1 e Ha Hs He.
  exact (mix_l _ _ _ _ _ _ _ _ _ _ _ _ _ (site_L sv c Hc I) (site_R sv c Hc I) Ha He).
Qed.
Lemma pr_best j : is_best (pr r0 radd rmul fac (if c =? 1 then 1 else tr (fkx s (c - 1))) (if c =? N then 1 else tl (fkx s (c + 1)%nat)) j (rwf (fE s (c + 1)%nat) (x c) (K c)) (fE s (c - 1)) (x c) (K c)).
Proof.
  rewrite dim_l, dim_r. unfold is_best, pr. cbn [tl tp tr te]. csplit; auto. intros a s1 e Ha Hs He.
  exact (mix_r _ _ _ _ _ _ _ _ _ _ _ _ _ (site_L sv c Hc I) (site_R sv c Hc I) Ha He).
Qed.
(** The step at an end of the chain. *)
Lemma step_end E' P : is_best P -> (forall j, j <> c -> E' j = fE s j) ->
  let s' := mkF E' (upd (fkx s) c (dagt P)) in
  exists v', Inv c c (mkF (fE s') v') /\ (forall j, 1 <= j <= N -> v' j = fkx s' j) /\
    dist2 D target (st sv) = dist2 D target (st (mkF (fE s') v')) + dist2 D (st (mkF (fE s') v')) (st sv) /\
    forall p, tl p = tl (v' c) -> tp p = ko (K c) -> tr p = tr (v' c) ->
      dist2 D target (amp (sg (upd (dk (mkF (fE s') v')) c p) 1 N)) = dist2 D target (st (mkF (fE s') v')) + dist2 D (st (mkF (fE s') v')) (amp (sg (upd (dk (mkF (fE s') v')) c p) 1 N)).
Proof.
  intros (P1 & P2 & P3 & P4) HE. cbv zeta. exists (upd v c (dagt P)). cbn [fE fkx]. csplit.
  - exact (center_inv sv c Hc I P P1 P2 P3 E' HE).
  - intros j Hj. unfold upd. destruct (Nat.eqb_spec j c); [reflexivity|]. now apply SM.
  - exact (center_dist sv c Hc I P P1 P2 P3 P4).
  - intros p B1 B2 B3. assert (U : upd v c (dagt P) c = dagt P) by (unfold upd; now rewrite Nat.eqb_refl). rewrite U in B1, B3. cbn in B1, B3.
    exact (center_closest sv c Hc I P P1 P2 P3 P4 p ltac:(cbn [fkx]; congruence) B2 ltac:(cbn [fkx]; congruence)).
Qed.
Lemma step_right P V E' : c < N -> is_best P -> svd1 sw c true P = Ok V -> E' = upd (fE s) c (lenv (lwf (fE s (c - 1)) (x c) (K c)) (dagt V)) ->
  let s' := mkF E' (upd (fkx s) c (dagt V)) in
  exists v', Inv (c + 1)%nat (c + 1)%nat (mkF (fE s') v') /\ same (c + 1)%nat v' s' /\
    dist2 D target (st sv) = dist2 D target (st (mkF (fE s') v')) + dist2 D (st (mkF (fE s') v')) (st sv).
Proof.
  intros Hn (P1 & P2 & P3 & P4) EV ->. cbv zeta. cbn [fE fkx].
  destruct (proj1 (SV sw c P V) EV) as (V1 & V2 & V3 & C & V4).
  pose (s1 := mkF (fE s) (upd v c (dagt P))).
  pose proof (center_inv sv c Hc I P P1 P2 P3 (fE s) (fun _ _ => eq_refl)) as I1. cbn [fkx] in I1. fold s1 in I1.
  assert (I2 : Inv c (c + 1)%nat s1) by (eapply Inv_weak; [exact I1|lia|lia]).
  pose (w := v (c + 1)%nat).
  pose (q := dagt (mkT (tr V) (ko (K (c + 1)%nat)) (tr w) (tj w) (fun k t e => bsum (tr P) (fun b => C k b * conj (te w b t e))))).
  assert (U : forall j, j <> c -> upd v c (dagt P) j = v j) by (intros j Hj; unfold upd; now rewrite (proj2 (Nat.eqb_neq _ _)) by assumption).
  assert (Uc : upd v c (dagt P) c = dagt P) by (unfold upd; now rewrite Nat.eqb_refl).
  exists (upd (upd (fkx s1) c (dagt V)) (c + 1)%nat q).
  assert (ST : forall E0 o, Forall2 lt o D -> st (mkF E0 (upd (upd (fkx s1) c (dagt V)) (c + 1)%nat q)) o = st s1 o).
  { intros E0 o Ho. apply (same_two s1 c ltac:(lia) I2 E0 (dagt V) q); auto; unfold s1, q; cbn [FapSpec.dagt tl tp tr te fkx].
    - rewrite Uc. cbn. exact V1.
    - now rewrite V2.
    - rewrite U by lia. reflexivity.
    - intros a t1 t2 e Ha Ht1 Ht2 He. rewrite Uc, U by lia. cbn [FapSpec.dagt tr te].
      transitivity (bsum (tr P) (fun b => bsum (tr V) (fun k => te V a t1 k * C k b) * conj (te w b t2 e))).
      + transitivity (bsum (tr V) (fun k => te V a t1 k * bsum (tr P) (fun b => C k b * conj (te w b t2 e)))).
        * apply (bsum_ext r0 radd). intros k _. now rewrite !conj_conj.
        * both. pick 1. pick 0. ring.
      + apply (bsum_ext r0 radd). intros b Hb. rewrite conj_conj, V4; [reflexivity|congruence|congruence|assumption]. }
  csplit.
  - pose proof (inv_put s1 c ltac:(lia) I2 1 (mkF (upd (fE s) c (lenv (lwf (fE s (c - 1)) (x c) (K c)) (dagt V))) (upd (upd (fkx s1) c (dagt V)) (c + 1)%nat q)) (dagt V) q) as Q.
    change (1 =? 1)%Z with true in Q. cbn iota in Q. apply Q; unfold s1, q; cbn [FapSpec.dagt tl tp tr te fkx fE]; auto.
    + rewrite Uc. cbn. exact V1.
    + now rewrite V2.
    + rewrite U by lia. reflexivity.
    + intros _. split; [now apply LO_dag|reflexivity].
    + intros; congruence.
  - intros j Hj Hj'. unfold s1. cbn [fkx]. unfold upd. rewrite (proj2 (Nat.eqb_neq j (c + 1)%nat)) by assumption. destruct (Nat.eqb_spec j c); [reflexivity|]. now apply SM.
  - rewrite (dist2_ext D target target _ _ (fun _ _ => eq_refl) (ST _)), (dist2_ext D _ _ (st sv) (st sv) (ST _) (fun _ _ => eq_refl)).
    exact (center_dist sv c Hc I P P1 P2 P3 P4).
Qed.
Lemma step_left P V E' : 1 < c -> is_best P -> svd1 sw c false P = Ok V -> E' = upd (fE s) c (renv (rwf (fE s (c + 1)%nat) (x c) (K c)) (dagt V)) ->
  let s' := mkF E' (upd (fkx s) c (dagt V)) in
  exists v', Inv (c - 1) (c - 1) (mkF (fE s') v') /\ same (c - 1) v' s' /\
    dist2 D target (st sv) = dist2 D target (st (mkF (fE s') v')) + dist2 D (st (mkF (fE s') v')) (st sv).
Proof.
  intros Hn (P1 & P2 & P3 & P4) EV ->. cbv zeta. cbn [fE fkx].
  destruct (proj2 (SV sw c P V) EV) as (V1 & V2 & V3 & C & V4).
  pose (s1 := mkF (fE s) (upd v c (dagt P))).
  pose proof (center_inv sv c Hc I P P1 P2 P3 (fE s) (fun _ _ => eq_refl)) as I1. cbn [fkx] in I1. fold s1 in I1.
  assert (Eb : exists b, c = (b + 1)%nat /\ (c - 1)%nat = b /\ 1 <= b < N) by (exists (c - 1); lia). destruct Eb as (b & Ec & Ec' & Hb). rewrite Ec'.
  assert (I2 : Inv b (b + 1)%nat s1) by (eapply Inv_weak; [exact I1|lia|lia]).
  pose (w := v b).
  pose (p := dagt (mkT (tl w) (ko (K b)) (tl V) true (fun a t k => bsum (tl P) (fun e => conj (te w a t e) * C e k)))).
  assert (U : forall j, j <> c -> upd v c (dagt P) j = v j) by (intros j Hj; unfold upd; now rewrite (proj2 (Nat.eqb_neq _ _)) by assumption).
  assert (Uc : upd v c (dagt P) (b + 1)%nat = dagt P) by (rewrite <- Ec; unfold upd; now rewrite Nat.eqb_refl).
  assert (LW : tr w = tl P).
  { rewrite P1. unfold w. destruct (i_link _ _ _ I) as (_ & _ & L). cbn [fkx] in L. rewrite L by lia. do 2 f_equal. lia. }
  exists (upd (upd (fkx s1) b p) (b + 1)%nat (dagt V)).
  assert (ST : forall E0 o, Forall2 lt o D -> st (mkF E0 (upd (upd (fkx s1) b p) (b + 1)%nat (dagt V))) o = st s1 o).
  { intros E0 o Ho. apply (same_two s1 b Hb I2 E0 p (dagt V)); auto; unfold s1, p; cbn [FapSpec.dagt tl tp tr te fkx].
    - rewrite U by lia. reflexivity.
    - rewrite V2, <- Ec. exact P2.
    - rewrite Uc. cbn. exact V1.
    - intros a t1 t2 e Ha Ht1 Ht2 He. rewrite Uc, U by lia. cbn [FapSpec.dagt tr te]. fold w. rewrite LW.
      transitivity (bsum (tl P) (fun k => conj (te w a t1 k) * bsum (tl V) (fun m => C k m * te V m t2 e))).
      + transitivity (bsum (tl V) (fun k => bsum (tl P) (fun e0 => conj (te w a t1 e0) * C e0 k) * te V k t2 e)).
        * apply (bsum_ext r0 radd). intros k _. now rewrite !conj_conj.
        * both. pick 1. pick 0. ring.
      + apply (bsum_ext r0 radd). intros k Hk. rewrite conj_conj, V4; [reflexivity|assumption|congruence|congruence]. }
  csplit.
  - pose proof (inv_put s1 b Hb I2 2 (mkF (upd (fE s) c (renv (rwf (fE s (c + 1)%nat) (x c) (K c)) (dagt V))) (upd (upd (fkx s1) b p) (b + 1)%nat (dagt V))) p (dagt V)) as Q.
    change (2 =? 1)%Z with false in Q. cbn iota in Q. apply Q; unfold s1, p; cbn [FapSpec.dagt tl tp tr te fkx fE]; auto.
    + rewrite U by lia. reflexivity.
    + rewrite V2, <- Ec. exact P2.
    + rewrite Uc. cbn. exact V1.
    + intros; congruence.
    + intros _. split; [now apply RO_dag|]. rewrite Ec. replace (b + 1 + 1)%nat with (b + 2)%nat by lia. reflexivity.
  - intros j Hj Hj'. unfold s1. cbn [fkx]. rewrite <- Ec. unfold upd. destruct (Nat.eqb_spec j c); [reflexivity|]. rewrite (proj2 (Nat.eqb_neq j b)) by assumption. now apply SM.
  - rewrite (dist2_ext D target target _ _ (fun _ _ => eq_refl) (ST _)), (dist2_ext D _ _ (st sv) (st sv) (ST _) (fun _ _ => eq_refl)).
    exact (center_dist sv c Hc I P P1 P2 P3 P4).
Qed.
End Step.

Definition moved (s : @fstate R) v (s' : fstate) v' : Prop :=
  dist2 D target (st (mkF (fE s) v)) = dist2 D target (st (mkF (fE s') v')) + dist2 D (st (mkF (fE s') v')) (st (mkF (fE s) v)).
Definition best_at (c : nat) (s : @fstate R) (v : nat -> tensor) : Prop :=
  forall p, tl p = tl (v c) -> tp p = ko (K c) -> tr p = tr (v c) ->
    dist2 D target (amp (sg (upd (dk (mkF (fE s) v)) c p) 1 N)) = dist2 D target (st (mkF (fE s) v)) + dist2 D (st (mkF (fE s) v)) (amp (sg (upd (dk (mkF (fE s) v)) c p) 1 N)).
Lemma one_right s v c sw s' : 1 <= c < N -> Inv c c (mkF (fE s) v) -> same c v s -> one_step sw c 1 s = Ok s' ->
  exists v', Inv (c + 1)%nat (c + 1)%nat (mkF (fE s') v') /\ same (c + 1)%nat v' s' /\ moved s v s' v'.
Proof.
  intros Hc I SM E. unfold FapModel.one_step in E. change (1 =? 1)%Z with true in E. cbn iota in E.
  replace (c + 1 <=? N) with true in E by (symmetry; apply Nat.leb_le; lia). cbn iota in E.
  pose proof (pl_best s v c ltac:(lia) I SM (c <? N)) as B. set (P := pl _ _ _ _ _ _ _ _ _ _ _) in *.
  destruct (svd1 sw c true P) as [V| |] eqn:EV; try discriminate. cbn [obind] in E. injection E as <-.
  assert (U : upd (fkx s) c (dagt V) c = dagt V) by (unfold upd; now rewrite Nat.eqb_refl).
  exact (step_right s v c sw ltac:(lia) I SM P V (upd (fE s) c (lenv (lwf (fE s (c - 1)) (x c) (K c)) (upd (fkx s) c (dagt V) c))) ltac:(lia) B EV ltac:(now rewrite U)).
Qed.
Lemma one_turn s v sw s' : Inv N N (mkF (fE s) v) -> same N v s -> one_step sw N 1 s = Ok s' ->
  exists v', Inv N N (mkF (fE s') v') /\ same N v' s' /\ moved s v s' v'.
Proof.
  intros I SM E. unfold FapModel.one_step in E. change (1 =? 1)%Z with true in E. cbn iota in E.
  replace (N + 1 <=? N) with false in E by (symmetry; apply Nat.leb_gt; lia). cbn iota in E.
  pose proof (pl_best s v N ltac:(lia) I SM (N <? N)) as B. set (P := pl _ _ _ _ _ _ _ _ _ _ _) in *.
  cbn [obind] in E. injection E as <-.
  destruct (step_end s v N ltac:(lia) I SM (upd (fE s) N (lenv (lwf (fE s (N - 1)) (x N) (K N)) (upd (fkx s) N (dagt P) N))) P B) as (v' & J & S' & M & _).
  { intros j Hj. unfold upd. now rewrite (proj2 (Nat.eqb_neq _ _)) by assumption. }
  exists v'. csplit; [exact J| |exact M]. intros j Hj _. now apply S'.
Qed.
Lemma one_left s v c sw s' : 1 < c <= N -> Inv c c (mkF (fE s) v) -> same c v s -> one_step sw c 2 s = Ok s' ->
  exists v', Inv (c - 1) (c - 1) (mkF (fE s') v') /\ same (c - 1) v' s' /\ moved s v s' v'.
Proof.
  intros Hc I SM E. unfold FapModel.one_step in E. change (2 =? 1)%Z with false in E. cbn iota in E.
  replace (1 <=? c - 1) with true in E by (symmetry; apply Nat.leb_le; lia). cbn iota in E.
  pose proof (pr_best s v c ltac:(lia) I SM (c <? N)) as B. set (P := pr _ _ _ _ _ _ _ _ _ _ _) in *.
  destruct (svd1 sw c false P) as [V| |] eqn:EV; try discriminate. cbn [obind] in E. injection E as <-.
  assert (U : upd (fkx s) c (dagt V) c = dagt V) by (unfold upd; now rewrite Nat.eqb_refl).
  exact (step_left s v c sw ltac:(lia) I SM P V (upd (fE s) c (renv (rwf (fE s (c + 1)%nat) (x c) (K c)) (upd (fkx s) c (dagt V) c))) ltac:(lia) B EV ltac:(now rewrite U)).
Qed.
Lemma one_last s v sw s' : Inv 1 1 (mkF (fE s) v) -> same 1 v s -> one_step sw 1 2 s = Ok s' ->
  exists v', Inv 1 1 (mkF (fE s') v') /\ (forall j, 1 <= j <= N -> v' j = fkx s' j) /\ moved s v s' v' /\ best_at 1 s' v'.
Proof.
  intros I SM E. unfold FapModel.one_step in E. change (2 =? 1)%Z with false in E. cbn iota in E.
  change (1 <=? 1 - 1) with false in E. cbn iota in E.
  pose proof (pr_best s v 1 ltac:(lia) I SM (1 <? N)) as B. set (P := pr _ _ _ _ _ _ _ _ _ _ _) in *.
  cbn [obind] in E. injection E as <-.
  apply (step_end s v 1 ltac:(lia) I SM (upd (fE s) 1 (renv (rwf (fE s (1 + 1)%nat) (x 1) (K 1)) (upd (fkx s) 1 (dagt P) 1))) P B).
  intros j Hj. unfold upd. now rewrite (proj2 (Nat.eqb_neq _ _)) by assumption.
Qed.
Notation one_loop := (one_loop r0 radd rmul conj N fac x K svd1).
Definition done (n : nat) (s : @fstate R) v (s' : fstate) : Prop :=
  exists v', Inv 1 1 (mkF (fE s') v') /\ (forall j, 1 <= j <= N -> v' j = fkx s' j) /\ best_at 1 s' v' /\ path n (mkF (fE s) v) (mkF (fE s') v').
Lemma done_step n s v s1 v1 s' : moved s v s1 v1 -> done n s1 v1 s' -> done (S n) s v s'.
Proof. intros M (v' & A & B & C & P). exists v'. csplit; auto. exact (path_step n _ (mkF (fE s1) v1) _ M P). Qed.
Lemma one_done fuel sw b s s' : one_loop fuel sw b 3 s = Ok s' -> s' = s.
Proof. destruct fuel; cbn; congruence. Qed.
Lemma one_down sw : forall m fuel s v s', (m + 1 <= N)%nat -> Inv (m + 1)%nat (m + 1)%nat (mkF (fE s) v) -> same (m + 1)%nat v s ->
  one_loop fuel sw (Z.of_nat (m + 1)) 2 s = Ok s' -> done (m + 1)%nat s v s'.
Proof.
  induction m as [|m IH]; intros fuel s v s' Hm I SM E; (destruct fuel as [|fuel]; [discriminate|]); cbn [FapModel.one_loop] in E; change (2 <=? 2)%Z with true in E; cbn iota in E;
    rewrite Nat2Z.id in E; destruct (one_step sw _ 2 s) as [s1| |] eqn:E1; try discriminate; cbn [obind] in E; unfold sweepnext in E; change (2 =? 1)%Z with false in E; cbn iota in E.
  - change (Z.of_nat (0 + 1) + -1 =? 1 - 1)%Z with true in E. cbn iota in E. apply one_done in E. subst s'.
    destruct (one_last s v sw s1 I SM E1) as (v' & A & B & C & F). exists v'. csplit; auto. apply (path_step 0 _ (mkF (fE s1) v')); [exact C|apply path_refl].
  - replace (Z.of_nat (S m + 1) + -1 =? 1 - 1)%Z with false in E by (symmetry; apply Z.eqb_neq; lia). cbn iota in E.
    replace (Z.of_nat (S m + 1) + -1)%Z with (Z.of_nat (m + 1)) in E by lia.
    destruct (one_left s v (S m + 1)%nat sw s1 ltac:(lia) I SM E1) as (v1 & A & B & C). replace (S m + 1 - 1)%nat with (m + 1)%nat in A, B by lia.
    apply (done_step _ _ _ s1 v1); [exact C|]. exact (IH fuel s1 v1 s' ltac:(lia) A B E).
Qed.
Lemma one_up sw : forall m fuel b s v s', (b + m)%nat = N -> 1 <= b -> Inv b b (mkF (fE s) v) -> same b v s ->
  one_loop fuel sw (Z.of_nat b) 1 s = Ok s' -> done (m + 1 + N)%nat s v s'.
Proof.
  induction m as [|m IH]; intros fuel b s v s' Hm Hb I SM E; (destruct fuel as [|fuel]; [discriminate|]); cbn [FapModel.one_loop] in E; change (1 <=? 2)%Z with true in E; cbn iota in E;
    rewrite Nat2Z.id in E; destruct (one_step sw b 1 s) as [s1| |] eqn:E1; try discriminate; cbn [obind] in E; unfold sweepnext in E; change (1 =? 1)%Z with true in E; cbn iota in E.
  - replace (Z.of_nat b + 1 =? Z.of_nat N + 2 - 1)%Z with true in E by (symmetry; apply Z.eqb_eq; lia). cbn iota in E.
    replace (Z.of_nat b + 1 - 1)%Z with (Z.of_nat ((N - 1) + 1)) in E by lia. change (1 + 1)%Z with 2%Z in E.
    assert (b = N) as -> by lia.
    destruct (one_turn s v sw s1 I SM E1) as (v1 & A & B & C). apply (done_step _ _ _ s1 v1); [exact C|].
    assert (Q : done (N - 1 + 1)%nat s1 v1 s') by (apply (one_down sw (N - 1) fuel); [lia| | |exact E]; replace (N - 1 + 1)%nat with N by lia; assumption).
    replace (N - 1 + 1)%nat with N in Q by lia. exact Q.
  - replace (Z.of_nat b + 1 =? Z.of_nat N + 2 - 1)%Z with false in E by (symmetry; apply Z.eqb_neq; lia). cbn iota in E.
    replace (Z.of_nat b + 1)%Z with (Z.of_nat (b + 1)) in E by lia.
    destruct (one_right s v b sw s1 ltac:(lia) I SM E1) as (v1 & A & B & C). apply (done_step _ _ _ s1 v1); [exact C|].
    exact (IH fuel (b + 1)%nat s1 v1 s' ltac:(lia) ltac:(lia) A B E).
Qed.
Lemma one_sweeps_ok : forall left sw s v s', Inv 1 1 (mkF (fE s) v) -> (forall j, 1 <= j <= N -> v j = fkx s j) -> one_sweeps r0 radd rmul conj N fac x K svd1 left sw s = Ok s' ->
  exists v', Inv 1 1 (mkF (fE s') v') /\ (forall j, 1 <= j <= N -> v' j = fkx s' j) /\ (left <> 0 -> best_at 1 s' v') /\ path (left * (2 * N))%nat (mkF (fE s) v) (mkF (fE s') v').
Proof.
  induction left as [|left IH]; intros sw s v s' I SM E; cbn [one_sweeps] in E.
  - injection E as <-. exists v. csplit; [assumption|assumption|congruence|apply path_refl].
  - destruct (one_loop (2 * N) sw 1 1 s) as [s1| |] eqn:E1; try discriminate. cbn [obind] in E.
    destruct (one_up sw (N - 1) (2 * N) 1 s v s1 ltac:(lia) ltac:(lia) I (fun j H _ => SM j H) E1) as (v1 & A & B & C & P).
    destruct (IH (S sw) s1 v1 s' A B E) as (v' & A' & B' & C' & P'). exists v'. csplit; auto.
    + intros _. destruct left as [|left]; [|apply C'; discriminate]. cbn in E. injection E as <-.
      intros p H1 H2 H3.
      assert (Q : forall o, st (mkF (fE s1) v') o = st (mkF (fE s1) v1) o).
      { intros o. unfold st. rewrite (sg_ext (dk (mkF (fE s1) v')) (dk (mkF (fE s1) v1)) 1 N); [reflexivity|]. intros j Hj. unfold dk. cbn [fkx]. rewrite B, B' by lia. reflexivity. }
      assert (V1 : v' 1 = v1 1) by (rewrite B, B' by lia; reflexivity). rewrite V1 in H1, H3.
      rewrite (sg_ext (upd (dk (mkF (fE s1) v')) 1 p) (upd (dk (mkF (fE s1) v1)) 1 p) 1 N).
      2:{ intros j Hj. unfold upd, dk. cbn [fkx]. rewrite B, B' by lia. reflexivity. }
      rewrite (dist2_ext D target target _ _ (fun _ _ => eq_refl) (fun o _ => Q o)), (dist2_ext D _ _ _ _ (fun o _ => Q o) (fun _ _ => eq_refl)). exact (C p H1 H2 H3).
    + replace (S left * (2 * N))%nat with ((N - 1 + 1 + N) + left * (2 * N))%nat by lia. exact (path_trans _ _ _ _ _ P P').
Qed.
Lemma one_start kx : link kx -> (forall j, 1 <= j <= N -> tp (kx j) = ko (K j)) -> (forall j, 2 <= j <= N -> RO (kx j)) ->
  Inv 1 1 (mkF (init_one r0 r1 radd rmul N x K kx) kx).
Proof.
  intros LK ST O. pose proof (start_inv kx LK ST O) as [A B C F G H]. unfold init_one.
  set (E := init_env _ _ _ _ _ _ _ _) in *. cbn [fkx fE] in *. constructor; cbn [fkx fE]; auto.
  - intros j Hj Hj'. unfold upd. replace (j =? 2) with false by (symmetry; apply Nat.eqb_neq; lia). now apply G.
  - intros j Hj Hj'. unfold upd. destruct (Nat.eqb_spec j 2) as [->|]; [|apply H; lia].
    replace (N + 1 - 2)%nat with (S (N - 2)) by lia. unfold sg. cbn [seq map]. fold (@sg tensor Y 3 (N - 2)). fold (@sg tensor kx 3 (N - 2)).
    change (2 - 1) with 1.
    replace (tr (x 1)) with (tl (x 2)) by (symmetry; apply link_x; lia). replace (kr (K 1)) with (kl (K 2)) by (symmetry; apply link_k; lia).
    replace (tr (kx 1)) with (tl (kx 2)) by (symmetry; apply LK; lia).
    unfold Y at 1. apply renv_ok; [apply ST; lia|].
    pose proof (H 3 ltac:(lia) ltac:(lia)) as Q. replace (N + 1 - 3)%nat with (N - 2) in Q by lia. exact Q.
Qed.
Lemma fit_apply_one_ok nsweep kx res : proper (tensors kx N) -> sites (tensors kx N) = outs (tensors K N) ->
  fit_apply_one r0 r1 radd rmul conj N fac x K svd1 position1 nsweep kx = Ok res ->
  link res /\ (forall j, 1 <= j <= N -> tp (res j) = ko (K j)) /\ (forall j, 2 <= j <= N -> RO (res j)) /\
  (nsweep <> 0 -> forall p, tl p = tl (res 1) -> tp p = ko (K 1) -> tr p = tr (res 1) ->
    dist2 D target (amp (sg (upd res 1 p) 1 N)) = dist2 D target (amp (tensors res N)) + dist2 D (amp (tensors res N)) (amp (sg (upd res 1 p) 1 N))) /\
  exists l, length l = (nsweep * (2 * N))%nat /\ (forall c, Forall2 lt c D -> last l (amp (tensors kx N)) c = amp (tensors res N) c) /\
    dist2 D target (amp (tensors kx N)) = dist2 D target (amp (tensors res N)) + travelled (amp (tensors kx N)) l.
Proof.
  intros P S E. unfold fit_apply_one in E. destruct (position1 (fun j => dagt (kx j))) as [kx1| |] eqn:E1; try discriminate. cbn [obind] in E.
  set (s0 := mkF _ kx1) in E. destruct (one_sweeps r0 radd rmul conj N fac x K svd1 nsweep 1 s0) as [s| |] eqn:E2; try discriminate.
  cbn [obind] in E. injection E as <-.
  assert (TD : tensors (fun j => dagt (kx j)) N = map dagt (tensors kx N)) by (unfold tensors; now rewrite map_map).
  destruct (PO (fun j => dagt (kx j)) kx1) as (Q1 & Q2 & Q3 & Q4); [rewrite TD; now apply linked_dag|exact E1|].
  rewrite TD, sites_dag in Q2, Q3. rewrite S in Q2, Q3.
  assert (DO : outs (tensors K N) = D) by (unfold outs, tensors, D, sg; now rewrite map_map).
  rewrite DO in *.
  assert (LK : link kx1) by (apply link_iff; exact Q1).
  assert (ST : forall j, 1 <= j <= N -> tp (kx1 j) = ko (K j)).
  { intros j Hj. unfold sites, tensors, D, sg in Q2. rewrite map_map in Q2.
    apply (f_equal (fun l => nth_error l (j - 1))) in Q2. rewrite !nth_error_map in Q2.
    assert (NE : nth_error (seq 1 N) (j - 1) = Some j).
    { rewrite (nth_error_nth' _ 0) by (rewrite seq_length; lia). rewrite seq_nth by lia. f_equal. lia. }
    rewrite NE in Q2. cbn in Q2. congruence. }
  destruct (one_sweeps_ok nsweep 1 s0 kx1 s (one_start kx1 LK ST Q4) (fun _ _ => eq_refl) E2) as (v & I & SM & C & (l & L1 & L2 & L3)).
  change (mkF (fE s0) kx1) with s0 in L2, L3.
  assert (A0 : forall c, Forall2 lt c D -> amp (tensors kx N) c = st s0 c).
  { intros c Hc. unfold st, dk. rewrite <- (sg_map dagt). unfold amplitude. rewrite chain_dag. fold (amp (sg (fkx s0) 1 N) c).
    change (amp (sg (fkx s0) 1 N) c) with (amp (tensors kx1 N) c). rewrite Q3 by assumption. unfold amplitude. now rewrite chain_dag, conj_conj. }
  assert (SS : amp (tensors (fun j => dagt (fkx s j)) N) = st (mkF (fE s) v)).
  { unfold st, tensors. f_equal. apply (sg_ext (fun j => dagt (fkx s j)) (dk (mkF (fE s) v)) 1 N). intros j Hj. unfold dk. cbn [fkx]. rewrite SM by lia. reflexivity. }
  csplit.
  - apply (link_ext v); [intros j Hj; rewrite SM by assumption; split; reflexivity|]. apply (i_link _ _ _ I).
  - intros j Hj. cbn. rewrite <- SM by assumption. now apply (i_site _ _ _ I).
  - intros j Hj. rewrite <- SM by lia. apply RO_dag, (i_ro _ _ _ I). lia.
  - intros Nz p H1 H2 H3. rewrite SS. rewrite (sg_ext (upd (fun j => dagt (fkx s j)) 1 p) (upd (dk (mkF (fE s) v)) 1 p) 1 N).
    2:{ intros j Hj. unfold upd, dk. cbn [fkx]. rewrite SM by lia. reflexivity. }
    rewrite <- SM in H1, H3 by lia. cbn in H1, H3. exact (C Nz p H1 H2 H3).
  - exists l. rewrite SS. csplit; [exact L1| |].
    + intros c Hc. rewrite <- L2. destruct l as [|u l]; [cbn; now apply A0|]. now rewrite !last_cons.
    + rewrite (dist2_ext D target target _ _ (fun c _ => eq_refl) A0), L3. f_equal. destruct l as [|u l]; [reflexivity|].
      cbn [FapSpec.travelled]. f_equal. apply dist2_ext; [intros c Hc; symmetry; now apply A0|reflexivity].
Qed.
End FapProofs.
