(** Lemmas for sums of matrix product states. *)
From Coq Require Import List Bool Arith Lia Ring.
From Verif Require Import Util BigSum MpsModel MpsTensor MpsSpec MpsProofs SumModel.
Import ListNotations.
Local Open Scope outcome_scope.

Section Sum.
Context {R : Type} (r0 r1 : R) (radd rmul rsub : R -> R -> R) (ropp : R -> R).
Context (RT : ring_theory r0 r1 radd rmul rsub ropp eq).
Add Ring RRsm : RT.
Notation tensor := (@tensor R).
Notation bsum := (bsum r0 radd).
Notation chain := (chain r0 r1 radd rmul).
Notation amp := (amplitude r0 r1 radd rmul).
Infix "+" := radd. Infix "*" := rmul.

Lemma tadd_inv : forall x y z, tadd radd x y = Ok z ->
  tl x = tl y /\ tp x = tp y /\ tr x = tr y /\ tl z = tl x /\ tp z = tp x /\ tr z = tr x /\
  forall a s b, te z a s b = te x a s b + te y a s b.
Proof.
  intros x y z H. unfold tadd in H.
  destruct (Nat.eqb_spec (tl x) (tl y)); [|discriminate]. destruct (Nat.eqb_spec (tp x) (tp y)); [|discriminate].
  destruct (Nat.eqb_spec (tr x) (tr y)); [|discriminate]. cbn in H. injection H as <-. cbn. repeat split; auto.
Qed.
Lemma bsum_first : forall n c (f : nat -> R), bsum n (fun a => (if Nat.eqb a c then r1 else r0) * f a) = if Nat.ltb c n then f c else r0.
Proof.
  intros n c f. destruct (Nat.ltb_spec c n).
  - rewrite <- (bsum_delta r0 r1 radd rmul rsub ropp RT n c f) by assumption. apply (bsum_ext r0 radd). intros i Hi.
    unfold delta. rewrite Nat.eqb_sym. reflexivity.
  - apply (bsum_zero r0 r1 radd rmul rsub ropp RT). intros i Hi. destruct (Nat.eqb_spec i c); [lia|ring].
Qed.
Lemma bsum_second : forall n d c (f : nat -> R), bsum n (fun a => (if Nat.eqb (d + a)%nat c then r1 else r0) * f a)
   = if Nat.leb d c && Nat.ltb (c - d) n then f (c - d)%nat else r0.
Proof.
  intros n d c f. destruct (Nat.leb_spec d c); cbn [andb].
  - rewrite <- bsum_first. apply (bsum_ext r0 radd). intros i Hi.
    destruct (Nat.eqb_spec (d + i)%nat c); destruct (Nat.eqb_spec i (c - d)); try lia; reflexivity.
  - apply (bsum_zero r0 r1 radd rmul rsub ropp RT). intros i Hi. destruct (Nat.eqb_spec (d + i)%nat c); [lia|ring].
Qed.

(** The value of the summed chain from a link value of the sum index. *)
Definition blockval (d1 : nat) (f g : nat -> R) (a : nat) : R := if Nat.ltb a d1 then f a else g (a - d1)%nat.

Lemma split_sum : forall d1 d2 (f g h : nat -> R) (k1 k2 : nat -> R),
  (forall c, c < (d1 + d2)%nat -> h c = (if Nat.ltb c d1 then k1 c else k2 (c - d1)%nat)) ->
  bsum (d1 + d2)%nat (fun c => h c * blockval d1 f g c) = bsum d1 (fun c => k1 c * f c) + bsum d2 (fun c => k2 c * g c).
Proof.
  intros d1 d2 f g h k1 k2 H. rewrite (bsum_split r0 r1 radd rmul rsub ropp RT). f_equal.
  - apply (bsum_ext r0 radd). intros c Hc. rewrite H by lia. unfold blockval. destruct (Nat.ltb_spec c d1); [reflexivity|lia].
  - apply (bsum_ext r0 radd). intros c Hc. rewrite H by lia. unfold blockval. destruct (Nat.ltb_spec (d1 + c) d1); [lia|].
    replace (d1 + c - d1)%nat with c by lia. reflexivity.
Qed.

Lemma grow_first : forall (t : tensor) k c s b, te (grow_left r0 radd rmul (first r0 r1) k t) c s b = if Nat.ltb c (tl t) then te t c s b else r0.
Proof. intros. cbn [te tl tr grow_left grow_right mul_left mul_right]. unfold transpose, first. rewrite (bsum_first (tl t) c (fun a => te t a s b)). reflexivity. Qed.
Lemma grow_second : forall (t : tensor) d k c s b, te (grow_left r0 radd rmul (second r0 r1 d) k t) c s b
  = if Nat.leb d c && Nat.ltb (c - d) (tl t) then te t (c - d)%nat s b else r0.
Proof. intros. cbn [te tl tr grow_left grow_right mul_left mul_right]. unfold transpose, second. rewrite (bsum_second (tl t) d c (fun a => te t a s b)). reflexivity. Qed.
Lemma growr_first : forall (t : tensor) k a s c, te (grow_right r0 radd rmul (first r0 r1) k t) a s c = if Nat.ltb c (tr t) then te t a s c else r0.
Proof.
  intros. cbn [te tl tr grow_left grow_right mul_left mul_right]. unfold first. rewrite <- (bsum_first (tr t) c (fun b => te t a s b)). apply (bsum_ext r0 radd). intros. ring.
Qed.
Lemma growr_second : forall (t : tensor) d k a s c, te (grow_right r0 radd rmul (second r0 r1 d) k t) a s c
  = if Nat.leb d c && Nat.ltb (c - d) (tr t) then te t a s (c - d)%nat else r0.
Proof.
  intros. cbn [te tl tr grow_left grow_right mul_left mul_right]. unfold second. rewrite <- (bsum_second (tr t) d c (fun b => te t a s b)). apply (bsum_ext r0 radd). intros. ring.
Qed.

Ltac nb := repeat match goal with
  | |- context[Nat.ltb ?a ?b] => destruct (Nat.ltb_spec a b)
  | |- context[Nat.leb ?a ?b] => destruct (Nat.leb_spec a b)
  end; cbn [andb]; try lia.

Lemma add_rest_spec : forall ls rs zs d e, add_rest r0 r1 radd rmul ls rs = Ok zs -> linked d ls 1 -> linked e rs 1 ->
  linked (d + e)%nat zs 1 /\ length zs = length ls /\ length rs = length ls /\ sites zs = sites ls /\ sites rs = sites ls /\
  forall c a, length c = length ls -> a < (d + e)%nat ->
    chain zs c a 0 = blockval d (fun a => chain ls c a 0) (fun a => chain rs c a 0) a.
Proof.
  induction ls as [|x ls IH]; intros [|y rs] zs d e H L1 L2; try discriminate; [destruct ls; discriminate|].
  destruct L1 as (<- & L1). destruct L2 as (<- & L2).
  assert (Cases : (ls = [] /\ rs = [] /\
      (let! z := tadd radd (grow_left r0 radd rmul (first r0 r1) (tl x + tl y) x) (grow_left r0 radd rmul (second r0 r1 (tl x)) (tl x + tl y) y) in Ok [z]) = Ok zs)
    \/ ((let! z := tadd radd (grow_right r0 radd rmul (first r0 r1) (tr x + tr y) (grow_left r0 radd rmul (first r0 r1) (tl x + tl y) x))
                     (grow_right r0 radd rmul (second r0 r1 (tr x)) (tr x + tr y) (grow_left r0 radd rmul (second r0 r1 (tl x)) (tl x + tl y) y)) in
      let! zs := add_rest r0 r1 radd rmul ls rs in Ok (z :: zs)) = Ok zs)).
  { destruct ls as [|x' ls]; destruct rs as [|y' rs]; auto. }
  clear H. destruct Cases as [(-> & -> & H)|H].
  - cbn in L1, L2. destruct (tadd _ _ _) as [z| |] eqn:E; try discriminate. injection H as <-.
    apply tadd_inv in E. destruct E as (_ & E1 & E2 & E3 & E4 & E5 & E6).
    cbn in E1, E2, E3, E4, E5. cbn [linked length sites map]. split; [split; [assumption|congruence]|]. split; [reflexivity|]. split; [reflexivity|].
    split; [congruence|]. split; [congruence|].
    intros c a Lc Ha. destruct c as [|s [|? ?]]; try discriminate. cbn [MpsSpec.chain]. rewrite E5, L1.
    unfold blockval. rewrite !(bsum_1 r0 r1 radd rmul rsub ropp RT). rewrite E6, grow_first, grow_second.
    rewrite !L2, !(bsum_1 r0 r1 radd rmul rsub ropp RT). nb; ring.
  - destruct (tadd _ _ _) as [z| |] eqn:E; try discriminate. cbn [obind] in H.
    destruct (add_rest r0 r1 radd rmul ls rs) as [ws| |] eqn:Er; try discriminate. injection H as <-.
    apply tadd_inv in E. destruct E as (_ & E1 & E2 & E3 & E4 & E5 & E6). cbn in E1, E2, E3, E4, E5.
    destruct (IH rs ws (tr x) (tr y) Er L1 L2) as (K1 & K2 & K3 & K4 & K5 & K6).
    cbn [linked length sites map]. fold (sites ws). fold (sites ls). fold (sites rs).
    split; [split; [assumption|rewrite E5; assumption]|]. split; [congruence|]. split; [congruence|]. split; [congruence|]. split; [congruence|].
    intros c a Lc Ha. destruct c as [|s c]; try discriminate. cbn in Lc. injection Lc as Lc. cbn [MpsSpec.chain]. rewrite E5.
    erewrite (bsum_ext r0 radd); [|intros i Hi; rewrite (K6 c i Lc Hi); reflexivity].
    erewrite (split_sum (tr x) (tr y)) with
      (k1 := fun c => if Nat.ltb a (tl x) then te x a s c else r0)
      (k2 := fun c => if Nat.ltb a (tl x) then r0 else te y (a - tl x)%nat s c).
    2:{ intros i Hi. rewrite E6, growr_first, growr_second, grow_first, grow_second. cbn [tr grow_left mul_left]. nb; ring. }
    unfold blockval. destruct (Nat.ltb_spec a (tl x)).
    + rewrite (bsum_zero r0 r1 radd rmul rsub ropp RT (tr y)) by (intros; ring). ring.
    + rewrite (bsum_zero r0 r1 radd rmul rsub ropp RT (tr x)) by (intros; ring). ring.
Qed.

(** The sum of the amplitudes. *)
Lemma addAssumeOrth_spec : forall ls rs zs, addAssumeOrth r0 r1 radd rmul ls rs = Ok zs -> proper ls -> proper rs ->
  proper zs /\ sites zs = sites ls /\ sites rs = sites ls /\
  forall c, length c = length ls -> amp zs c = amp ls c + amp rs c.
Proof.
  intros ls rs zs H P1 P2. unfold addAssumeOrth in H. destruct (Nat.eqb_spec (length rs) (length ls)) as [El|]; [|discriminate]. cbn [negb] in H.
  destruct ls as [|x [|x' ls]]; try discriminate. destruct rs as [|y rs]; try discriminate. cbn [tail] in H.
  destruct P1 as (P1 & P1'). destruct P2 as (P2 & P2').
  destruct (tadd _ _ _) as [z| |] eqn:E; try discriminate. cbn [obind] in H.
  destruct (add_rest r0 r1 radd rmul (x' :: ls) rs) as [ws| |] eqn:Er; try discriminate. cbn [obind] in H. injection H as <-.
  apply tadd_inv in E. destruct E as (E0 & E1 & E2 & E3 & E4 & E5 & E6). cbn in E0, E1, E2, E3, E4, E5.
  destruct (add_rest_spec _ _ _ (tr x) (tr y) Er P1' P2') as (K1 & K2 & K3 & K4 & K5 & K6).
  split. { split; [congruence|]. rewrite E5. assumption. }
  unfold sites in K4, K5 |- *. cbn [map] in K4, K5 |- *. split; [congruence|]. split; [congruence|].
  intros c Lc. unfold amplitude. destruct c as [|s c]; [discriminate|]. cbn [length] in Lc. injection Lc as Lc.
  cbn [MpsSpec.chain]. rewrite E5.
  erewrite (bsum_ext r0 radd); [|intros i Hi; rewrite (K6 c i Lc Hi); reflexivity].
  erewrite (split_sum (tr x) (tr y)) with (k1 := fun c => te x 0 s c) (k2 := fun c => te y 0 s c).
  2:{ intros i Hi. rewrite E6, growr_first, growr_second. nb; ring. }
  reflexivity.
Qed.

(** It succeeds on states with the same sites, at least two. *)
Lemma add_rest_ok : forall ls rs d e, linked d ls 1 -> linked e rs 1 -> sites ls = sites rs -> ls <> [] ->
  exists zs, add_rest r0 r1 radd rmul ls rs = Ok zs.
Proof.
  induction ls as [|x ls IH]; intros [|y rs] d e L1 L2 S N; try discriminate; [congruence|].
  destruct L1 as (<- & L1). destruct L2 as (<- & L2). unfold sites in S. cbn [map] in S. injection S as S1 S2.
  destruct ls as [|x' ls]; destruct rs as [|y' rs]; try discriminate.
  - cbn in L1, L2. cbn. unfold tadd. cbn. rewrite S1, L1, L2, !Nat.eqb_refl. cbn. eauto.
  - destruct (IH (y' :: rs) (tr x) (tr y) L1 L2 S2) as (zs & E); [discriminate|].
    cbn [add_rest] in E |- *. unfold tadd at 1. cbn [grow_right grow_left mul_left mul_right tl tp tr].
    rewrite S1, !Nat.eqb_refl. cbn [andb obind]. cbn [add_rest]. rewrite E. cbn. eauto.
Qed.
Lemma addAssumeOrth_ok : forall ls rs, proper ls -> proper rs -> sites ls = sites rs -> 2 <= length ls ->
  exists zs, addAssumeOrth r0 r1 radd rmul ls rs = Ok zs.
Proof.
  intros ls rs P1 P2 S N. assert (El : length rs = length ls) by (unfold sites in S; rewrite <- (map_length (@tp R)), <- S, map_length; reflexivity).
  unfold addAssumeOrth. rewrite El, Nat.eqb_refl. cbn [negb]. destruct ls as [|x [|x' ls]]; cbn in N; try lia.
  destruct rs as [|y rs]; [discriminate|]. destruct P1 as (P1 & P1'). destruct P2 as (P2 & P2').
  unfold sites in S. cbn [map] in S. injection S as S1 S2. cbn [tail].
  destruct (add_rest_ok (x' :: ls) rs (tr x) (tr y) P1' P2') as (zs & E); [exact S2|discriminate|].
  unfold tadd at 1. cbn [grow_right mul_right tl tp tr]. rewrite S1, P1, P2, !Nat.eqb_refl. cbn [andb obind]. rewrite E. cbn. eauto.
Qed.
End Sum.

Section Tree.
Context {A V : Type} (plus : A -> A -> outcome A) (dflt : A) (vadd : V -> V -> V).
Variable ok : A -> Prop.
Variable val : A -> V -> Prop.
Fixpoint total (v : V) (vs : list V) : V := match vs with [] => v | w :: ws => vadd v (total w ws) end.

Hypothesis assoc : forall a b c, vadd (vadd a b) c = vadd a (vadd b c).
Hypothesis plus_val : forall x y z v w, ok x -> ok y -> val x v -> val y w -> plus x y = Ok z -> ok z /\ val z (vadd v w).

Lemma pairs_len : forall n ts zs, length ts <= n -> pairs plus ts = Ok zs -> length zs = Nat.div2 (S (length ts)).
Proof.
  induction n as [|n IH]; intros [|x [|y ts]] zs Hn H; cbn in Hn; try lia; cbn in H.
  - injection H as <-. reflexivity.
  - injection H as <-. reflexivity.
  - injection H as <-. reflexivity.
  - destruct (plus x y) as [z| |]; try discriminate. cbn in H. destruct (pairs plus ts) as [ws| |] eqn:E; try discriminate.
    injection H as <-. cbn [length]. rewrite (IH ts ws) by (auto; lia). reflexivity.
Qed.
Lemma pairs_val : forall n ts zs vs, length ts <= n -> pairs plus ts = Ok zs -> Forall ok ts -> Forall2 val ts vs ->
  exists ws, Forall ok zs /\ Forall2 val zs ws /\
    match vs, ws with [], [] => True | v :: vs', w :: ws' => total w ws' = total v vs' | _, _ => False end.
Proof.
  induction n as [|n IH]; intros [|x [|y ts]] zs vs Hn H F V2; cbn in Hn; try lia; cbn in H.
  - injection H as <-. inversion V2; subst. exists []. auto.
  - injection H as <-. inversion V2; subst. exists []. auto.
  - injection H as <-. inversion V2 as [|? ? ? ? ? V3]; subst. inversion V3; subst. exists [y]. repeat split; auto.
  - destruct (plus x y) as [z| |] eqn:Ez; try discriminate. cbn in H. destruct (pairs plus ts) as [ws| |] eqn:E; try discriminate.
    injection H as <-. inversion V2 as [|? v ? vs1 Hv V3]; subst. inversion V3 as [|? w ? vs2 Hw V4]; subst.
    inversion F as [|? ? O1 F1]; subst. inversion F1 as [|? ? O2 F2]; subst.
    destruct (plus_val _ _ _ _ _ O1 O2 Hv Hw Ez) as (O3 & V5).
    destruct (IH ts ws vs2 ltac:(lia) E F2 V4) as (us & G1 & G2 & G3).
    exists (vadd v w :: us). split; [constructor; assumption|]. split; [constructor; assumption|].
    destruct vs2 as [|v2 vs2]; destruct us as [|u us]; try contradiction; cbn [total].
    + reflexivity.
    + rewrite G3, assoc. reflexivity.
Qed.
Lemma sum_fuel_val : forall n ts s v vs, sum_fuel plus dflt n ts = Ok s -> Forall ok ts -> Forall2 val ts (v :: vs) ->
  ok s /\ val s (total v vs).
Proof.
  induction n as [|n IH]; intros ts s v vs H F V2; destruct ts as [|x [|y [|w ts]]]; try (inversion V2; fail).
  - cbn in H. injection H as <-. inversion V2 as [|? ? ? ? Hv V3]; subst. inversion V3; subst. inversion F; subst. auto.
  - cbn in H. inversion V2 as [|? ? ? ? Hv V3]; subst. inversion V3 as [|? u ? ? Hw V4]; subst. inversion V4; subst.
    inversion F as [|? ? O1 F1]; subst. inversion F1 as [|? ? O2 F2]; subst. exact (plus_val _ _ _ _ _ O1 O2 Hv Hw H).
  - cbn in H. discriminate.
  - cbn in H. injection H as <-. inversion V2 as [|? ? ? ? Hv V3]; subst. inversion V3; subst. inversion F; subst. auto.
  - cbn in H. inversion V2 as [|? ? ? ? Hv V3]; subst. inversion V3 as [|? u ? ? Hw V4]; subst. inversion V4; subst.
    inversion F as [|? ? O1 F1]; subst. inversion F1 as [|? ? O2 F2]; subst. exact (plus_val _ _ _ _ _ O1 O2 Hv Hw H).
  - cbn [sum_fuel] in H. destruct (pairs plus (x :: y :: w :: ts)) as [zs| |] eqn:E; try discriminate. cbn [obind] in H.
    destruct (pairs_val _ _ _ (v :: vs) (le_n _) E F V2) as (ws & G1 & G2 & G3).
    destruct ws as [|u us]; [contradiction|]. rewrite <- G3. eapply IH; eauto.
Qed.
(** The recursion ends within its fuel. *)
Hypothesis plus_ok : forall x y, ok x -> ok y -> exists z, plus x y = Ok z /\ ok z.
Lemma pairs_ok : forall n ts, length ts <= n -> Forall ok ts -> exists zs, pairs plus ts = Ok zs /\ Forall ok zs.
Proof.
  induction n as [|n IH]; intros [|x [|y ts]] Hn F; cbn in Hn; try lia; cbn [pairs]; eauto.
  inversion F as [|? ? O1 F1]; subst. inversion F1 as [|? ? O2 F2]; subst.
  destruct (plus_ok x y O1 O2) as (z & -> & Oz). destruct (IH ts ltac:(lia) F2) as (zs & -> & Fz). cbn. eauto.
Qed.
Lemma div2_le : forall n, Nat.div2 (S n) <= S n.
Proof. intros n. apply Nat.div2_decr. lia. Qed.
Lemma sum_fuel_ok : forall n ts, length ts <= S (S n) -> ts <> [] -> Forall ok ts -> exists s, sum_fuel plus dflt n ts = Ok s /\ ok s.
Proof.
  induction n as [|n IH]; intros [|x [|y [|w ts]]] Hn N F; cbn in Hn; try lia; try congruence; cbn [sum_fuel].
  - inversion F; subst. eauto.
  - inversion F as [|? ? O1 F1]; subst. inversion F1 as [|? ? O2 F2]; subst. destruct (plus_ok x y O1 O2) as (z & E & Oz). eauto.
  - inversion F; subst. eauto.
  - inversion F as [|? ? O1 F1]; subst. inversion F1 as [|? ? O2 F2]; subst. destruct (plus_ok x y O1 O2) as (z & E & Oz). eauto.
  - destruct (pairs_ok _ _ (le_n _) F) as (zs & E & Fz). rewrite E. cbn [obind]. apply IH; [| |assumption].
    + rewrite (pairs_len _ _ _ (le_n _) E). cbn [length].
      change (Nat.div2 (S (S (S (S (length ts)))))) with (S (S (Nat.div2 (length ts)))).
      pose proof (Nat.div2_decr (length ts) (length ts) ltac:(lia)). lia.
    + intros ->. apply pairs_len with (n := length (x :: y :: w :: ts)) in E; [|lia]. cbn in E. discriminate.
Qed.
End Tree.
