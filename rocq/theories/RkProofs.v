(** Proofs for property C70. *)
From Coq Require Import List Arith Bool Lia Ring Field.
From Verif Require Import Util BigSum RkSpec RkModel.
Import ListNotations.

Section Loop.
Context {K V Sh : Type} (k0 k1 : K) (kadd kmul ksub : K -> K -> K) (kopp : K -> K) (kdiv : K -> K -> K) (kinv : K -> K).
Context (FT : field_theory k0 k1 kadd kmul ksub kopp kdiv kinv eq).
Context (vz : Sh -> V) (vadd : V -> V -> V) (vsc : K -> V -> V) (sh : V -> Sh) (sheq : Sh -> Sh -> bool).
Context (SP : space_ok k0 k1 kadd kmul vz vadd vsc sh) (SE : forall a b, sheq a b = true <-> a = b).
Add Field FTrk : FT.
Notation pluseq := (t_pluseq vadd sh sheq).
Notation each := (pluseq_each vadd sh sheq).
Notation shows := (shows vz sh).
Notation shaped := (shaped sh).
Notation acts := (acts vz sh).
Notation linear := (linear vadd vsc sh).
Notation two := (kadd k1 k1).
Notation six := (kadd two (kadd two two)).

Lemma sheq_refl a : sheq a a = true. Proof. now apply SE. Qed.

Lemma at_some {A} (l : list A) j a : nth_error l j = Some a -> at_ l j = Ok a.
Proof. unfold at_. now intros ->. Qed.

(** The loop over places a, a+1, .., a+n-1. *)
Lemma each_ok g f n : forall a d,
  (forall j, a <= j < a + n -> exists x y, nth_error d j = Some x /\ g j = Ok y /\ pluseq x y = Ok (f j)) ->
  exists d', each g (seq a n) d = Ok d' /\ length d' = length d /\
    (forall j, a <= j < a + n -> nth_error d' j = Some (f j)) /\
    (forall j, j < a \/ a + n <= j -> nth_error d' j = nth_error d j).
Proof.
  induction n as [|n IH]; intros a d H; cbn [seq pluseq_each].
  - exists d. repeat apply conj; auto. intros; lia.
  - destruct (H a ltac:(lia)) as (x & y & Hx & Hy & Hr).
    rewrite Hy. cbn [obind]. rewrite (at_some _ _ _ Hx). cbn [obind]. rewrite Hr. cbn [obind].
    destruct (IH (S a) (upd a (f a) d)) as (d' & E & L & In & Out).
    { intros j Hj. destruct (H j ltac:(lia)) as (x' & y' & Hx' & Hy' & Hr').
      exists x', y'. repeat apply conj; auto. rewrite nth_error_upd_neq by lia. exact Hx'. }
    exists d'. repeat apply conj; auto.
    + now rewrite L, upd_length.
    + intros j Hj. destruct (Nat.eq_dec j a) as [->|Ne].
      * rewrite Out by lia. apply nth_error_upd_eq. apply nth_error_Some. now rewrite Hx.
      * apply In. lia.
    + intros j Hj. rewrite Out by lia. apply nth_error_upd_neq. lia.
Qed.

(** Adding y_j at every place. *)
Lemma each_add N s v x g y : shows N s v x -> shaped N s y ->
  (forall j, 1 <= j <= N -> g j = Ok (Some (y j))) ->
  exists d, each g (seq 1 N) v = Ok d /\ same_outside N v d /\
    (forall j, 1 <= j <= N -> nth_error d j = Some (Some (vadd (x j) (y j)))).
Proof.
  intros [Sx Hx] Sy G.
  destruct (each_ok g (fun j => Some (vadd (x j) (y j))) N 1 v) as (d & E & L & In & Out).
  { intros j Hj. assert (Hj' : 1 <= j <= N) by lia.
    destruct (Hx j Hj') as [E|[E E0]].
    - exists (Some (x j)), (Some (y j)). repeat apply conj; auto. cbn [t_pluseq].
      rewrite (Sx j Hj'), (Sy j Hj'), sheq_refl. reflexivity.
    - exists None, (Some (y j)). repeat apply conj; auto. cbn [t_pluseq].
      rewrite E0, <- (Sy j Hj'), (sp_0 _ _ _ _ _ _ _ _ SP). reflexivity. }
  exists d. split; [exact E|]. split.
  - split; [exact L|]. intros j Hj. apply Out. lia.
  - intros j Hj. apply In. lia.
Qed.

Lemma shaped_axpy N s x c y : shaped N s x -> shaped N s y -> shaped N s (fun j => vadd (x j) (vsc c (y j))).
Proof.
  intros Hx Hy j Hj. rewrite (sp_sha _ _ _ _ _ _ _ _ SP); rewrite ?(sp_shs _ _ _ _ _ _ _ _ SP), Hx by assumption; auto.
  now rewrite Hy.
Qed.
Lemma shaped_sc N s c y : shaped N s y -> shaped N s (fun j => vsc c (y j)).
Proof. intros Hy j Hj. rewrite (sp_shs _ _ _ _ _ _ _ _ SP). now apply Hy. Qed.

(** d = v + c k *)
Lemma each_axpy N s v x c k y : shows N s v x -> shaped N s y ->
  (forall j, 1 <= j <= N -> nth_error k j = Some (Some (y j))) ->
  exists d, each (times_at vsc c k) (seq 1 N) v = Ok d /\ same_outside N v d /\
    (forall j, 1 <= j <= N -> nth_error d j = Some (Some (vadd (x j) (vsc c (y j))))).
Proof.
  intros Hx Hy Hk. apply (each_add N s v x _ (fun j => vsc c (y j))); auto.
  - now apply shaped_sc.
  - intros j Hj. unfold times_at. rewrite (at_some _ _ _ (Hk j Hj)). reflexivity.
Qed.

Lemma shows_of N s d x : shaped N s x -> (forall j, 1 <= j <= N -> nth_error d j = Some (Some (x j))) -> shows N s d x.
Proof. intros H H'. split; auto. Qed.

Lemma same_refl N (v : list (option V)) : same_outside N v v.
Proof. split; auto. Qed.

Lemma shrink_ok (v : list (option V)) : forall n, n < length v -> (forall j, n < j < length v -> nth_error v j = Some None) ->
  forall N, last_place v N -> N <= n -> shrink v n = Ok N.
Proof.
  induction n as [|n IH]; intros Hn Hnull N (HN & Hafter & Hat) Hle.
  - lia.
  - cbn [shrink]. destruct (nth_error v (S n)) as [a|] eqn:Ea.
    2:{ apply nth_error_None in Ea. lia. }
    rewrite (at_some _ _ _ Ea). cbn [obind].
    destruct (Nat.eq_dec N (S n)) as [->|Ne].
    + destruct a; cbn [andb]; [reflexivity|]. destruct (1 <? S n) eqn:E1; [|reflexivity].
      apply Nat.ltb_lt in E1. exfalso. now apply Hat.
    + rewrite Hafter in Ea by lia. injection Ea as <-. cbn [andb].
      replace (1 <? S n) with true by (symmetry; apply Nat.ltb_lt; lia).
      apply IH; try lia; [|now repeat apply conj]. intros j Hj. apply Hafter. lia.
Qed.

Lemma start_ok (v : list (option V)) N : last_place v N -> start v = Ok N.
Proof.
  intros H. unfold start. destruct H as ((H1 & H2) & H3 & H4). destruct (length v) as [|n] eqn:E; [lia|].
  rewrite (shrink_ok v n) with (N := N); try lia.
  - cbn [obind]. destruct N; [lia|]. reflexivity.
  - repeat apply conj; auto; rewrite E; auto.
Qed.

Lemma last_place_ex (v : list (option V)) : 2 <= length v -> exists N, last_place v N.
Proof.
  intros H.
  assert (G : forall n, 1 <= n < length v -> (forall j, n < j < length v -> nth_error v j = Some None) ->
    exists N, last_place v N).
  { induction n as [|n IH]; intros Hn Hj; [lia|].
    destruct (nth_error v (S n)) as [[a|]|] eqn:E.
    - exists (S n). repeat apply conj; auto; try lia. rewrite E. discriminate.
    - destruct (Nat.eq_dec n 0) as [->|Nz].
      + exists 1. repeat apply conj; auto; lia.
      + apply IH; [lia|]. intros j Hlt. destruct (Nat.eq_dec j (S n)) as [->|]; [exact E|]. apply Hj. lia.
    - apply nth_error_None in E. lia. }
  apply (G (length v - 1)); [lia|]. intros; lia.
Qed.

(** F looks at places 1..N only. *)
Lemma acts_ext N s v D F x y : N < length v -> acts N s v D F -> shaped N s x ->
  (forall j, 1 <= j <= N -> x j = y j) -> forall j, 1 <= j <= N -> F x j = F y j.
Proof.
  intros HN [_ A] Sx E j Hj.
  set (w := map (fun i => if (1 <=? i) && (i <=? N) then Some (x i) else nth i v None) (seq 0 (length v))).
  assert (W : forall i, i < length v ->
    nth_error w i = Some (if (1 <=? i) && (i <=? N) then Some (x i) else nth i v None)).
  { intros i Hi. unfold w. rewrite nth_error_map.
    rewrite (nth_error_nth' _ 0) by now rewrite seq_length. rewrite seq_nth by assumption. reflexivity. }
  assert (So : same_outside N v w).
  { split; [unfold w; now rewrite map_length, seq_length|]. intros i Hi.
    destruct (Nat.lt_ge_cases i (length v)) as [Hl|Hl].
    - rewrite W by assumption. rewrite (nth_error_nth' v None) by assumption.
      destruct (1 <=? i) eqn:E1, (i <=? N) eqn:E2; cbn [andb]; try reflexivity.
      apply Nat.leb_le in E1. apply Nat.leb_le in E2. lia.
    - rewrite (proj2 (nth_error_None v i)) by lia. apply nth_error_None. unfold w. rewrite map_length, seq_length. lia. }
  assert (P : forall i, 1 <= i <= N -> nth_error w i = Some (Some (x i))).
  { intros i Hi. rewrite W by lia. replace (1 <=? i) with true by (symmetry; apply Nat.leb_le; lia).
    replace (i <=? N) with true by (symmetry; apply Nat.leb_le; lia). reflexivity. }
  destruct (A w x So) as (k & Ek & Hk). { now apply shows_of. }
  destruct (A w y So) as (k' & Ek' & Hk').
  { apply shows_of; [intros i Hi; rewrite <- E by assumption; now apply Sx|].
    intros i Hi. rewrite <- E by assumption. now apply P. }
  rewrite Ek in Ek'. injection Ek' as <-. specialize (Hk j Hj). specialize (Hk' j Hj). congruence.
Qed.

(** * The steps, for any derivative *)
Definition axpy (x : @point V) (c : K) (y : @point V) : @point V := fun j => vadd (x j) (vsc c (y j)).
Notation half t := (kmul t (kinv two)).

Lemma midpoint_tableau N s v D F t x : last_place v N -> acts N s v D F -> shows N s v x ->
  exists v', midpointMethod k1 kadd kmul kinv vadd vsc sh sheq D t v = Ok v' /\ same_outside N v v' /\
    forall j, 1 <= j <= N -> nth_error v' j = Some (Some (axpy x t (F (axpy x (half t) (F x))) j)).
Proof.
  intros HN A Hx. pose proof (proj1 Hx) as Sx. destruct A as [SF A].
  unfold midpointMethod. rewrite (start_ok v N HN). cbn [obind].
  destruct (A v x (same_refl N v) Hx) as (q1 & E1 & H1). rewrite E1. cbn [obind].
  destruct (each_axpy N s v x (half t) q1 (F x) Hx (SF x Sx) H1) as (d1 & Ed1 & So1 & Hd1).
  rewrite Ed1. cbn [obind].
  assert (S1 : shaped N s (axpy x (half t) (F x))) by (apply shaped_axpy; auto).
  destruct (A d1 (axpy x (half t) (F x)) So1) as (q2 & E2 & H2). { now apply shows_of. }
  rewrite E2. cbn [obind].
  apply (each_axpy N s v x t q2 _ Hx (SF _ S1) H2).
Qed.

Lemma rk4_tableau N s v D F t x : last_place v N -> acts N s v D F -> shows N s v x ->
  exists v', rungeKutta4 k1 kadd kmul kinv vadd vsc sh sheq D t v = Ok v' /\ same_outside N v v' /\
    forall j, 1 <= j <= N ->
      let a1 := F x in
      let a2 := F (axpy x (half t) a1) in
      let a3 := F (axpy x (half t) a2) in
      let a4 := F (axpy x t a3) in
      nth_error v' j = Some (Some (vadd (x j) (vsc (kmul t (kinv six))
        (vadd (vadd (vsc two (a3 j)) (vadd (vsc two (a2 j)) (a1 j))) (a4 j))))).
Proof.
  intros HN A Hx. pose proof (proj1 Hx) as Sx. destruct A as [SF A].
  unfold rungeKutta4. rewrite (start_ok v N HN). cbn [obind].
  destruct (A v x (same_refl N v) Hx) as (q1 & E1 & H1). rewrite E1. cbn [obind].
  pose proof (SF x Sx) as T1.
  destruct (each_axpy N s v x (half t) q1 (F x) Hx T1 H1) as (d1 & Ed1 & So1 & Hd1).
  rewrite Ed1. cbn [obind].
  set (a1 := F x) in *.
  assert (S1 : shaped N s (axpy x (half t) a1)) by (apply shaped_axpy; auto).
  destruct (A d1 (axpy x (half t) a1) So1) as (q2 & E2 & H2). { now apply shows_of. }
  rewrite E2. cbn [obind]. pose proof (SF _ S1) as T2.
  set (a2 := F (axpy x (half t) a1)) in *.
  destruct (each_axpy N s v x (half t) q2 a2 Hx T2 H2) as (d2 & Ed2 & So2 & Hd2).
  rewrite Ed2. cbn [obind].
  assert (S2 : shaped N s (axpy x (half t) a2)) by (apply shaped_axpy; auto).
  destruct (A d2 (axpy x (half t) a2) So2) as (q3 & E3 & H3). { now apply shows_of. }
  rewrite E3. cbn [obind]. pose proof (SF _ S2) as T3.
  set (a3 := F (axpy x (half t) a2)) in *.
  destruct (each_axpy N s v x t q3 a3 Hx T3 H3) as (d3 & Ed3 & So3 & Hd3).
  rewrite Ed3. cbn [obind].
  assert (S3 : shaped N s (axpy x t a3)) by (apply shaped_axpy; auto).
  destruct (A d3 (axpy x t a3) So3) as (q4 & E4 & H4). { now apply shows_of. }
  rewrite E4. cbn [obind]. pose proof (SF _ S3) as T4.
  cbv zeta. fold a1. fold a2. fold a3.
  set (a4 := F (axpy x t a3)) in *.
  pose (y := fun j => vsc (kmul t (kinv six)) (vadd (vadd (vsc two (a3 j)) (vadd (vsc two (a2 j)) (a1 j))) (a4 j))).
  assert (P1 : forall j, 1 <= j <= N -> sh (vsc two (a2 j)) = sh (a1 j)).
  { intros j Hj. rewrite (sp_shs _ _ _ _ _ _ _ _ SP), (T1 j Hj), (T2 j Hj). reflexivity. }
  assert (P2 : forall j, 1 <= j <= N -> sh (vsc two (a3 j)) = sh (vadd (vsc two (a2 j)) (a1 j))).
  { intros j Hj. rewrite (sp_sha _ _ _ _ _ _ _ _ SP) by auto.
    rewrite !(sp_shs _ _ _ _ _ _ _ _ SP), (T2 j Hj), (T3 j Hj). reflexivity. }
  assert (P3 : forall j, 1 <= j <= N -> sh (vadd (vsc two (a3 j)) (vadd (vsc two (a2 j)) (a1 j))) = sh (a4 j)).
  { intros j Hj. rewrite (sp_sha _ _ _ _ _ _ _ _ SP) by auto.
    rewrite !(sp_shs _ _ _ _ _ _ _ _ SP), (T3 j Hj), (T4 j Hj). reflexivity. }
  apply (each_add N s v x _ y Hx).
  - intros j Hj. unfold y. rewrite (sp_shs _ _ _ _ _ _ _ _ SP).
    rewrite (sp_sha _ _ _ _ _ _ _ _ SP) by auto. rewrite P3 by auto. now apply T4.
  - intros j Hj. unfold weighted, times_at.
    rewrite (at_some _ _ _ (H1 j Hj)), (at_some _ _ _ (H2 j Hj)), (at_some _ _ _ (H3 j Hj)), (at_some _ _ _ (H4 j Hj)).
    cbn [obind t_scale t_plus_tmp t_plus t_pluseq].
    rewrite P1, sheq_refl by auto. cbn [obind t_pluseq].
    rewrite P2, sheq_refl by auto. cbn [obind t_pluseq].
    unfold t_plus. cbn [obind t_pluseq].
    rewrite P3, sheq_refl by auto. reflexivity.
Qed.

Lemma mul_nz a b : a <> k0 -> b <> k0 -> kmul a b <> k0.
Proof.
  intros Ha Hb H. apply Hb. transitivity (kmul (kinv a) (kmul a b)); [field; auto|]. rewrite H. ring.
Qed.

(** * Linear combinations of five tensors of one shape *)
Section Five.
Context (u0 u1 u2 u3 u4 : V) (E1 : sh u1 = sh u0) (E2 : sh u2 = sh u0) (E3 : sh u3 = sh u0) (E4 : sh u4 = sh u0).
Definition C5 a b c d e := vadd (vadd (vadd (vadd (vsc a u0) (vsc b u1)) (vsc c u2)) (vsc d u3)) (vsc e u4).
Lemma sh2 p q : sh p = sh u0 -> sh q = sh u0 -> sh (vadd p q) = sh u0.
Proof. intros. rewrite (sp_sha _ _ _ _ _ _ _ _ SP); congruence. Qed.
Lemma shs p c : sh p = sh u0 -> sh (vsc c p) = sh u0.
Proof. intros. rewrite (sp_shs _ _ _ _ _ _ _ _ SP); congruence. Qed.
Lemma sh_C5 a b c d e : sh (C5 a b c d e) = sh u0.
Proof. unfold C5. repeat apply sh2; apply shs; auto. Qed.
Lemma swap4 p q r s : sh p = sh u0 -> sh q = sh u0 -> sh r = sh u0 -> sh s = sh u0 ->
  vadd (vadd p q) (vadd r s) = vadd (vadd p r) (vadd q s).
Proof.
  intros Hp Hq Hr Hs.
  assert (X : forall a b c, sh a = sh u0 -> sh b = sh u0 -> sh c = sh u0 -> vadd a (vadd b c) = vadd (vadd a b) c).
  { intros a b c Ha Hb Hc. apply (sp_assoc _ _ _ _ _ _ _ _ SP); congruence. }
  rewrite <- (X p q), (X q r s), (sp_comm _ _ _ _ _ _ _ _ SP q r), <- (X r q s), (X p r) by (auto using sh2; congruence).
  reflexivity.
Qed.
Lemma C5_add a b c d e a' b' c' d' e' :
  vadd (C5 a b c d e) (C5 a' b' c' d' e') = C5 (kadd a a') (kadd b b') (kadd c c') (kadd d d') (kadd e e').
Proof.
  unfold C5. rewrite !(sp_plus _ _ _ _ _ _ _ _ SP).
  rewrite (swap4 _ (vsc e u4) _ (vsc e' u4)) by (repeat apply sh2; apply shs; auto).
  rewrite (swap4 _ (vsc d u3) _ (vsc d' u3)) by (repeat apply sh2; apply shs; auto).
  rewrite (swap4 _ (vsc c u2) _ (vsc c' u2)) by (repeat apply sh2; apply shs; auto).
  rewrite (swap4 _ (vsc b u1) _ (vsc b' u1)) by (repeat apply sh2; apply shs; auto).
  reflexivity.
Qed.
Lemma C5_sc k a b c d e : vsc k (C5 a b c d e) = C5 (kmul k a) (kmul k b) (kmul k c) (kmul k d) (kmul k e).
Proof.
  unfold C5. rewrite !(sp_mul _ _ _ _ _ _ _ _ SP).
  assert (X : forall p q, sh p = sh u0 -> sh q = sh u0 -> vsc k (vadd p q) = vadd (vsc k p) (vsc k q)).
  { intros p q Hp Hq. apply (sp_dist _ _ _ _ _ _ _ _ SP). congruence. }
  rewrite (X _ (vsc e u4)) by (repeat apply sh2; apply shs; auto).
  rewrite (X _ (vsc d u3)) by (repeat apply sh2; apply shs; auto).
  rewrite (X _ (vsc c u2)) by (repeat apply sh2; apply shs; auto).
  rewrite (X _ (vsc b u1)) by (repeat apply sh2; apply shs; auto).
  reflexivity.
Qed.
Lemma add_z p : sh p = sh u0 -> vadd p (vz (sh u0)) = p.
Proof.
  intros H. rewrite (sp_comm _ _ _ _ _ _ _ _ SP).
  - rewrite <- H. apply (sp_0 _ _ _ _ _ _ _ _ SP).
  - now rewrite (sp_sh0 _ _ _ _ _ _ _ _ SP).
Qed.
Lemma z_add p : sh p = sh u0 -> vadd (vz (sh u0)) p = p.
Proof. intros <-. apply (sp_0 _ _ _ _ _ _ _ _ SP). Qed.
Ltac unit5 := unfold C5; rewrite !(sp_z _ _ _ _ _ _ _ _ SP), !(sp_1 _ _ _ _ _ _ _ _ SP), ?E1, ?E2, ?E3, ?E4;
  repeat first [rewrite add_z by (repeat apply sh2; solve [auto | apply (sp_sh0 _ _ _ _ _ _ _ _ SP)])
              | rewrite z_add by (repeat apply sh2; solve [auto | apply (sp_sh0 _ _ _ _ _ _ _ _ SP)])]; reflexivity.
Lemma is_u0 : u0 = C5 k1 k0 k0 k0 k0. Proof. unit5. Qed.
Lemma is_u1 : u1 = C5 k0 k1 k0 k0 k0. Proof. unit5. Qed.
Lemma is_u2 : u2 = C5 k0 k0 k1 k0 k0. Proof. unit5. Qed.
Lemma is_u3 : u3 = C5 k0 k0 k0 k1 k0. Proof. unit5. Qed.
Lemma is_u4 : u4 = C5 k0 k0 k0 k0 k1. Proof. unit5. Qed.

(** Bring both sides to the form C5. *)
Lemma rk4_combination t : two <> k0 -> kadd two k1 <> k0 ->
  let a2 := vadd u1 (vsc (half t) u2) in
  let a3 := vadd u1 (vsc (half t) (vadd u2 (vsc (half t) u3))) in
  let a4 := vadd u1 (vsc t (vadd u2 (vsc (half t) (vadd u3 (vsc (half t) u4))))) in
  vadd u0 (vsc (kmul t (kinv six)) (vadd (vadd (vsc two a3) (vadd (vsc two a2) u1)) a4)) =
  vadd (vadd (vadd (vadd u0 (vsc (kmul (kpow k1 kmul t 1) (kinv (ofN k0 k1 kadd (fact 1)))) u1))
    (vsc (kmul (kpow k1 kmul t 2) (kinv (ofN k0 k1 kadd (fact 2)))) u2))
    (vsc (kmul (kpow k1 kmul t 3) (kinv (ofN k0 k1 kadd (fact 3)))) u3))
    (vsc (kmul (kpow k1 kmul t 4) (kinv (ofN k0 k1 kadd (fact 4)))) u4).
Proof.
  intros N2 N3. cbv zeta.
  remember (C5 k1 k0 k0 k0 k0) as c0 eqn:X0. remember (C5 k0 k1 k0 k0 k0) as c1 eqn:X1.
  remember (C5 k0 k0 k1 k0 k0) as c2 eqn:X2. remember (C5 k0 k0 k0 k1 k0) as c3 eqn:X3.
  remember (C5 k0 k0 k0 k0 k1) as c4 eqn:X4.
  assert (Y0 : u0 = c0) by (rewrite X0; apply is_u0). assert (Y1 : u1 = c1) by (rewrite X1; apply is_u1).
  assert (Y2 : u2 = c2) by (rewrite X2; apply is_u2). assert (Y3 : u3 = c3) by (rewrite X3; apply is_u3).
  assert (Y4 : u4 = c4) by (rewrite X4; apply is_u4).
  rewrite Y0, Y1, Y2, Y3, Y4. subst c0 c1 c2 c3 c4.
  rewrite ?C5_sc, ?C5_add, ?C5_sc, ?C5_add, ?C5_sc, ?C5_add, ?C5_sc, ?C5_add.
  f_equal; change (fact 1) with 1; change (fact 2) with 2; change (fact 3) with 6; change (fact 4) with 24; cbn [kpow].
  all: replace (ofN k0 k1 kadd 1) with k1 by (cbn [ofN]; ring); replace (ofN k0 k1 kadd 2) with two by (cbn [ofN]; ring);
    replace (ofN k0 k1 kadd 6) with (kmul two (kadd two k1)) by (cbn [ofN]; ring);
    replace (ofN k0 k1 kadd 24) with (kmul (kmul two two) (kmul two (kadd two k1))) by (cbn [ofN]; ring);
    replace six with (kmul two (kadd two k1)) by ring.
  all: field; repeat apply conj; repeat apply mul_nz; auto.
  all: try (intros Hz; apply N3; rewrite <- Hz; ring).
  all: try apply (F_1_neq_0 FT).
Qed.
Lemma midpoint_combination t : two <> k0 ->
  vadd u0 (vsc t (vadd u1 (vsc (half t) u2))) =
  vadd (vadd u0 (vsc (kmul (kpow k1 kmul t 1) (kinv (ofN k0 k1 kadd (fact 1)))) u1))
    (vsc (kmul (kpow k1 kmul t 2) (kinv (ofN k0 k1 kadd (fact 2)))) u2).
Proof.
  intros N2.
  remember (C5 k1 k0 k0 k0 k0) as c0 eqn:X0. remember (C5 k0 k1 k0 k0 k0) as c1 eqn:X1.
  remember (C5 k0 k0 k1 k0 k0) as c2 eqn:X2.
  assert (Y0 : u0 = c0) by (rewrite X0; apply is_u0). assert (Y1 : u1 = c1) by (rewrite X1; apply is_u1).
  assert (Y2 : u2 = c2) by (rewrite X2; apply is_u2).
  rewrite Y0, Y1, Y2. subst c0 c1 c2.
  rewrite ?C5_sc, ?C5_add, ?C5_sc, ?C5_add.
  f_equal; change (fact 1) with 1; change (fact 2) with 2; cbn [kpow].
  all: replace (ofN k0 k1 kadd 1) with k1 by (cbn [ofN]; ring); replace (ofN k0 k1 kadd 2) with two by (cbn [ofN]; ring).
  all: field; auto using (F_1_neq_0 FT).
Qed.
End Five.

(** * Linear derivatives *)
Lemma iter_shaped N s v D F x n : acts N s v D F -> shaped N s x -> shaped N s (Nat.iter n F x).
Proof. intros [SF _] Sx. induction n; [exact Sx|]. change (shaped N s (F (Nat.iter n F x))). now apply SF. Qed.

Section Lin.
Context (N : nat) (s : nat -> Sh) (v : list (option V)) (D : list (option V) -> outcome (list (option V)))
  (F : @point V -> @point V) (x : @point V).
Context (HN : last_place v N) (A : acts N s v D F) (LI : linear N s F) (Hx : shows N s v x).
Notation it n := (Nat.iter n F x).
Let Si n : shaped N s (it n). Proof. apply (iter_shaped N s v D); auto. exact (proj1 Hx). Qed.
Let E n j : 1 <= j <= N -> sh (it n j) = sh (x j).
Proof. intros Hj. rewrite (Si n j Hj). symmetry. now apply (proj1 Hx). Qed.
Let NL : N < length v. Proof. destruct HN as ((_ & H) & _). exact H. Qed.

(** F (it n + c y) where y is given place by place. *)
Lemma F_axpy n c y z : shaped N s y -> (forall j, 1 <= j <= N -> F y j = z j) ->
  forall j, 1 <= j <= N -> F (axpy (it n) c y) j = vadd (it (S n) j) (vsc c (z j)).
Proof.
  intros Sy Hz j Hj. unfold axpy. rewrite (LI c (it n) y (Si n) Sy j Hj), (Hz j Hj). reflexivity.
Qed.
Lemma F_ext y z : shaped N s y -> (forall j, 1 <= j <= N -> y j = z j) -> forall j, 1 <= j <= N -> F y j = F z j.
Proof. apply (acts_ext N s v D F); auto. Qed.

Lemma rk4_linear t : two <> k0 -> kadd two k1 <> k0 ->
  exists v', rungeKutta4 k1 kadd kmul kinv vadd vsc sh sheq D t v = Ok v' /\ same_outside N v v' /\
    forall j, 1 <= j <= N -> nth_error v' j = Some (Some (taylor k0 k1 kadd kmul kinv vadd vsc 4 t F x j)).
Proof.
  intros N2 N3. destruct (rk4_tableau N s v D F t x HN A Hx) as (v' & Ev & So & Hv).
  exists v'. split; [exact Ev|]. split; [exact So|]. intros j Hj. rewrite (Hv j Hj). clear Ev So Hv v'. do 2 f_equal.
  assert (SF := proj1 A).
  set (h := half t).
  assert (K2 : forall j, 1 <= j <= N -> F (axpy x h (F x)) j = axpy (it 1) h (it 2) j).
  { intros i Hi. apply (F_axpy 0 h (it 1) (it 2) (Si 1)); auto. }
  assert (S2 : shaped N s (axpy (it 1) h (it 2))) by (apply shaped_axpy; auto).
  assert (SF2 : shaped N s (F (axpy x h (F x)))) by (apply SF, shaped_axpy; [exact (Si 0)|exact (Si 1)]).
  assert (FK2 : forall j, 1 <= j <= N -> F (F (axpy x h (F x))) j = axpy (it 2) h (it 3) j).
  { intros i Hi. rewrite (F_ext _ _ SF2 K2 i Hi). apply (F_axpy 1 h (it 2) (it 3) (Si 2)); auto. }
  assert (K3 : forall j, 1 <= j <= N ->
    F (axpy x h (F (axpy x h (F x)))) j = axpy (it 1) h (axpy (it 2) h (it 3)) j).
  { intros i Hi. apply (F_axpy 0 h _ (axpy (it 2) h (it 3)) SF2); auto. }
  assert (S3 : shaped N s (axpy (it 2) h (it 3))) by (apply shaped_axpy; auto).
  assert (SF3 : shaped N s (F (axpy x h (F (axpy x h (F x)))))) by (apply SF, shaped_axpy; [exact (Si 0)|exact SF2]).
  assert (F23 : forall j, 1 <= j <= N -> F (axpy (it 2) h (it 3)) j = axpy (it 3) h (it 4) j).
  { intros i Hi. apply (F_axpy 2 h (it 3) (it 4) (Si 3)); auto. }
  assert (FK3 : forall j, 1 <= j <= N ->
    F (F (axpy x h (F (axpy x h (F x))))) j = axpy (it 2) h (axpy (it 3) h (it 4)) j).
  { intros i Hi. rewrite (F_ext _ _ SF3 K3 i Hi). apply (F_axpy 1 h _ (axpy (it 3) h (it 4)) S3); auto. }
  assert (K4 : forall j, 1 <= j <= N ->
    F (axpy x t (F (axpy x h (F (axpy x h (F x)))))) j = axpy (it 1) t (axpy (it 2) h (axpy (it 3) h (it 4))) j).
  { intros i Hi. apply (F_axpy 0 t _ (axpy (it 2) h (axpy (it 3) h (it 4))) SF3); auto. }
  rewrite (K2 j Hj), (K3 j Hj), (K4 j Hj). unfold axpy, h.
  apply (rk4_combination (it 0 j) (it 1 j) (it 2 j) (it 3 j) (it 4 j)); auto; rewrite !E by auto; reflexivity.
Qed.

Lemma midpoint_linear t : two <> k0 ->
  exists v', midpointMethod k1 kadd kmul kinv vadd vsc sh sheq D t v = Ok v' /\ same_outside N v v' /\
    forall j, 1 <= j <= N -> nth_error v' j = Some (Some (taylor k0 k1 kadd kmul kinv vadd vsc 2 t F x j)).
Proof.
  intros N2. destruct (midpoint_tableau N s v D F t x HN A Hx) as (v' & Ev & So & Hv).
  exists v'. split; [exact Ev|]. split; [exact So|]. intros j Hj. rewrite (Hv j Hj). clear Ev So Hv v'. do 2 f_equal.
  set (h := half t).
  assert (K2 : forall j, 1 <= j <= N -> F (axpy x h (F x)) j = axpy (it 1) h (it 2) j).
  { intros i Hi. apply (F_axpy 0 h (it 1) (it 2) (Si 1)); auto. }
  unfold axpy at 1. rewrite (K2 j Hj). unfold axpy, h.
  apply (midpoint_combination (it 0 j) (it 1 j) (it 2 j) (it 2 j) (it 2 j)); auto; rewrite !E by auto; reflexivity.
Qed.
End Lin.

(** * Conserved quantities *)
Section Cons.
Context (phi : nat -> V -> K) (PH : functional kadd kmul vadd vsc sh phi).
Notation total := (total k0 kadd).
Lemma bsum_ext' n (f g : nat -> K) : (forall i, i < n -> f i = g i) -> bsum k0 kadd n f = bsum k0 kadd n g.
Proof. induction n as [|n IH]; intros H; [reflexivity|]. cbn. rewrite IH, H by auto. reflexivity. Qed.
Lemma total_axpy N s x c y : shaped N s x -> shaped N s y ->
  total N phi (axpy x c y) = kadd (total N phi x) (kmul c (total N phi y)).
Proof.
  intros Sx Sy. unfold RkSpec.total.
  assert (G : forall n, n <= N -> bsum k0 kadd n (fun i => phi (S i) (axpy x c y (S i))) =
    kadd (bsum k0 kadd n (fun i => phi (S i) (x (S i)))) (kmul c (bsum k0 kadd n (fun i => phi (S i) (y (S i)))))).
  { induction n as [|n IH]; intros Hn; cbn; [ring|]. rewrite IH by lia. unfold axpy at 1.
    rewrite (proj1 PH), (proj2 PH).
    - ring.
    - rewrite (sp_shs _ _ _ _ _ _ _ _ SP), (Sx (S n)), (Sy (S n)) by lia. reflexivity. }
  apply G. lia.
Qed.
Lemma total_add N s x y : shaped N s x -> shaped N s y ->
  total N phi (fun j => vadd (x j) (y j)) = kadd (total N phi x) (total N phi y).
Proof.
  intros Sx Sy. transitivity (total N phi (axpy x k1 y)).
  - unfold RkSpec.total, axpy. apply bsum_ext'. intros i Hi. now rewrite (sp_1 _ _ _ _ _ _ _ _ SP).
  - rewrite (total_axpy N s) by assumption. ring.
Qed.
Lemma total_sc N c x : total N phi (fun j => vsc c (x j)) = kmul c (total N phi x).
Proof.
  unfold RkSpec.total. induction N as [|n IH]; cbn; [ring|]. rewrite IH, (proj2 PH). ring.
Qed.
Lemma rk4_conserved N s v D F t x : last_place v N -> acts N s v D F -> shows N s v x ->
  (forall y, shaped N s y -> total N phi (F y) = k0) ->
  exists v' x', rungeKutta4 k1 kadd kmul kinv vadd vsc sh sheq D t v = Ok v' /\ same_outside N v v' /\
    shows N s v' x' /\ total N phi x' = total N phi x.
Proof.
  intros HN A Hx HC. pose proof (proj1 Hx) as Sx. pose proof (proj1 A) as SF.
  destruct (rk4_tableau N s v D F t x HN A Hx) as (v' & Ev & So & Hv). cbv zeta in Hv.
  set (a1 := F x) in *. set (a2 := F (axpy x (half t) a1)) in *. set (a3 := F (axpy x (half t) a2)) in *.
  set (a4 := F (axpy x t a3)) in *.
  assert (T1 : shaped N s a1) by (apply SF; auto).
  assert (S1 : shaped N s (axpy x (half t) a1)) by (apply shaped_axpy; auto).
  assert (T2 : shaped N s a2) by (apply SF; auto).
  assert (S2 : shaped N s (axpy x (half t) a2)) by (apply shaped_axpy; auto).
  assert (T3 : shaped N s a3) by (apply SF; auto).
  assert (S3 : shaped N s (axpy x t a3)) by (apply shaped_axpy; auto).
  assert (T4 : shaped N s a4) by (apply SF; auto).
  assert (ADD : forall p q, shaped N s p -> shaped N s q -> shaped N s (fun j => vadd (p j) (q j))).
  { intros p q Hp Hq j Hj. rewrite (sp_sha _ _ _ _ _ _ _ _ SP); [now apply Hp|]. rewrite (Hp j Hj), (Hq j Hj). reflexivity. }
  set (w := fun j => vadd (vadd (vsc two (a3 j)) (vadd (vsc two (a2 j)) (a1 j))) (a4 j)) in *.
  assert (SA : shaped N s (fun j => vsc two (a3 j))) by now apply shaped_sc.
  assert (SB : shaped N s (fun j => vsc two (a2 j))) by now apply shaped_sc.
  assert (SC : shaped N s (fun j => vadd (vsc two (a2 j)) (a1 j))) by now apply (ADD (fun j => vsc two (a2 j))).
  assert (SD : shaped N s (fun j => vadd (vsc two (a3 j)) (vadd (vsc two (a2 j)) (a1 j))))
    by now apply (ADD (fun j => vsc two (a3 j)) (fun j => vadd (vsc two (a2 j)) (a1 j))).
  assert (Sw : shaped N s w) by now apply (ADD (fun j => vadd (vsc two (a3 j)) (vadd (vsc two (a2 j)) (a1 j)))).
  exists v', (axpy x (kmul t (kinv six)) w). repeat apply conj; auto.
  - exact (proj1 So).
  - exact (proj2 So).
  - now apply shaped_axpy.
  - intros j Hj. left. exact (Hv j Hj).
  - rewrite (total_axpy N s) by auto. unfold w.
    rewrite (total_add N s (fun j => vadd (vsc two (a3 j)) (vadd (vsc two (a2 j)) (a1 j)))) by auto.
    rewrite (total_add N s (fun j => vsc two (a3 j)) (fun j => vadd (vsc two (a2 j)) (a1 j))) by auto.
    rewrite (total_add N s (fun j => vsc two (a2 j))) by auto. rewrite !total_sc.
    unfold a1, a2, a3, a4. rewrite !HC by auto. ring.
Qed.
Lemma midpoint_conserved N s v D F t x : last_place v N -> acts N s v D F -> shows N s v x ->
  (forall y, shaped N s y -> total N phi (F y) = k0) ->
  exists v' x', midpointMethod k1 kadd kmul kinv vadd vsc sh sheq D t v = Ok v' /\ same_outside N v v' /\
    shows N s v' x' /\ total N phi x' = total N phi x.
Proof.
  intros HN A Hx HC. pose proof (proj1 Hx) as Sx. pose proof (proj1 A) as SF.
  destruct (midpoint_tableau N s v D F t x HN A Hx) as (v' & Ev & So & Hv).
  assert (S1 : shaped N s (axpy x (half t) (F x))) by (apply shaped_axpy; auto).
  exists v', (axpy x t (F (axpy x (half t) (F x)))). repeat apply conj; auto.
  - exact (proj1 So).
  - exact (proj2 So).
  - apply shaped_axpy; auto.
  - rewrite (total_axpy N s) by auto. rewrite HC by auto. ring.
Qed.
End Cons.

(** * When it throws *)
Lemma start_throws (v : list (option V)) : length v <= 1 -> start v = Err.
Proof.
  intros H. destruct v as [|a [|b v]]; cbn in H; [reflexivity|reflexivity|lia].
Qed.
Lemma each_throws g : forall n a d, (exists j, a <= j < a + n /\ g j = Err) -> (forall j, g j <> UB) ->
  each g (seq a n) d = Err.
Proof.
  induction n as [|n IH]; intros a d (j & Hj & Ej) G; [lia|]. cbn [seq pluseq_each].
  destruct (Nat.eq_dec j a) as [->|Ne]; [rewrite Ej; reflexivity|].
  destruct (g a) as [y| |] eqn:Ea; [|reflexivity|now apply G in Ea]. cbn [obind].
  destruct (at_ d a) as [z| |] eqn:Ed; cbn [obind]; [|reflexivity|].
  2:{ unfold at_ in Ed. destruct (nth_error d a); discriminate. }
  destruct (pluseq z y) as [r| |] eqn:Er; cbn [obind]; [|reflexivity|].
  2:{ unfold t_pluseq in Er. destruct z, y; try discriminate. destruct (sheq _ _); discriminate. }
  apply IH; [|exact G]. exists j. split; [lia|exact Ej].
Qed.
Lemma times_at_throws c k j : nth_error k j = None \/ nth_error k j = Some None -> times_at vsc c k j = Err.
Proof. unfold times_at, at_. intros [-> | ->]; reflexivity. Qed.
Lemma times_at_noUB c k j : times_at vsc c k j <> UB.
Proof. unfold times_at, at_. destruct (nth_error k j) as [[a|]|]; discriminate. Qed.
End Loop.
