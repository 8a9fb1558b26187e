(** Proofs about PadeModel.v. *)
From Coq Require Import List Arith Bool ZArith Lia Ring Field Setoid Morphisms.
From Verif Require Import Util BigSum PadeSpec PadeModel.
Import ListNotations.
Local Open Scope outcome_scope.

(** ** Falling factorials *)
Fixpoint ff (x r : nat) : nat := match r with O => 1 | S r' => x * ff (x - 1) r' end.
Lemma ff_up : forall y r, ff (S y) (S r) = S y * ff y r.
Proof. intros. cbn [ff]. now replace (S y - 1) with y by lia. Qed.
Lemma ff_last : forall r x, ff x (S r) = ff x r * (x - r).
Proof.
  induction r as [|r IH]; intros x; [cbn; lia|]. change (ff x (S (S r))) with (x * ff (x - 1) (S r)).
  rewrite IH. cbn [ff]. replace (x - 1 - r) with (x - S r) by lia. lia.
Qed.
Lemma ff_zero : forall r y, y < r -> ff y r = 0.
Proof.
  induction r as [|r IH]; intros y H; [lia|]. cbn [ff]. destruct y as [|y]; [reflexivity|].
  rewrite IH by lia. lia.
Qed.
Lemma ff_pos : forall r y, r <= y -> 1 <= ff y r.
Proof.
  induction r as [|r IH]; intros y H; [cbn; lia|]. cbn [ff]. specialize (IH (y - 1)). nia.
Qed.
Lemma ff_diff : forall y r, ff (S y) (S r) = ff y (S r) + S r * ff y r.
Proof.
  intros y r. rewrite ff_up, ff_last. destruct (le_lt_dec r y) as [H|H]; [|rewrite (ff_zero r y H); lia].
  replace (S y) with ((y - r) + S r) at 1 by lia. lia.
Qed.
Lemma ff_swap : forall y r, ff (S y) r * (S y - r) = S y * ff y r.
Proof. intros. now rewrite <- ff_last, ff_up. Qed.
Lemma ff_split : forall a b x, ff x (a + b) = ff x a * ff (x - a) b.
Proof.
  induction a as [|a IH]; intros b x; [cbn [Nat.add ff]; rewrite Nat.sub_0_r; lia|].
  cbn [Nat.add ff]. rewrite IH. replace (x - 1 - a) with (x - S a) by lia. lia.
Qed.

Section Pade.
Context {T : Type} (t0 t1 : T) (tadd tmul tsub : T -> T -> T) (topp : T -> T) (tdiv : T -> T -> T) (tinv : T -> T).
Context (FT : field_theory t0 t1 tadd tmul tsub topp tdiv tinv eq).
Add Field FFpade : FT.
Let RT := F_R FT.
Notation ofN := (ofN t0 t1 tadd).
Context (char0 : forall n, ofN (S n) <> t0).
Notation "x + y" := (tadd x y). Notation "x * y" := (tmul x y).
Notation bsum := (bsum t0 tadd).
Let b_ext := bsum_ext t0 tadd.
Let b_zero := bsum_zero t0 t1 tadd tmul tsub topp RT.
Let b_add := bsum_add t0 t1 tadd tmul tsub topp RT.
Let b_mul_l := bsum_mul_l t0 t1 tadd tmul tsub topp RT.
Let b_mul_r := bsum_mul_r t0 t1 tadd tmul tsub topp RT.
Let b_swap := bsum_swap t0 t1 tadd tmul tsub topp RT.
Let b_split := bsum_split t0 t1 tadd tmul tsub topp RT.

(** ** Numbers *)
Lemma ofN_S : forall n, ofN (S n) = ofN n + t1. Proof. reflexivity. Qed.
Lemma ofN_add : forall a b, ofN (a + b) = ofN a + ofN b.
Proof. induction a as [|a IH]; intros b; cbn [Nat.add]; [change (ofN 0) with t0; ring|]. rewrite !ofN_S, IH. ring. Qed.
Lemma ofN_mul : forall a b, ofN (a * b) = ofN a * ofN b.
Proof. induction a as [|a IH]; intros b; cbn [Nat.mul]; [change (ofN 0) with t0; ring|]. rewrite ofN_add, IH, ofN_S. ring. Qed.
Lemma ofN_neq : forall n, 1 <= n -> ofN n <> t0.
Proof. intros n H. destruct n as [|n]; [lia|]. apply char0. Qed.
Definition h (k : nat) : T := tinv (ofN (fact k)).
Lemma h_0 : h 0 = t1.
Proof. unfold h. cbn. assert (t0 + t1 <> t0) by exact (char0 0). field. replace t1 with (t0 + t1) by ring. assumption. Qed.
Lemma h_S : forall k, ofN (S k) * h (S k) = h k.
Proof.
  intros k. unfold h. change (fact (S k)) with (S k * fact k)%nat. rewrite ofN_mul.
  pose proof (char0 k) as H1. pose proof (ofN_neq (fact k) (lt_O_fact k)) as H2. field. split; assumption.
Qed.
Definition sg (s : T) (k : nat) : T := Nat.iter k (tmul s) t1.
Lemma sg_S : forall s k, sg s (S k) = s * sg s k. Proof. reflexivity. Qed.
Lemma bsum_shift : forall n f, bsum (S n) f = f 0 + bsum n (fun i => f (S i)).
Proof. intros n f. change (S n) with (1 + n)%nat. rewrite b_split. cbn [BigSum.bsum]. f_equal. ring. Qed.

(** ** The Pade identity *)
Section Ident.
Context (q : nat).
Notation mo := (topp t1).
Definition ss (m x : nat) : T := bsum (S m) (fun k => sg mo k * ofN (ff (x - k) q) * (h k * h (m - k))).
Lemma ss_rec : forall m x, ofN (S m) * ss (S m) (S x) = tsub (ss m (S x)) (ss m x).
Proof.
  intros m x. unfold ss at 1. rewrite <- b_mul_l.
  rewrite (b_ext _ _ (fun k => sg mo k * ofN (ff (S x - k) q) * (h k * (ofN (S m - k) * h (S m - k))) +
                               sg mo k * ofN (ff (S x - k) q) * ((ofN k * h k) * h (S m - k)))).
  2:{ intros k Hk. replace (ofN (S m)) with (ofN (S m - k) + ofN k) by (rewrite <- ofN_add; f_equal; lia). ring. }
  rewrite b_add.
  replace (bsum (S (S m)) (fun k => sg mo k * ofN (ff (S x - k) q) * (h k * (ofN (S m - k) * h (S m - k))))) with (ss m (S x)).
  2:{ symmetry. cbn [BigSum.bsum]. replace (S m - S m) with 0 by lia. change (ofN 0) with t0.
      unfold ss. cbn [BigSum.bsum]. 
      rewrite (b_ext m _ (fun k => sg mo k * ofN (ff (S x - k) q) * (h k * h (m - k)))).
      - replace (S m - m) with (S (m - m)) by lia. rewrite h_S. ring.
      - intros k Hk. replace (S m - k) with (S (m - k)) by lia. now rewrite h_S. }
  rewrite (bsum_shift (S m)). change (ofN 0) with t0.
  replace (bsum (S m) (fun i => sg mo (S i) * ofN (ff (S x - S i) q) * (ofN (S i) * h (S i) * h (S m - S i)))) with (topp (ss m x)).
  - ring.
  - unfold ss. transitivity (mo * bsum (S m) (fun k => sg mo k * ofN (ff (x - k) q) * (h k * h (m - k)))); [ring|].
    rewrite <- b_mul_l. apply b_ext. intros k Hk. rewrite h_S, sg_S. replace (S x - S k) with (x - k) by lia.
    replace (S m - S k) with (m - k) by lia. ring.
Qed.
Lemma ss_closed : forall m x, m <= x -> ss m x = ofN (ff q m * ff (x - m) (q - m)) * h m.
Proof.
  induction m as [|m IH]; intros x Hx.
  - unfold ss. cbn [BigSum.bsum]. rewrite !Nat.sub_0_r. cbn [ff]. rewrite h_0, Nat.mul_1_l. cbn [sg Nat.iter nat_rect]. ring.
  - destruct x as [|x]; [lia|]. pose proof (ss_rec m x) as E. rewrite (IH (S x)), (IH x) in E by lia.
    pose proof (char0 m) as NZ.
    assert (G : ofN (S m) * ss (S m) (S x) = ofN (S m) * (ofN (ff q (S m) * ff (S x - S m) (q - S m)) * h (S m))).
    { rewrite E. transitivity (ofN (ff q (S m) * ff (S x - S m) (q - S m)) * h m); [|rewrite <- h_S; ring].
      rewrite ff_last. replace (S x - m) with (S (x - m)) by lia. replace (S x - S m) with (x - m) by lia.
      destruct (le_lt_dec q m) as [L|L].
      - replace (q - m) with 0 by lia. cbn [ff]. rewrite Nat.mul_0_r. cbn [Nat.mul]. change (ofN 0) with t0. ring.
      - replace (q - m) with (S (q - S m)) by lia. rewrite ff_diff.
        rewrite !ofN_mul, ofN_add, ofN_mul. ring. }
    transitivity (tinv (ofN (S m)) * (ofN (S m) * ss (S m) (S x))); [field; assumption|]. rewrite G. field. assumption.
Qed.
Notation coef := (coef t0 t1 tadd tmul tinv q).
Definition kap : T := tinv (ofN (ff (2 * q) q)).
Lemma coef_closed : forall k, k <= q -> coef k = kap * ofN (ff (2 * q - k) q) * h k.
Proof.
  assert (NZ : ofN (ff (2 * q) q) <> t0) by (apply ofN_neq, ff_pos; lia).
  induction k as [|k IH]; intros Hk.
  - rewrite Nat.sub_0_r, h_0. cbn [PadeModel.coef]. unfold kap. field. assumption.
  - cbn [PadeModel.coef]. rewrite IH by lia.
    replace (q + 1 - S k)%nat with (q - k)%nat by lia. replace (2 * q + 1 - S k)%nat with (2 * q - k)%nat by lia.
    rewrite <- (h_S k), ofN_mul.
    assert (N1 : ofN (S k) <> t0) by apply char0. assert (N2 : ofN (2 * q - k) <> t0) by (apply ofN_neq; lia).
    pose proof (ff_swap (2 * q - S k) q) as E. replace (S (2 * q - S k)) with (2 * q - k)%nat in E by lia.
    replace (2 * q - k - q)%nat with (q - k)%nat in E by lia. apply (f_equal ofN) in E. rewrite !ofN_mul in E.
    transitivity (kap * (ofN (ff (2 * q - k) q) * ofN (q - k)) * h (S k) * tinv (ofN (2 * q - k))); [field; split; assumption|].
    rewrite E. field. assumption.
Qed.
Definition num : list T := map coef (seq 0 (S q)).
Definition den : list T := map (fun k => sg mo k * coef k) (seq 0 (S q)).
Lemma nth_map_seq : forall (f : nat -> T) n k, nth k (map f (seq 0 n)) t0 = if k <? n then f k else t0.
Proof.
  intros f n k. destruct (Nat.ltb_spec k n) as [L|L].
  - rewrite (nth_indep _ t0 (f 0)) by (now rewrite map_length, seq_length). rewrite map_nth, seq_nth by assumption. reflexivity.
  - apply nth_overflow. now rewrite map_length, seq_length.
Qed.
Lemma nth_closed : forall k, k <= 2 * q -> (if k <? S q then coef k else t0) = kap * ofN (ff (2 * q - k) q) * h k.
Proof.
  intros k Hk. destruct (Nat.ltb_spec k (S q)) as [L|L]; [apply coef_closed; lia|].
  rewrite ff_zero by lia. change (ofN 0) with t0. ring.
Qed.
Lemma pade_coefs : pade t0 t1 tadd tmul tinv q num den.
Proof.
  split; [unfold num; now rewrite map_length, seq_length|]. split; [unfold den; now rewrite map_length, seq_length|].
  split; [cbn; ring|]. intros m Hm. unfold den, num. rewrite nth_map_seq, nth_closed by assumption.
  rewrite (b_ext _ _ (fun k => kap * (sg mo k * ofN (ff (2 * q - k) q) * (h k * h (m - k))))).
  - rewrite b_mul_l. fold (ss m (2 * q)). rewrite ss_closed by lia.
    destruct (le_lt_dec m q) as [L|L].
    + pose proof (ff_split (q - m) m (2 * q - m)) as E. replace (q - m + m)%nat with q in E by lia.
      replace (2 * q - m - (q - m))%nat with q in E by lia. rewrite E, (Nat.mul_comm (ff q m)). ring.
    + rewrite (ff_zero m q) by lia. rewrite (ff_zero q (2 * q - m)) by lia. rewrite Nat.mul_0_l. change (ofN 0) with t0. ring.
  - intros k Hk. rewrite nth_map_seq. fold (h (m - k)).
    transitivity (sg mo k * (if k <? S q then coef k else t0) * h (m - k)).
    + destruct (k <? S q); ring.
    + rewrite nth_closed by lia. ring.
Qed.
End Ident.

(** ** Matrices *)
Notation mat := (@mat T).
Notation mone := (mone t0 t1). Notation madd := (madd tadd). Notation mscale := (mscale tmul).
Section Mat.
Context (n : nat).
Notation mmul := (mmul t0 tadd tmul n). Notation mpoly := (mpoly t0 t1 tadd tmul n). Notation mpow := (mpow t0 t1 tadd tmul n).
Notation meq := (@meq T n).
Global Instance meq_equiv : Equivalence meq.
Proof.
  split; [intros A i j _ _; reflexivity|intros A B H i j Hi Hj; symmetry; now apply H|].
  intros A B C H1 H2 i j Hi Hj. rewrite H1 by assumption. now apply H2.
Qed.
Global Instance madd_proper : Proper (meq ==> meq ==> meq) madd.
Proof. intros A A' HA B B' HB i j Hi Hj. unfold PadeSpec.madd. now rewrite HA, HB. Qed.
Global Instance mscale_proper : Proper (eq ==> meq ==> meq) mscale.
Proof. intros c c' <- A A' HA i j Hi Hj. unfold PadeSpec.mscale. now rewrite HA. Qed.
Global Instance mmul_proper : Proper (meq ==> meq ==> meq) mmul.
Proof. intros A A' HA B B' HB i j Hi Hj. apply b_ext. intros k Hk. now rewrite HA, HB. Qed.
Lemma mmul_assoc : forall A B C, meq (mmul (mmul A B) C) (mmul A (mmul B C)).
Proof.
  intros A B C i j Hi Hj. unfold PadeSpec.mmul.
  rewrite (b_ext n _ (fun k => bsum n (fun l => A i l * B l k * C k j))) by (intros; now rewrite b_mul_r).
  rewrite b_swap. apply b_ext. intros l Hl. rewrite <- b_mul_l. apply b_ext. intros; ring.
Qed.
Lemma mmul_add_l : forall A B C, meq (mmul (madd A B) C) (madd (mmul A C) (mmul B C)).
Proof. intros A B C i j Hi Hj. unfold PadeSpec.mmul, PadeSpec.madd. rewrite <- b_add. apply b_ext. intros; ring. Qed.
Lemma mmul_add_r : forall A B C, meq (mmul A (madd B C)) (madd (mmul A B) (mmul A C)).
Proof. intros A B C i j Hi Hj. unfold PadeSpec.mmul, PadeSpec.madd. rewrite <- b_add. apply b_ext. intros; ring. Qed.
Lemma mmul_scale_l : forall c A B, meq (mmul (mscale c A) B) (mscale c (mmul A B)).
Proof. intros c A B i j Hi Hj. unfold PadeSpec.mmul, PadeSpec.mscale. rewrite <- b_mul_l. apply b_ext. intros; ring. Qed.
Lemma mmul_scale_r : forall c A B, meq (mmul A (mscale c B)) (mscale c (mmul A B)).
Proof. intros c A B i j Hi Hj. unfold PadeSpec.mmul, PadeSpec.mscale. rewrite <- b_mul_l. apply b_ext. intros; ring. Qed.
Lemma mmul_one_l : forall A, meq (mmul mone A) A.
Proof.
  intros A i j Hi Hj. unfold PadeSpec.mmul, PadeSpec.mone.
  exact (bsum_delta t0 t1 tadd tmul tsub topp RT n i (fun k => A k j) Hi).
Qed.
Lemma mmul_one_r : forall A, meq (mmul A mone) A.
Proof.
  intros A i j Hi Hj. unfold PadeSpec.mmul, PadeSpec.mone.
  rewrite (b_ext n _ (fun k => delta t0 t1 j k * A i k)).
  - exact (bsum_delta t0 t1 tadd tmul tsub topp RT n j (fun k => A i k) Hj).
  - intros k Hk. unfold delta. rewrite (Nat.eqb_sym j k). destruct (k =? j); ring.
Qed.
Lemma mmul_zero : forall A, meq (mmul (fun _ _ => t0) A) (fun _ _ => t0).
Proof. intros A i j Hi Hj. apply b_zero. intros; ring. Qed.
Ltac pw := intros ? ? ? ?; unfold PadeSpec.madd, PadeSpec.mscale; ring.

Lemma mpow_add : forall A a b, meq (mpow A (a + b)) (mmul (mpow A a) (mpow A b)).
Proof.
  intros A a b. induction b as [|b IH].
  - rewrite Nat.add_0_r. cbn [PadeSpec.mpow]. now rewrite mmul_one_r.
  - rewrite Nat.add_succ_r. cbn [PadeSpec.mpow]. now rewrite IH, mmul_assoc.
Qed.
Lemma mpow_ext : forall A B k, meq A B -> meq (mpow A k) (mpow B k).
Proof. intros A B k H. induction k as [|k IH]; cbn [PadeSpec.mpow]; [reflexivity|]. now rewrite IH, H. Qed.
Lemma mpow_mul : forall A a b, meq (mpow (mpow A a) b) (mpow A (a * b)).
Proof.
  intros A a b. induction b as [|b IH]; [rewrite Nat.mul_0_r; reflexivity|].
  rewrite Nat.mul_succ_r. cbn [PadeSpec.mpow]. now rewrite IH, mpow_add.
Qed.
Lemma squared_pow : forall k A, meq (squared t0 tadd tmul n k A) (mpow A (2 ^ k)).
Proof.
  induction k as [|k IH]; intros A; cbn [squared].
  - change (2 ^ 0) with 1. cbn [PadeSpec.mpow]. now rewrite mmul_one_l.
  - rewrite IH. transitivity (mpow (mpow A 2) (2 ^ k)).
    + apply mpow_ext. cbn [PadeSpec.mpow]. now rewrite mmul_one_l.
    + rewrite mpow_mul. now rewrite Nat.pow_succ_r'.
Qed.
Lemma mpoly_scale : forall s c A, meq (mpoly (map (tmul s) c) A) (mscale s (mpoly c A)).
Proof.
  intros s c A. induction c as [|x c IH]; cbn [map PadeSpec.mpoly]; [pw|].
  rewrite IH, mmul_scale_l. pw.
Qed.

Context (q : nat) (A : mat).
Notation coef := (coef t0 t1 tadd tmul tinv q).
(** The sum of coef (q-r+2i) A^(2i). *)
Fixpoint Up (r : nat) : mat :=
  match r with
  | O => mscale (coef q) mone
  | S r' => match r' with
            | O => mscale (coef (q - 1)) mone
            | S r'' => madd (mscale (coef (q - r)) mone) (mmul (Up r'') (mmul A A))
            end
  end.
Lemma Up_SS : forall r, Up (S (S r)) = madd (mscale (coef (q - S (S r))) mone) (mmul (Up r) (mmul A A)).
Proof. reflexivity. Qed.
Lemma diagadd_meq : forall B c, meq (diagadd tadd B c) (madd (mscale c mone) B).
Proof.
  intros B c i j Hi Hj. unfold diagadd, PadeSpec.madd, PadeSpec.mscale, PadeSpec.mone. destruct (i =? j); ring.
Qed.
Lemma diagset_meq : forall c, meq (diagset t0 c) (mscale c mone).
Proof. intros c i j Hi Hj. unfold diagset, PadeSpec.mscale, PadeSpec.mone. destruct (i =? j); ring. Qed.
Lemma horner_ok : forall F2 k odd P Q o P' Q', meq F2 (mmul A A) -> k <= q - 1 -> 1 <= q ->
  meq (if odd : bool then Q else P) (Up (q - 1 - k)) -> meq (if odd then P else Q) (Up (q - k)) ->
  horner t0 t1 tadd tmul tinv n q F2 k odd P Q = (o, P', Q') ->
  meq (if o then Q' else P') (Up (q - 1)) /\ meq (if o then P' else Q') (Up q).
Proof.
  intros F2. induction k as [|k IH]; intros odd P Q o P' Q' HF Hk Hq HX HY H; cbn [horner] in H.
  - injection H as <- <- <-. rewrite Nat.sub_0_r in HX, HY. now split.
  - replace (q - 1 - k) with (q - S k) in * by lia.
    assert (ST : forall X, meq X (Up (q - 1 - S k)) -> meq (diagadd tadd (mmul X F2) (coef k)) (Up (q - k))).
    { intros X EX. rewrite diagadd_meq, HF, EX. replace (q - k) with (S (S (q - 1 - S k))) by lia. rewrite Up_SS.
      replace (q - S (S (q - 1 - S k))) with k by lia. reflexivity. }
    destruct odd; cbn [negb] in H; eapply IH in H; try exact H; try assumption; try lia; cbn match.
    all: first [apply ST; exact HX | replace (q - 1 - k) with (q - S k) by lia; exact HY].
Qed.
Lemma Up_poly : forall s, s * s = t1 -> forall r, S r <= q ->
  meq (madd (Up (S r)) (mscale s (mmul (Up r) A)))
      (mpoly (map (fun i => sg s i * coef (q - S r + i)) (seq 0 (S (S r)))) A).
Proof.
  intros s Hs. induction r as [|r IH]; intros Hr.
  - cbn [Up seq map PadeSpec.mpoly]. rewrite mmul_zero.
    replace (coef (q - 1 + 1)) with (coef q) by (f_equal; lia). replace (coef (q - 1 + 0)) with (coef (q - 1)) by (f_equal; lia).
    rewrite !mmul_add_l, !mmul_scale_l, mmul_one_l, mmul_zero.
    intros i j Hi Hj. unfold PadeSpec.madd, PadeSpec.mscale. cbn [sg Nat.iter nat_rect]. ring.
  - rewrite Up_SS. specialize (IH ltac:(lia)).
    change (seq 0 (S (S (S r)))) with (0 :: seq 1 (S (S r))). cbn [map PadeSpec.mpoly].
    replace (map (fun i => sg s i * coef (q - S (S r) + i)) (seq 1 (S (S r))))
      with (map (tmul s) (map (fun i => sg s i * coef (q - S r + i)) (seq 0 (S (S r))))).
    2:{ rewrite <- seq_shift, !map_map. apply map_ext. intros i. rewrite sg_S.
        replace (q - S (S r) + S i)%nat with (q - S r + i)%nat by lia. ring. }
    rewrite mpoly_scale, <- IH. rewrite mmul_scale_l, mmul_add_l, mmul_scale_l, mmul_assoc.
    replace (q - S (S r) + 0)%nat with (q - S (S r))%nat by lia.
    intros i j Hi Hj. unfold PadeSpec.madd, PadeSpec.mscale. cbn [sg Nat.iter nat_rect].
    match goal with |- ?a + ?b + s * ?c = ?d + s * (?e + s * ?b') => transitivity (a + s * c + (s * s) * b); [rewrite Hs; ring|ring] end.
Qed.
Notation mo := (topp t1).
Notation numq := (num q). Notation denq := (den q).
Lemma num_Up : 1 <= q -> meq (madd (Up q) (mmul (Up (q - 1)) A)) (mpoly numq A).
Proof.
  intros Hq. pose proof (Up_poly t1 ltac:(ring) (q - 1) ltac:(lia)) as E. replace (S (q - 1)) with q in E by lia.
  replace (map (fun i => sg t1 i * coef (q - q + i)) (seq 0 (S q))) with numq in E.
  - rewrite <- E. pw.
  - unfold num. apply map_ext. intros i. replace (q - q + i)%nat with i by lia.
    assert (S1 : forall k, sg t1 k = t1) by (induction k as [|k IH]; [reflexivity|rewrite sg_S, IH; ring]). rewrite S1. ring.
Qed.
Lemma den_Up : 1 <= q -> meq (madd (Up q) (mscale mo (mmul (Up (q - 1)) A))) (mpoly denq A).
Proof.
  intros Hq. pose proof (Up_poly mo ltac:(ring) (q - 1) ltac:(lia)) as E. replace (S (q - 1)) with q in E by lia.
  replace (map (fun i => sg mo i * coef (q - q + i)) (seq 0 (S q))) with denq in E.
  - exact E.
  - unfold den. apply map_ext. intros i. now replace (q - q + i)%nat with i by lia.
Qed.
End Mat.

Section Exp.
Context {F : Type} (f0 : F) (fadd : F -> F -> F) (fltb : F -> F -> bool).
Context (tabs : T -> F) (tlog : F -> Z) (gesv : nat -> mat -> mat -> outcome mat) (debug : bool).
Notation expPade := (expPade f0 fadd fltb t0 t1 tadd tmul tsub topp tinv tabs tlog gesv debug).
Notation squarings := (squarings f0 fadd fltb tabs tlog debug).
Notation mmul := (mmul t0 tadd tmul). Notation mpoly := (mpoly t0 t1 tadd tmul). Notation mpow := (mpow t0 t1 tadd tmul).
Notation mo := (topp t1).
Ltac pw := intros ? ? ? ?; unfold PadeSpec.madd, PadeSpec.mscale; ring.
Lemma msub_meq n A B : meq n (msub tsub A B) (madd A (mscale mo B)).
Proof. intros i j _ _. unfold msub, PadeSpec.madd, PadeSpec.mscale. ring. Qed.
Lemma mpow_neg n A k : meq n (mpow n (mscale mo A) (2 ^ S k)) (mpow n A (2 ^ S k)).
Proof.
  rewrite Nat.pow_succ_r', <- !mpow_mul. apply mpow_ext. cbn [PadeSpec.mpow].
  rewrite !mmul_one_l. rewrite mmul_scale_l, mmul_scale_r. pw.
Qed.
(** The two matrices handed to ?gesv. *)
Lemma stage n A0 q s : 1 <= q ->
  exists o P Q, horner t0 t1 tadd tmul tinv n q (mscale (s * s) (mmul n A0 A0)) (q - 1) true
      (diagset t0 (coef t0 t1 tadd tmul tinv q (q - 1))) (diagset t0 (coef t0 t1 tadd tmul tinv q q)) = (o, P, Q) /\
  let A := mscale s A0 in
  let P' := if o : bool then P else mmul n (mscale s P) A0 in
  let Q' := if o then mmul n (mscale s Q) A0 else Q in
  meq n (madd Q' (mscale mo P')) (mscale (if o then mo else t1) (mpoly n (den q) A)) /\ meq n (madd Q' P') (mpoly n (num q) A).
Proof.
  intros Hq. destruct (horner _ _ _ _ _ _ _ _ _ _ _ _) as [[o P] Q] eqn:E. exists o, P, Q. split; [reflexivity|].
  eapply (horner_ok n q (mscale s A0)) in E.
  - destruct E as [E1 E2]. cbv zeta. rewrite <- den_Up, <- num_Up by assumption.
    assert (SW : forall X, meq n (mmul n (mscale s X) A0) (mmul n X (mscale s A0))).
    { intros X. now rewrite mmul_scale_l, mmul_scale_r. }
    destruct o; rewrite SW, E1, E2; split; pw.
  - rewrite mmul_scale_l, mmul_scale_r. pw.
  - lia.
  - assumption.
  - replace (q - 1 - (q - 1)) with 0 by lia. cbn [Up]. apply diagset_meq.
  - replace (q - (q - 1)) with 1 by lia. cbn [Up]. apply diagset_meq.
Qed.
Lemma expPade_ok : gesv_ok t0 t1 tadd tmul gesv -> forall n A0 q X, 1 <= q -> expPade n A0 q = Ok X ->
  exists ns Y, squarings n A0 = Ok ns /\
    let A := mscale (tinv (ofN (2 ^ ns))) A0 in
    invertible t0 t1 tadd tmul n (mpoly n (den q) A) /\ meq n (mmul n (mpoly n (den q) A) Y) (mpoly n (num q) A) /\
    meq n X (mpow n Y (2 ^ ns)).
Proof.
  intros GO n A0 q X Hq H. unfold PadeModel.expPade in H.
  destruct (squarings n A0) as [ns| |] eqn:ES; cbn [obind] in H; try discriminate H. exists ns.
  set (s := tinv (ofN (2 ^ ns))) in *.
  destruct (stage n A0 q s Hq) as (o & P & Q & E & ED & EN). rewrite E in H. cbv zeta in H.
  set (P' := if o then P else mmul n (mscale s P) A0) in *.
  set (Q' := if o then mmul n (mscale s Q) A0 else Q) in *.
  set (D := mpoly n (den q) (mscale s A0)) in *. set (N := mpoly n (num q) (mscale s A0)) in *.
  assert (H' : obind (gesv n (msub tsub Q' P') P') (fun P0 => Ok (squared t0 tadd tmul n ns
              (if (ns =? 0) && o then mscale mo (diagadd tadd (mscale (t1 + t1) P0) t1)
               else diagadd tadd (mscale (t1 + t1) P0) t1))) = Ok X).
  { rewrite <- H. unfold P', Q'. destruct o; reflexivity. }
  destruct (gesv n (msub tsub Q' P') P') as [Z| |] eqn:EG'; cbn [obind] in H'; try discriminate H'.
  destruct (GO _ _ _ _ EG') as [GE [B GI]]. rewrite msub_meq, ED in GE, GI.
  set (sg := if o then mo else t1) in *.
  assert (SQ : sg * sg = t1) by (destruct o; unfold sg; ring).
  set (W := diagadd tadd (mscale (t1 + t1) Z) t1) in *.
  assert (EW : meq n (mmul n D (mscale sg W)) N).
  { unfold W. rewrite diagadd_meq, mmul_scale_r, mmul_add_r, !mmul_scale_r, mmul_one_r.
    transitivity (madd (mscale sg D) (mscale (t1 + t1) (mmul n (mscale sg D) Z))); [rewrite mmul_scale_l; pw|].
    rewrite GE, <- ED, <- EN. pw. }
  injection H' as <-. exists (mscale sg W). split; [reflexivity|]. split; [|split; [exact EW|]].
  - exists (mscale sg B). rewrite mmul_scale_l. rewrite mmul_scale_r in GI. exact GI.
  - rewrite squared_pow. destruct ns as [|ns]; cbn [Nat.eqb andb].
    + apply mpow_ext. destruct o; unfold sg; [reflexivity|pw].
    + destruct o; unfold sg; [now rewrite mpow_neg|]. apply mpow_ext. pw.
Qed.
Lemma expPade_total : forall n, gesv_total t0 tadd tmul gesv n -> forall A0 q ns, 1 <= q -> squarings n A0 = Ok ns ->
  (forall v, (forall i, i < n -> bsum n (fun k => mpoly n (den q) (mscale (tinv (ofN (2 ^ ns))) A0) i k * v k) = t0) ->
     forall i, i < n -> v i = t0) ->
  exists X, expPade n A0 q = Ok X.
Proof.
  intros n GT A0 q ns Hq ES NS. unfold PadeModel.expPade. rewrite ES. cbn [obind].
  set (s := tinv (ofN (2 ^ ns))) in *.
  destruct (stage n A0 q s Hq) as (o & P & Q & E & ED & EN). rewrite E. cbv zeta.
  set (P' := if o then P else mmul n (mscale s P) A0) in *.
  set (Q' := if o then mmul n (mscale s Q) A0 else Q) in *.
  destruct (GT (msub tsub Q' P') P') as [Z HZ].
  - intros v Hv. apply NS. intros i Hi.
    assert (EE : meq n (mpoly n (den q) (mscale s A0)) (mscale (if o then mo else t1) (msub tsub Q' P'))).
    { rewrite msub_meq, ED. destruct o; pw. }
    rewrite (b_ext n _ (fun k => (if o then mo else t1) * (msub tsub Q' P' i k * v k))).
    + rewrite b_mul_l, Hv by assumption. ring.
    + intros k Hk. rewrite EE by assumption. unfold PadeSpec.mscale. ring.
  - destruct o; unfold P', Q' in HZ; rewrite HZ; cbn [obind]; eexists; reflexivity.
Qed.
End Exp.

(** ** Inverses and adjoints *)
Section Inv.
Context (n : nat).
Notation mmul := (mmul t0 tadd tmul n). Notation mpoly := (mpoly t0 t1 tadd tmul n). Notation mpow := (mpow t0 t1 tadd tmul n).
Notation meq := (@meq T n). Notation mo := (topp t1).
Ltac pw := intros ? ? ? ?; unfold PadeSpec.madd, PadeSpec.mscale; ring.
Lemma mpoly_ext c A B : meq A B -> meq (mpoly c A) (mpoly c B).
Proof. intros H. induction c as [|x c IH]; cbn [PadeSpec.mpoly]; [reflexivity|]. now rewrite IH, H. Qed.
Fixpoint twist (s : T) (c : list T) : list T := match c with [] => [] | x :: c' => x :: map (tmul s) (twist s c') end.
Lemma twist_poly s c A : meq (mpoly (twist s c) A) (mpoly c (mscale s A)).
Proof.
  induction c as [|x c IH]; cbn [twist PadeSpec.mpoly]; [reflexivity|].
  rewrite mpoly_scale, IH, mmul_scale_l, mmul_scale_r. reflexivity.
Qed.
Lemma twist_map s f : forall m a, twist s (map f (seq a m)) = map (fun k => sg s k * f (a + k)%nat) (seq 0 m).
Proof.
  induction m as [|m IH]; intros a; [reflexivity|]. cbn [seq map twist]. rewrite IH. f_equal.
  - rewrite Nat.add_0_r. cbn. ring.
  - rewrite <- seq_shift, !map_map. apply map_ext. intros k. rewrite sg_S, Nat.add_succ_r. cbn [Nat.add]. ring.
Qed.
Lemma den_num q A : meq (mpoly (den q) A) (mpoly (num q) (mscale mo A)).
Proof. rewrite <- twist_poly. unfold num. rewrite twist_map. reflexivity. Qed.
Lemma pow_inv A B m : meq (mmul A B) mone -> meq (mmul (mpow A m) (mpow B m)) mone.
Proof.
  intros H. induction m as [|m IH]; [cbn [PadeSpec.mpow]; apply mmul_one_l|].
  change (mpow B (S m)) with (mpow B (1 + m)). rewrite mpow_add. cbn [PadeSpec.mpow]. rewrite mmul_one_l.
  rewrite mmul_assoc, <- (mmul_assoc n A B), H, mmul_one_l. exact IH.
Qed.
Lemma inverse_step D N Y Y' : invertible t0 t1 tadd tmul n D -> meq (mmul D Y) N -> meq (mmul N Y') D -> meq (mmul Y Y') mone.
Proof.
  intros [B HB] H1 H2. rewrite <- H1, mmul_assoc in H2.
  rewrite <- (mmul_one_l n (mmul Y Y')), <- HB, mmul_assoc. now rewrite H2.
Qed.
Lemma poly_A c A : meq (mmul A (mpoly c A)) (mmul (mpoly c A) A).
Proof.
  induction c as [|x c IH]; cbn [PadeSpec.mpoly].
  - rewrite mmul_zero. intros i j Hi Hj. apply b_zero. intros; ring.
  - rewrite mmul_add_r, mmul_add_l, mmul_scale_r, mmul_scale_l, mmul_one_l, mmul_one_r, <- mmul_assoc, IH. reflexivity.
Qed.
Lemma poly_comm c d A : meq (mmul (mpoly c A) (mpoly d A)) (mmul (mpoly d A) (mpoly c A)).
Proof.
  induction c as [|x c IH]; cbn [PadeSpec.mpoly].
  - rewrite mmul_zero. intros i j Hi Hj. symmetry. apply b_zero. intros; ring.
  - rewrite mmul_add_r, mmul_add_l, mmul_scale_r, mmul_scale_l, mmul_one_l, mmul_one_r.
    rewrite mmul_assoc, poly_A, <- mmul_assoc, IH, mmul_assoc. reflexivity.
Qed.

Context (conj : T -> T) (CJ : conj_ok t1 tadd tmul conj).
Notation madj := (madj conj).
Lemma conj_0 : conj t0 = t0.
Proof.
  pose proof (cj_add _ _ _ _ CJ t0 t0) as H. replace (t0 + t0) with t0 in H by ring.
  transitivity (conj t0 + conj t0 + topp (conj t0)); [ring|]. rewrite <- H. ring.
Qed.
Lemma conj_opp x : conj (topp x) = topp (conj x).
Proof.
  pose proof (cj_add _ _ _ _ CJ x (topp x)) as H. replace (x + topp x) with t0 in H by ring. rewrite conj_0 in H.
  transitivity (conj x + conj (topp x) + topp (conj x)); [ring|]. rewrite <- H. ring.
Qed.
Lemma conj_inv x : x <> t0 -> conj (tinv x) = tinv (conj x).
Proof.
  intros Hx. pose proof (cj_mul _ _ _ _ CJ x (tinv x)) as H. replace (x * tinv x) with t1 in H by (field; assumption).
  rewrite (cj_one _ _ _ _ CJ) in H.
  assert (N : conj x <> t0).
  { intros E. apply Hx. rewrite <- (cj_conj _ _ _ _ CJ x), E. apply conj_0. }
  transitivity (tinv (conj x) * (conj x * conj (tinv x))); [field; assumption|]. rewrite <- H. ring.
Qed.
Lemma conj_ofN k : conj (ofN k) = ofN k.
Proof. induction k as [|k IH]; [apply conj_0|]. rewrite ofN_S, (cj_add _ _ _ _ CJ), IH, (cj_one _ _ _ _ CJ). reflexivity. Qed.
Lemma conj_coef q k : k <= q -> conj (coef t0 t1 tadd tmul tinv q k) = coef t0 t1 tadd tmul tinv q k.
Proof.
  induction k as [|k IH]; intros Hk; cbn [coef]; [apply (cj_one _ _ _ _ CJ)|].
  rewrite !(cj_mul _ _ _ _ CJ), IH, conj_ofN, conj_inv, conj_ofN by (lia || (apply ofN_neq; nia)). reflexivity.
Qed.
Lemma conj_num q : map conj (num q) = num q.
Proof. unfold num. rewrite map_map. apply map_ext_in. intros k Hk. apply in_seq in Hk. apply conj_coef. lia. Qed.
Lemma conj_bsum m f : conj (bsum m f) = bsum m (fun k => conj (f k)).
Proof. induction m as [|m IH]; cbn [BigSum.bsum]; [apply conj_0|]. now rewrite (cj_add _ _ _ _ CJ), IH. Qed.
Global Instance madj_proper : Proper (meq ==> meq) madj.
Proof. intros A B H i j Hi Hj. unfold PadeSpec.madj. now rewrite H. Qed.
Lemma madj_mul A B : meq (madj (mmul A B)) (mmul (madj B) (madj A)).
Proof.
  intros i j Hi Hj. unfold PadeSpec.madj, PadeSpec.mmul. rewrite conj_bsum. apply b_ext. intros k Hk.
  rewrite (cj_mul _ _ _ _ CJ). ring.
Qed.
Lemma madj_one : meq (madj mone) mone.
Proof.
  intros i j Hi Hj. unfold PadeSpec.madj, PadeSpec.mone. rewrite Nat.eqb_sym.
  destruct (i =? j); [apply (cj_one _ _ _ _ CJ)|apply conj_0].
Qed.
Lemma madj_madj A : meq (madj (madj A)) A.
Proof. intros i j Hi Hj. unfold PadeSpec.madj. apply (cj_conj _ _ _ _ CJ). Qed.
Lemma madj_add A B : meq (madj (madd A B)) (madd (madj A) (madj B)).
Proof. intros i j Hi Hj. unfold PadeSpec.madj, PadeSpec.madd. apply (cj_add _ _ _ _ CJ). Qed.
Lemma madj_scale c A : meq (madj (mscale c A)) (mscale (conj c) (madj A)).
Proof. intros i j Hi Hj. unfold PadeSpec.madj, PadeSpec.mscale. apply (cj_mul _ _ _ _ CJ). Qed.
Lemma madj_poly c A : meq (madj (mpoly c A)) (mpoly (map conj c) (madj A)).
Proof.
  induction c as [|x c IH]; cbn [PadeSpec.mpoly map].
  - intros i j Hi Hj. apply conj_0.
  - now rewrite madj_add, madj_scale, madj_one, madj_mul, IH, poly_A.
Qed.
Lemma madj_pow A m : meq (madj (mpow A m)) (mpow (madj A) m).
Proof.
  induction m as [|m IH]; [apply madj_one|]. change (mpow (madj A) (S m)) with (mpow (madj A) (1 + m)). rewrite mpow_add.
  cbn [PadeSpec.mpow]. now rewrite madj_mul, IH, mmul_one_l.
Qed.
Lemma unitary_step q A Y m : meq (madj A) (mscale mo A) -> invertible t0 t1 tadd tmul n (mpoly (den q) A) ->
  meq (mmul (mpoly (den q) A) Y) (mpoly (num q) A) -> unitary t0 t1 tadd tmul conj n (mpow Y m).
Proof.
  intros HA [B HB] HY.
  assert (DA : meq (madj (mpoly (den q) A)) (mpoly (num q) A)).
  { rewrite den_num, madj_poly, conj_num. apply mpoly_ext. rewrite madj_scale, HA, conj_opp, (cj_one _ _ _ _ CJ). pw. }
  set (D := mpoly (den q) A) in *. set (N := mpoly (num q) A) in *.
  assert (NA : meq (madj N) D) by (rewrite <- DA; apply madj_madj).
  assert (NB : meq (mmul N (madj B)) mone) by (rewrite <- DA, <- madj_mul, HB; apply madj_one).
  assert (DC : meq (mmul D (mmul Y (madj B))) mone) by (rewrite <- mmul_assoc, HY; exact NB).
  assert (YD : meq (mmul Y D) N).
  { rewrite <- (mmul_one_l n (mmul Y D)), <- HB, mmul_assoc, <- (mmul_assoc n D), HY.
    unfold D, N. rewrite poly_comm. fold D N. rewrite <- mmul_assoc, HB. apply mmul_one_l. }
  assert (AN : meq (mmul (madj Y) N) D) by (rewrite <- DA, <- madj_mul, HY; exact NA).
  assert (U1 : meq (mmul (madj Y) Y) mone).
  { rewrite <- (mmul_one_r n (mmul (madj Y) Y)), <- DC, <- mmul_assoc, (mmul_assoc n (madj Y) Y D), YD, AN. reflexivity. }
  assert (U2 : meq (mmul Y (madj Y)) mone).
  { rewrite <- (mmul_one_r n (mmul Y (madj Y))), <- NB, <- mmul_assoc, (mmul_assoc n Y (madj Y) N), AN, YD. reflexivity. }
  split; rewrite madj_pow; now apply pow_inv.
Qed.
End Inv.
End Pade.
