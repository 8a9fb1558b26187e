(** Lemmas on diagonal tensors and their products with dense tensors. *)
From Coq Require Import List ZArith Lia Bool Arith Permutation Ring.
From Verif Require Import Util RangeModel RangeSpec RangeProofs TensorModel TensorSpec TensorProofs SemProofs
  ContractModel ContractProofs ContractSem LabelProofs DenseModel DenseProofs ContractProps DiagModel DiagSpec.
Import ListNotations.
Local Arguments Nat.sub : simpl never.

Lemma list_sum_perm l l' : Permutation l l' -> list_sum l = list_sum l'.
Proof. intros H; induction H; simpl; lia. Qed.

Lemma list_sum_cons a l : list_sum (a :: l) = a + list_sum l.
Proof. reflexivity. Qed.

Lemma map_eq_in {A B} (f g : A -> B) l : map f l = map g l -> forall x, In x l -> f x = g x.
Proof. induction l as [|y l IH]; cbn; intros E x Hx; [contradiction|]. injection E as E1 E2. destruct Hx as [<-|Hx]; auto. Qed.

Section Num.
Context {R : Type} (r0 r1 : R) (radd rmul : R -> R -> R).
Context (SR : semi_ring_theory r0 r1 radd rmul (@eq R)).
Add Ring RRdg : SR.
Context {I : Type} (ieq : I -> I -> bool) (idim : I -> nat).
Hypothesis ieq_spec : forall a b, ieq a b = true <-> a = b.
Notation elt := (elt r0 idim).
Notation sum_over := (sum_over r0 radd ieq idim).
Notation sumn := (sumn r0 radd).
Notation memb := (mem ieq).

Lemma minDim_le is : forall x, In x is -> minDim idim is <= idim x.
Proof.
  induction is as [|y is IH]; intros x Hx; [contradiction|]. destruct Hx as [<-|H].
  - destruct is as [|z is]; [cbn [minDim]; lia|]. change (minDim idim (y :: z :: is)) with (Nat.min (idim y) (minDim idim (z :: is))). lia.
  - destruct is as [|z is]; [contradiction|]. specialize (IH x H).
    change (minDim idim (y :: z :: is)) with (Nat.min (idim y) (minDim idim (z :: is))). lia.
Qed.
Lemma minDim_in is : is <> [] -> exists x, In x is /\ minDim idim is = idim x.
Proof.
  induction is as [|y is IH]; [congruence|]. intros _. destruct is as [|z is].
  - exists y. split; [left; auto|reflexivity].
  - destruct IH as (x & Hx & E); [discriminate|].
    change (minDim idim (y :: z :: is)) with (Nat.min (idim y) (minDim idim (z :: is))).
    destruct (Nat.leb_spec (idim y) (minDim idim (z :: is))).
    + exists y. split; [left; auto|lia].
    + exists x. split; [right; auto|lia].
Qed.

(** ** the diagonal *)
Notation dval := (entry r0).
Lemma diag_at_ok d J : J < diag_size d -> diag_at d J = Ok (dval d J).
Proof. unfold diag_at, diag_size, entry, allSame. destruct (dst d); auto. intros H. now apply oget_ok. Qed.

(** ** accumulating loops *)
Fixpoint acc (es : list (nat * R)) (C : list R) : list R :=
  match es with [] => C | (p, v) :: es' => acc es' (upd p (radd (nth p C r0) v) C) end.
Lemma acc_length es : forall C, length (acc es C) = length C.
Proof. induction es as [|[p v] es IH]; intros C; simpl; auto. now rewrite IH, upd_length. Qed.
Lemma acc_app a b : forall C, acc (a ++ b) C = acc b (acc a C).
Proof. induction a as [|[p v] a IH]; intros C; simpl; auto. Qed.
Fixpoint hits (q : nat) (es : list (nat * R)) : R :=
  match es with [] => r0 | (p, v) :: es' => radd (if p =? q then v else r0) (hits q es') end.
Lemma hits_app q a b : hits q (a ++ b) = radd (hits q a) (hits q b).
Proof. induction a as [|[p v] a IH]; simpl; [ring|]. rewrite IH. ring. Qed.
Lemma nth_acc es : forall C q, (forall p v, In (p, v) es -> p < length C) ->
  nth q (acc es C) r0 = radd (nth q C r0) (hits q es).
Proof.
  induction es as [|[p v] es IH]; intros C q H; simpl; [ring|].
  rewrite IH by (intros; rewrite upd_length; eapply H; right; eauto).
  destruct (Nat.eqb_spec p q) as [->|N].
  - rewrite nth_upd_eq by (eapply H; left; eauto). ring.
  - rewrite nth_upd_neq by auto. ring.
Qed.
Lemma hits_map_seq q (p : nat -> nat) (v : nat -> R) n :
  hits q (map (fun k => (p k, v k)) (seq 0 n)) = sumn n (fun k => if p k =? q then v k else r0).
Proof.
  induction n as [|n IH]; [reflexivity|]. rewrite seq_S, map_app, hits_app, IH. simpl. ring.
Qed.
Lemma hits_flat_seq q (f : nat -> list (nat * R)) n :
  hits q (flat_map f (seq 0 n)) = sumn n (fun k => hits q (f k)).
Proof.
  induction n as [|n IH]; [reflexivity|]. rewrite seq_S, flat_map_app, hits_app, IH. simpl.
  rewrite app_nil_r. ring.
Qed.

Definition entries (d : diag R) (B : list R) bcs ccs boff coff (Js : list nat) : list (nat * R) :=
  map (fun J => (J * ccs + coff, rmul (dval d J) (nth (J * bcs + boff) B r0))) Js.
Lemma diag_loop_ok d B bcs ccs boff coff : forall Js C,
  (forall J, In J Js -> J < diag_size d /\ J * bcs + boff < length B /\ J * ccs + coff < length C) ->
  diag_loop radd rmul d B bcs ccs boff coff Js C = Ok (acc (entries d B bcs ccs boff coff Js) C).
Proof.
  induction Js as [|J Js IH]; intros C H; cbn [diag_loop entries map acc]; auto.
  destruct (H J (or_introl eq_refl)) as (H1 & H2 & H3).
  rewrite (diag_at_ok d J H1). cbn [obind]. rewrite (oget_ok r0 B) by auto. cbn [obind].
  rewrite (oget_ok r0 C) by auto. cbn [obind]. rewrite oupd_ok by auto. cbn [obind].
  rewrite IH; [reflexivity|]. intros K HK. rewrite upd_length. apply H. now right.
Qed.

Lemma visit_loop_ok d B bcs ccs us : forall vs C,
  (forall iv n J, In (iv, n) vs -> J < diag_size d ->
     J * bcs + fst (uoffsets us iv) < length B /\ J * ccs + snd (uoffsets us iv) < length C) ->
  visit_loop radd rmul d B bcs ccs us vs C =
    Ok (acc (flat_map (fun v => entries d B bcs ccs (fst (uoffsets us (fst v))) (snd (uoffsets us (fst v)))
                                        (seq 0 (diag_size d))) vs) C).
Proof.
  induction vs as [|[iv n] vs IH]; intros C H; cbn [visit_loop flat_map]; auto.
  pose proof (fun J => H iv n J (or_introl eq_refl)) as H0.
  cbn [fst]. destruct (uoffsets us iv) as [bo co] eqn:E. cbn [fst snd] in *.
  rewrite diag_loop_ok.
  2:{ intros J HJ. apply in_seq in HJ. split; [lia|]. apply H0. lia. }
  cbn [obind]. rewrite IH; [now rewrite acc_app|]. intros iv' n' J HI HJ. rewrite acc_length. exact (H iv' n' J (or_intror HI) HJ).
Qed.

(** ** strides *)
Section Strides.
Variables (g : I -> Z) (UU D : list I).
Hypothesis g_inj : forall x y, In x UU -> In y UU -> g x = g y -> x = y.
Hypothesis ID : incl D UU.

Lemma has_mem x : In x UU -> has (map g D) (g x) = memb x D.
Proof.
  intros Hx. unfold has. destruct (memb x D) eqn:E.
  - apply (mem_In' ieq ieq_spec) in E. apply existsb_exists. exists (g x). split; [now apply in_map|apply Z.eqb_refl].
  - apply (mem_not ieq ieq_spec) in E. destruct (existsb _ _) eqn:K; auto. exfalso. apply existsb_exists in K as (z & Hz & EZ).
    apply in_map_iff in Hz as (y & <- & Hy). apply Z.eqb_eq in EZ. apply g_inj in EZ; auto. subst. contradiction.
Qed.

Definition jset (J : nat) (t : I -> nat) (x : I) : nat := if memb x D then J else t x.

Lemma dot_cstride J t l : forall r, incl l UU -> length r = length l ->
  dot r (map (jset J t) l) = J * cstride (map g D) r (map g l) + dot r (map (jset 0 t) l).
Proof.
  induction l as [|x l IH]; intros [|y r] HI HL; cbn [length] in HL; try lia; auto. { cbn. lia. }
  cbn [map dot cstride]. rewrite has_mem by (apply HI; left; auto). rewrite IH by (try lia; intros z Hz; apply HI; now right).
  unfold jset at 1 3. destruct (memb x D); lia.
Qed.

Lemma dot_sum f l : NoDup l -> forall r, length r = length l ->
  dot r (map f l) = list_sum (map (fun x => f x * str (nth (idx ieq l x) r (IS 0 0))) l).
Proof.
  induction l as [|x l IH]; intros ND [|y r] HL; cbn [length] in HL; try lia; auto.
  inversion ND; subst. cbn [map dot]. rewrite list_sum_cons, (idx_cons_same ieq ieq_spec). cbn [nth].
  rewrite (IH H2 r) by lia. rewrite Nat.mul_comm. f_equal. f_equal. apply map_ext_in. intros z Hz.
  rewrite (idx_cons_other ieq ieq_spec) by (auto; intros ->; contradiction). reflexivity.
Qed.
End Strides.

(** ** picking one term of a sum over index values *)
Lemma sumn_pick n v (f : nat -> R) : v < n -> sumn n (fun i => if i =? v then f i else r0) = f v.
Proof.
  intros Hv. induction n as [|n IH]; [lia|]. simpl.
  destruct (Nat.eq_dec v n) as [->|N].
  - rewrite Nat.eqb_refl. rewrite (sumn_zero r0 r1 radd rmul SR); [ring|]. intros i Hi. destruct (Nat.eqb_spec i n); auto; lia.
  - rewrite IH by lia. destruct (Nat.eqb_spec n v); [lia|]. ring.
Qed.

Lemma sum_over_zero xs : forall s, sum_over xs (fun _ => r0) s = r0.
Proof. induction xs as [|x xs IH]; intros s; cbn [TensorSpec.sum_over]; auto. apply (sumn_zero r0 r1 radd rmul SR). auto. Qed.

Lemma sum_over_pick xs : forall (F : (I -> nat) -> R) v s, NoDup xs -> respects F ->
  (forall x, In x xs -> v x < idim x) ->
  sum_over xs (fun t => if forallb (fun x => t x =? v x) xs then F t else r0) s =
  F (fun y => if memb y xs then v y else s y).
Proof.
  induction xs as [|x xs IH]; intros F v s ND HF Hv.
  - cbn. apply HF. auto.
  - inversion ND; subst. cbn [TensorSpec.sum_over].
    transitivity (sumn (idim x) (fun w => if w =? v x then
       sum_over xs (fun t => if forallb (fun x => t x =? v x) xs then F t else r0) (override ieq s x w) else r0)).
    + apply sumn_ext. intros w Hw. destruct (Nat.eqb_spec w (v x)) as [E|E].
      * apply (sum_over_ext_in r0 radd ieq idim ieq_spec). intros t H1' H2'. cbn [forallb].
        rewrite (H1' x H1). unfold override. rewrite (ieq_refl ieq ieq_spec). rewrite E, Nat.eqb_refl. reflexivity.
      * transitivity (sum_over xs (fun _ => r0) (override ieq s x w)); [|apply sum_over_zero]. apply (sum_over_ext_in r0 radd ieq idim ieq_spec). intros t H1' H2'. cbn [forallb].
        rewrite (H1' x H1). unfold override. rewrite (ieq_refl ieq ieq_spec). apply Nat.eqb_neq in E. now rewrite E.
    + rewrite sumn_pick by (apply Hv; now left). rewrite IH; auto. 2:{ intros; apply Hv; now right. }
      apply HF. intros y. cbn [mem existsb]. unfold mem. unfold override.
      destruct (ieq y x) eqn:EY; cbn [orb].
      * apply ieq_spec in EY. subst y. rewrite (ieq_refl ieq ieq_spec).
        destruct (existsb (ieq x) xs); reflexivity.
      * destruct (existsb (ieq y) xs); auto. rewrite (ieq_neq ieq ieq_spec); auto. intros ->. rewrite (ieq_refl ieq ieq_spec) in EY. discriminate.
Qed.

(** ** the kernel with uncontracted indices of the dense tensor *)
Section Kernel.
Variables (g : I -> Z) (T D N : list I) (t : list R) (d : diag R).
Hypothesis ND_T : NoDup T.
Hypothesis ND_D : NoDup D.
Hypothesis ND_N : NoDup N.
Hypothesis HpT : forall x, In x T -> 0 < idim x.
Hypothesis HpD : forall x, In x D -> 0 < idim x.
Hypothesis Ft : full idim T t.
Hypothesis HN : forall x, In x N <-> (In x T /\ ~ In x D) \/ (In x D /\ ~ In x T).
Hypothesis g_inj : forall x y, In x (T ++ D) -> In y (T ++ D) -> g x = g y -> x = y.
Hypothesis g_pos : forall x, In x T \/ In x D -> (0 <? g x)%Z = negb (memb x T && memb x D).
Hypothesis Hd : D <> [] -> diag_size d = minDim idim D.
Let rN := range_init (map idim N).
Let rT := range_init (map idim T).
Let strN x := str (nth (idx ieq N x) rN (IS 0 0)).
Let IT : incl T (T ++ D). Proof. intros x Hx. apply in_or_app; auto. Qed.
Let ID : incl D (T ++ D). Proof. intros x Hx. apply in_or_app; auto. Qed.
Let IN : incl N (T ++ D). Proof. intros x Hx. apply HN in Hx. apply in_or_app; tauto. Qed.

Lemma find_g x : In x N -> find_pos Z.eqb (g x) (map g N) = Some (idx ieq N x).
Proof.
  intros Hx. unfold idx. assert (K : incl N (T ++ D)) by exact IN. clear -Hx K g_inj ieq_spec. induction N as [|y n IH]; [contradiction|].
  cbn [map find_pos]. destruct (ieq x y) eqn:E.
  - apply ieq_spec in E. subst. now rewrite Z.eqb_refl.
  - destruct Hx as [->|Hx]; [rewrite (ieq_refl ieq ieq_spec) in E; discriminate|].
    destruct (Z.eqb_spec (g x) (g y)) as [E'|E'].
    + apply g_inj in E'; [|apply K; now right|apply K; now left]. subst. rewrite (ieq_refl ieq ieq_spec) in E. discriminate.
    + rewrite IH by (auto; intros z Hz; apply K; now right).
      destruct (find_pos ieq x n) eqn:F; auto. apply (find_pos_none ieq ieq_spec) in F. contradiction.
Qed.

Fixpoint uof (r : range) (l : list I) : list (nat * nat * nat) :=
  match r, l with
  | x :: r', v :: l' => if memb v D then uof r' l' else (ext x, str x, strN v) :: uof r' l'
  | _, _ => []
  end.
Lemma rN_length : length rN = length N.
Proof. unfold rN, range_init. now rewrite with_strides_length, map_length. Qed.
Lemma upositions_ok : forall l r, incl l T -> length r = length l -> upositions rN (map g N) r (map g l) = Ok (uof r l).
Proof.
  induction l as [|x l IH]; intros [|y r] HI HL; cbn [length] in HL; try lia; auto.
  cbn [map upositions uof]. assert (Hx : In x T) by (apply HI; now left).
  rewrite g_pos by auto. rewrite (proj2 (mem_In' ieq ieq_spec x T) Hx). cbn [andb].
  assert (IHl : upositions rN (map g N) r (map g l) = Ok (uof r l)) by (apply IH; [intros z Hz; apply HI; now right|lia]).
  destruct (memb x D) eqn:E; cbn [negb]; [exact IHl|].
  apply (mem_not ieq ieq_spec) in E. assert (HxN : In x N) by (apply HN; auto).
  rewrite find_g by auto.
  rewrite (oget_ok (IS 0 0)) by (rewrite rN_length; apply (idx_in ieq ieq_spec N x HxN x)).
  cbn [obind]. rewrite IHl. reflexivity.
Qed.
Lemma uof_len l : forall r, length r = length l -> length (uof r l) = length (only ieq l D).
Proof.
  induction l as [|x l IH]; intros [|y r] HL; cbn [length] in HL; try lia; auto. cbn [uof only filter].
  destruct (memb x D); cbn [negb length]; rewrite ?IH by lia; reflexivity.
Qed.
Lemma uof_ext l : forall k, map (fun u : nat * nat * nat => fst (fst u)) (uof (with_strides k (map idim l)) l) = map idim (only ieq l D).
Proof.
  induction l as [|x l IH]; intros k; auto. cbn [map with_strides uof only filter].
  destruct (memb x D); cbn [negb map fst ext]; rewrite IH; reflexivity.
Qed.
Lemma uoffsets_ok s l : forall r, length r = length l ->
  uoffsets (uof r l) (map (fun x => Z.of_nat (s x)) (only ieq l D)) =
  (dot r (map (jset D 0 s) l), list_sum (map (fun x => s x * strN x) (only ieq l D))).
Proof.
  induction l as [|x l IH]; intros [|y r] HL; cbn [length] in HL; try lia; auto.
  cbn [uof only filter map dot]. unfold jset at 1. destruct (memb x D); cbn [negb map uoffsets].
  - rewrite IH by lia. f_equal. lia.
  - change (filter (fun x => negb (memb x D)) l) with (only ieq l D). rewrite IH by lia. rewrite list_sum_cons, Nat2Z.id. f_equal. lia.
Qed.
Lemma filter_sum (f : I -> nat) s n :
  list_sum (map (fun x => jset D 0 s x * f x) (only ieq n D)) = list_sum (map (fun x => jset D 0 s x * f x) n).
Proof.
  induction n as [|x n IH]; auto. cbn [only filter map]. rewrite list_sum_cons, <- IH. unfold jset at 2.
  destruct (memb x D) eqn:E; cbn [negb map]; [reflexivity|]. rewrite list_sum_cons. unfold jset at 1. now rewrite E.
Qed.
Lemma coffset_ok s : list_sum (map (fun x => s x * strN x) (only ieq T D)) = dot rN (map (jset D 0 s) N).
Proof.
  rewrite (dot_sum (jset D 0 s) N ND_N rN rN_length). fold strN.
  transitivity (list_sum (map (fun x => jset D 0 s x * strN x) (only ieq N D))).
  - transitivity (list_sum (map (fun x => s x * strN x) (only ieq N D))).
    + apply list_sum_perm, Permutation_map, NoDup_Permutation; try now apply NoDup_filter.
      intros x. rewrite !(in_only ieq ieq_spec), HN. tauto.
    + f_equal. apply map_ext_in. intros x Hx. apply (in_only ieq ieq_spec) in Hx as [_ Hx].
      unfold jset. now rewrite (proj2 (mem_not ieq ieq_spec x D) Hx).
  - apply (filter_sum strN s N).
Qed.

(** The index values the loops visit for J and the choice s. *)
Notation at_ J s := (jset D J s).
Lemma inr_at J s l : J < diag_size d -> incl l (T ++ D) -> (forall x, In x l -> ~ In x D -> s x < idim x) -> inrange idim l (at_ J s).
Proof.
  intros HJ HI Hs x Hx. unfold jset. destruct (memb x D) eqn:E.
  - apply (mem_In' ieq ieq_spec) in E. pose proof (minDim_le D x E). rewrite Hd in HJ by (intros ->; contradiction). lia.
  - apply (mem_not ieq ieq_spec) in E. auto.
Qed.
Lemma size_T : length t = size (map idim T).
Proof. unfold full in Ft. now rewrite size_fold. Qed.

Lemma partial_ok : only ieq T D <> [] ->
  exists C, contractDiagPartial radd rmul d (map g D) rT t (map g T) rN (repeat r0 (dim rN)) (map g N) = Ok C /\
    full idim N C /\
    forall s, inrange idim N s -> elt N C s =
      sumn (diag_size d) (fun J => if forallb (fun x => s x =? J) (only ieq D T)
                                   then rmul (dval d J) (elt T t (at_ J s)) else r0).
Proof.
  intros HO. unfold contractDiagPartial.
  assert (LT : length rT = length T) by (unfold rT, range_init; now rewrite with_strides_length, map_length).
  rewrite upositions_ok by (auto; intros x; auto). cbn [obind].
  set (us := uof rT T). set (O := only ieq T D) in *.
  assert (EN : length (filter (fun v => negb (has (map g D) v)) (map g T)) = length O).
  { unfold O, only. assert (K : incl T (T ++ D)) by exact IT. revert K. generalize T at 1 3 4 as l.
    induction l as [|x l IH]; intros K; auto. cbn [map filter].
    rewrite (has_mem g (T ++ D) D g_inj ID x) by (apply K; now left).
    destruct (memb x D); cbn [negb length]; rewrite IH by (intros z Hz; apply K; now right); reflexivity. }
  rewrite EN. unfold us at 1. rewrite uof_len by auto. fold O. rewrite Nat.eqb_refl. cbn [negb].
  assert (EE : map (fun u : nat * nat * nat => fst (fst u)) us = map idim O) by apply uof_ext.
  rewrite EE. set (rs := map _ us).
  assert (ERS : rs = map (fun e => (0%Z, (Z.of_nat e - 1)%Z)) (map idim O)).
  { unfold rs. rewrite <- EE, map_map. reflexivity. }
  assert (EG : gext rs = map idim O).
  { rewrite ERS. unfold gext. rewrite map_map. cbn [fst snd]. rewrite <- (map_id (map idim O)) at 2. apply map_ext. intros; lia. }
  assert (HpO : forall x, In x O -> 0 < idim x) by (intros x Hx; apply (in_only ieq ieq_spec) in Hx; apply HpT; tauto).
  assert (HS : 0 < size (map idim O)).
  { apply size_pos. intros k Hk. apply in_map_iff in Hk as (x & <- & Hx). auto. }
  assert (Hrs : rs <> []) by (rewrite ERS; destruct O; [congruence|discriminate]).
  pose proof (gc_loop_spec rs Hrs (size (gext rs)) 0 ltac:(lia) ltac:(rewrite EG; auto)) as EL.
  rewrite decode_zero in EL. 2:{ intros k Hk. rewrite EG in Hk. apply in_map_iff in Hk as (x & <- & Hx). auto. }
  unfold gext in EL at 2. rewrite map_length, gshift_zero in EL. unfold gc_make. rewrite <- size_fold, <- EG. rewrite EL. cbn [obind]. clear EL.
  set (vis := map _ (seq 0 _)).
  assert (GS : forall k, k < size (map idim O) -> gshift rs (decode (gext rs) k) = map (fun x => Z.of_nat (assign ieq O (decode (map idim O) k) (fun _ => 0) x)) O).
  { intros k Hk. rewrite EG. transitivity (map Z.of_nat (decode (map idim O) k)).
    - rewrite ERS. pose proof (decode_length (map idim O) k) as K. revert K. generalize (decode (map idim O) k). generalize (map idim O). clear.
      induction l as [|e l IH]; intros [|i v] K; cbn in *; try lia; auto. f_equal. apply IH. lia.
    - rewrite <- (map_map (assign ieq O (decode (map idim O) k) (fun _ => 0)) Z.of_nat). f_equal. symmetry.
      apply (assign_map ieq idim ieq_spec); [now apply NoDup_filter|]. now rewrite decode_length, map_length. }
  assert (UO : forall s, uoffsets us (map (fun x => Z.of_nat (s x)) O) = (dot rT (map (jset D 0 s) T), dot rN (map (jset D 0 s) N))).
  { intros s. unfold us, O. rewrite uoffsets_ok by auto. now rewrite coffset_ok. }
  assert (POS : forall J s, J * cstride (map g D) rT (map g T) + dot rT (map (jset D 0 s) T) = enc (map idim T) (map (at_ J s) T)
                         /\ J * cstride (map g D) rN (map g N) + dot rN (map (jset D 0 s) N) = enc (map idim N) (map (at_ J s) N)).
  { intros J s. split.
    - rewrite <- (dot_cstride g (T ++ D) D g_inj ID) by auto. apply dot_range_init. now rewrite !map_length.
    - rewrite <- (dot_cstride g (T ++ D) D g_inj ID) by (auto; apply rN_length). apply dot_range_init. now rewrite !map_length. }
  assert (VAL : forall k J, k < size (map idim O) -> J < diag_size d -> let s := assign ieq O (decode (map idim O) k) (fun _ => 0) in
     inrange idim T (at_ J s) /\ inrange idim N (at_ J s)).
  { intros k J Hk HJ s.
    assert (Hs : inrange idim O s).
    { apply (inrange_valid idim). unfold s. rewrite (assign_map ieq idim ieq_spec) by (try apply NoDup_filter; auto; now rewrite decode_length, map_length).
      now apply decode_valid. }
    split; apply inr_at; auto; intros x Hx Hn; apply Hs, (in_only ieq ieq_spec); auto.
    apply HN in Hx. tauto. }
  assert (LN : dim rN = size (map idim N)).
  { unfold rN. rewrite dim_size. f_equal. unfold range_init. apply map_ext_range_init. }
  rewrite visit_loop_ok.
  2:{ intros iv n J Hin HJ. apply in_map_iff in Hin as (k & EK & Hk). injection EK as <- <-. apply in_seq in Hk. rewrite EG in Hk.
      rewrite GS by lia. rewrite UO. cbn [fst snd].
      set (s := assign _ _ _ _). destruct (POS J s) as [P1 P2]. rewrite P1, P2.
      destruct (VAL k J ltac:(lia) HJ) as [V1 V2].  fold s in V1, V2. rewrite repeat_length, LN, size_T.
      split; apply enc_lt; now apply (inrange_valid idim). }
  eexists. split; [reflexivity|]. split.
  { unfold full. rewrite acc_length, repeat_length, LN. apply size_fold. }
  intros s Hs. unfold TensorSpec.elt at 1. rewrite nth_acc.
  2:{ intros p v Hin. apply in_flat_map in Hin as ([iv n] & Hin & HE). apply in_map_iff in Hin as (k & EK & Hk). injection EK as <- <-. apply in_seq in Hk. rewrite EG in Hk.
      unfold entries in HE. apply in_map_iff in HE as (J & EJ & HJ). apply in_seq in HJ. injection EJ as <- <-. cbn [fst].
      rewrite GS by lia. rewrite UO. cbn [fst snd].
      set (s' := assign _ _ _ _). destruct (POS J s') as [P1 P2]. rewrite P2.
      destruct (VAL k J ltac:(lia) ltac:(lia)) as [V1 V2].  fold s' in V1, V2. rewrite repeat_length, LN.
      apply enc_lt; now apply (inrange_valid idim). }
  replace (nth _ (repeat r0 _) r0) with r0 by (symmetry; apply nth_repeat).
  unfold vis. rewrite flat_map_concat_map, map_map, <- flat_map_concat_map, hits_flat_seq, EG. cbn [fst].
  set (q := colmajor _ _).
  set (G := fun s' : I -> nat => sumn (diag_size d) (fun J => if forallb (fun x => s x =? J) (only ieq D T) then rmul (dval d J) (elt T t (at_ J s')) else r0)).
  transitivity (sumn (size (map idim O)) (fun k => (fun s' => if forallb (fun x => s' x =? s x) O then G s' else r0) (assign ieq O (decode (map idim O) k) s))).
  - match goal with |- radd r0 ?X = _ => transitivity X; [ring|] end.
    apply sumn_ext. intros k Hk. pose proof (GS k Hk) as GS'. rewrite EG in GS'. rewrite GS'. clear GS'. rewrite UO. cbn [fst snd].
    set (s0 := assign ieq O (decode (map idim O) k) (fun _ => 0)). set (s1 := assign ieq O (decode (map idim O) k) s).
    assert (E01 : forall x, In x O -> s0 x = s1 x).
    { intros x Hx. assert (K : map s0 O = map s1 O).
      { unfold s0, s1. rewrite !(assign_map ieq idim ieq_spec) by (try apply NoDup_filter; auto; now rewrite decode_length, map_length). reflexivity. }
      exact (map_eq_in _ _ O K x Hx). }
    unfold entries. rewrite hits_map_seq. unfold G.
    destruct (forallb (fun x => s1 x =? s x) O) eqn:EF.
    + apply sumn_ext. intros J HJ. destruct (POS J s0) as [P1 P2]. rewrite P1, P2. destruct (VAL k J ltac:(lia) HJ) as [V1 V2]. fold s0 in V1, V2.
      assert (EV : (enc (map idim N) (map (at_ J s0) N) =? q) = forallb (fun x => s x =? J) (only ieq D T)).
      { unfold q. change (colmajor (map idim N) (map s N)) with (enc (map idim N) (map s N)). apply eq_true_iff_eq. rewrite Nat.eqb_eq, forallb_forall. split.
        - intros E x Hx. apply (enc_inj (map idim N)) in E; try now apply (inrange_valid idim).
          apply (in_only ieq ieq_spec) in Hx as [Hx1 Hx2]. assert (HxN : In x N) by (apply HN; auto).
          assert (K : at_ J s0 x = s x). { exact (map_eq_in _ _ N E x HxN). }
          unfold jset in K. rewrite (proj2 (mem_In' ieq ieq_spec x D) Hx1) in K. apply Nat.eqb_eq. auto.
        - intros H. f_equal. apply map_ext_in. intros x Hx. unfold jset. destruct (memb x D) eqn:E.
          + apply (mem_In' ieq ieq_spec) in E. symmetry. apply Nat.eqb_eq, H, (in_only ieq ieq_spec). apply HN in Hx. tauto.
          + apply (mem_not ieq ieq_spec) in E. assert (HxO : In x O) by (apply (in_only ieq ieq_spec); apply HN in Hx; tauto).
            rewrite E01 by auto. rewrite forallb_forall in EF. now apply Nat.eqb_eq, EF. }
      rewrite EV. match goal with |- (if ?b then _ else _) = _ => destruct b end; auto. f_equal. change (nth (enc (map idim T) (map (at_ J s0) T)) t r0) with (elt T t (at_ J s0)). 
      apply elt_ext. intros x Hx. unfold jset. destruct (memb x D) eqn:E; auto. apply E01, (in_only ieq ieq_spec). apply (mem_not ieq ieq_spec) in E. auto.
    + apply (sumn_zero r0 r1 radd rmul SR). intros J HJ. destruct (POS J s0) as [P1 P2]. rewrite P2. destruct (VAL k J ltac:(lia) HJ) as [V1 V2]. fold s0 in V1, V2.
      destruct (Nat.eqb_spec (enc (map idim N) (map (at_ J s0) N)) q) as [E|]; auto. exfalso.
      unfold q in E. change (colmajor (map idim N) (map s N)) with (enc (map idim N) (map s N)) in E. apply (enc_inj (map idim N)) in E; try now apply (inrange_valid idim).
      rewrite <- not_true_iff_false in EF. apply EF. apply forallb_forall. intros x Hx. apply Nat.eqb_eq. rewrite <- E01 by auto.
      apply (in_only ieq ieq_spec) in Hx as [Hx1 Hx2]. assert (HxN : In x N) by (apply HN; auto).
      assert (K : at_ J s0 x = s x). { exact (map_eq_in _ _ N E x HxN). }
      unfold jset in K. now rewrite (proj2 (mem_not ieq ieq_spec x D) Hx2) in K.
  - rewrite (sum_over_assign r0 r1 radd rmul SR ieq idim O (fun s' => if forallb (fun x => s' x =? s x) O then G s' else r0)) by auto.
    assert (HG : respects G).
    { intros a b E. unfold G. apply sumn_ext. intros J _. destruct (forallb _ _); auto. f_equal. unfold TensorSpec.elt. f_equal. f_equal. apply map_ext.
      intros x. unfold jset. now rewrite E. }
    rewrite sum_over_pick; auto; [|now apply NoDup_filter|].
    2:{ intros x Hx. apply Hs, HN. apply (in_only ieq ieq_spec) in Hx. tauto. }
    apply HG. intros y. destruct (memb y O); reflexivity.
Qed.
End Kernel.

(** ** the Einstein sum with a diagonal tensor *)
Lemma diagonal_sum vals D s : D <> [] -> inrange idim D s ->
  diagonal r0 vals D s = sumn (minDim idim D) (fun J => if forallb (fun x => s x =? J) D then vals J else r0).
Proof.
  intros HD Hs. destruct D as [|x D']; [congruence|]. cbn [diagonal].
  destruct (forallb (fun y => s y =? s x) D') eqn:E.
  - assert (HM : s x < minDim idim (x :: D')).
    { destruct (minDim_in (x :: D') HD) as (y & Hy & ->). destruct Hy as [<-|Hy]; [apply Hs; now left|].
      rewrite forallb_forall in E. specialize (E y Hy). apply Nat.eqb_eq in E. rewrite <- E. apply Hs. now right. }
    rewrite <- (sumn_pick _ (s x) vals HM). apply sumn_ext. intros J _. cbn [forallb]. rewrite (Nat.eqb_sym (s x) J).
    destruct (Nat.eqb_spec J (s x)) as [->|]; cbn [andb]; auto. now rewrite E.
  - symmetry. apply (sumn_zero r0 r1 radd rmul SR). intros J _. cbn [forallb].
    destruct (Nat.eqb_spec (s x) J) as [<-|]; cbn [andb]; auto. now rewrite E.
Qed.

Lemma sum_over_sumn xs n : forall (F : nat -> (I -> nat) -> R) s,
  sum_over xs (fun u => sumn n (fun J => F J u)) s = sumn n (fun J => sum_over xs (F J) s).
Proof.
  induction xs as [|x xs IH]; intros F s; cbn [TensorSpec.sum_over]; auto.
  transitivity (sumn (idim x) (fun v => sumn n (fun J => sum_over xs (F J) (override ieq s x v)))).
  - apply sumn_ext. intros v _. apply IH.
  - apply (sumn_exchange r0 r1 radd rmul SR).
Qed.

Lemma einstein_diag vals T t D s : NoDup T -> D <> [] -> (forall x, In x D -> 0 < idim x) ->
  (forall x, In x D -> ~ In x T -> s x < idim x) ->
  sum_over (common ieq T D) (fun u => rmul (elt T t u) (diagonal r0 vals D u)) s =
  sumn (minDim idim D) (fun J => if forallb (fun x => s x =? J) (only ieq D T)
                                 then rmul (vals J) (elt T t (jset D J s)) else r0).
Proof.
  intros NT HD HpD Hs. set (cm := common ieq T D).
  transitivity (sum_over cm (fun u => sumn (minDim idim D) (fun J => if forallb (fun x => u x =? J) D then rmul (vals J) (elt T t u) else r0)) s).
  - apply (sum_over_ext_in r0 radd ieq idim ieq_spec). intros u H1 H2. rewrite diagonal_sum; auto.
    + rewrite <- (sumn_mul_l r0 r1 radd rmul SR). apply sumn_ext. intros J _. destruct (forallb _ _); ring.
    + intros x Hx. destruct (memb x T) eqn:E.
      * apply (mem_In' ieq ieq_spec) in E. apply H2, (in_common ieq ieq_spec). auto.
      * apply (mem_not ieq ieq_spec) in E. rewrite H1; auto. unfold cm. rewrite (in_common ieq ieq_spec). tauto.
  - rewrite sum_over_sumn. apply sumn_ext. intros J HJ.
    transitivity (sum_over cm (fun u => if forallb (fun x => u x =? J) cm then
        (if forallb (fun x => s x =? J) (only ieq D T) then rmul (vals J) (elt T t u) else r0) else r0) s).
    + apply (sum_over_ext_in r0 radd ieq idim ieq_spec). intros u H1 H2.
      assert (E : forallb (fun x => u x =? J) D = forallb (fun x => u x =? J) cm && forallb (fun x => s x =? J) (only ieq D T)).
      { apply eq_true_iff_eq. rewrite andb_true_iff, !forallb_forall. split.
        - intros H. split; intros x Hx.
          + apply H. apply (in_common ieq ieq_spec) in Hx. tauto.
          + apply (in_only ieq ieq_spec) in Hx. rewrite <- H1; [apply H; tauto|]. unfold cm. rewrite (in_common ieq ieq_spec). tauto.
        - intros [Ha Hb] x Hx. destruct (in_dec (ieq_dec ieq ieq_spec) x T) as [E|E].
          + apply Ha, (in_common ieq ieq_spec). auto.
          + rewrite H1; [apply Hb, (in_only ieq ieq_spec); auto|]. unfold cm. rewrite (in_common ieq ieq_spec). tauto. }
      rewrite E. destruct (forallb _ cm); reflexivity.
    + rewrite sum_over_pick with (v := fun _ => J).
      * destruct (forallb _ _); auto. f_equal. apply elt_ext. intros x Hx. unfold jset.
        destruct (memb x D) eqn:E1; destruct (memb x cm) eqn:E2; auto; exfalso.
        -- apply (mem_In' ieq ieq_spec) in E1. apply (mem_not ieq ieq_spec) in E2. apply E2, (in_common ieq ieq_spec). auto.
        -- apply (mem_not ieq ieq_spec) in E1. apply (mem_In' ieq ieq_spec) in E2. apply (in_common ieq ieq_spec) in E2. tauto.
      * now apply NoDup_filter.
      * intros a b E. destruct (forallb _ _); auto. f_equal. apply elt_ext. auto.
      * intros x Hx. apply (in_common ieq ieq_spec) in Hx. pose proof (minDim_le D x (proj2 Hx)). lia.
Qed.

(** ** the kernel when the diagonal tensor has all indices of the dense one *)
Lemma full_ok g T D t d n : NoDup T -> incl T D ->
  (forall x y, In x (T ++ D) -> In y (T ++ D) -> g x = g y -> x = y) ->
  full idim T t -> D <> [] -> diag_size d = minDim idim D -> n = 1 \/ n = minDim idim D ->
  contractDiagFull radd rmul d (map g D) (range_init (map idim T)) t (map g T) (repeat r0 n) =
    Ok (if n =? 1 then [sumn (minDim idim D) (fun J => rmul (entry r0 d J) (elt T t (fun _ => J)))]
        else map (fun J => rmul (entry r0 d J) (elt T t (fun _ => J))) (seq 0 n)).
Proof.
  intros NT HI Hg Ft HD Hsz Hn. unfold contractDiagFull. rewrite repeat_length.
  assert (IT : incl T (T ++ D)) by (intros x Hx; apply in_or_app; auto).
  assert (ID : incl D (T ++ D)) by (intros x Hx; apply in_or_app; auto).
  assert (POS : forall J, J * cstride (map g D) (range_init (map idim T)) (map g T) + 0 = enc (map idim T) (map (fun _ => J) T)).
  { intros J. rewrite <- (dot_range_init (map idim T) (map (fun _ => J) T)) by now rewrite !map_length.
    assert (E : forall k, map (jset D k (fun _ => 0)) T = map (fun _ => k) T).
    { intros k. apply map_ext_in. intros x Hx. unfold jset. now rewrite (proj2 (mem_In' ieq ieq_spec x D) (HI x Hx)). }
    rewrite <- (E J). rewrite (dot_cstride g (T ++ D) D Hg ID) by (auto; unfold range_init; now rewrite with_strides_length, map_length).
    f_equal. rewrite E. generalize (range_init (map idim T)) as r. clear. induction T as [|x l IH]; intros [|y r]; cbn; auto. rewrite <- IH. lia. }
  assert (INR : forall J, J < minDim idim D -> inrange idim T (fun _ => J)).
  { intros J HJ x Hx. pose proof (minDim_le D x (HI x Hx)). lia. }
  assert (LB : forall J, J < minDim idim D -> enc (map idim T) (map (fun _ => J) T) < length t).
  { intros J HJ. unfold full in Ft. rewrite Ft, <- size_fold. apply enc_lt, (inrange_valid idim). auto. }
  rewrite diag_loop_ok.
  2:{ intros J HJ. apply in_seq in HJ. rewrite repeat_length, POS. split; [lia|]. split; [apply LB; lia|].
      destruct (Nat.eqb_spec n 1); [lia|]. destruct Hn; lia. }
  f_equal. rewrite Hsz.
  assert (EE : forall c, entries d t (cstride (map g D) (range_init (map idim T)) (map g T)) c 0 0 (seq 0 (minDim idim D)) =
      map (fun J => (J * c + 0, rmul (entry r0 d J) (elt T t (fun _ => J)))) (seq 0 (minDim idim D))).
  { intros c. unfold entries. apply map_ext. intros J. rewrite POS. reflexivity. }
  rewrite EE. apply (nth_ext _ _ r0 r0).
  { rewrite acc_length, repeat_length. destruct (Nat.eqb_spec n 1); [subst; reflexivity|now rewrite map_length, seq_length]. }
  rewrite acc_length, repeat_length. intros q Hq. rewrite nth_acc.
  2:{ intros p v Hin. apply in_map_iff in Hin as (J & EJ & HJ). apply in_seq in HJ. injection EJ as <- <-. rewrite repeat_length.
      destruct (Nat.eqb_spec n 1); [lia|]. destruct Hn; lia. }
  replace (nth q (repeat r0 n) r0) with r0 by (symmetry; apply nth_repeat).
  rewrite hits_map_seq. destruct (Nat.eqb_spec n 1) as [->|N1].
  - assert (q = 0) by lia. subst q. cbn [nth]. match goal with |- radd r0 ?X = _ => transitivity X; [ring|] end.
    apply sumn_ext. intros J _. now rewrite Nat.mul_0_r.
  - assert (n = minDim idim D) by (destruct Hn; auto; lia). subst n.
    rewrite (nth_indep _ r0 ((fun J => rmul (entry r0 d J) (elt T t (fun _ => J))) 0)) by now rewrite map_length, seq_length.
    rewrite (map_nth (fun J => rmul (entry r0 d J) (elt T t (fun _ => J))) (seq 0 (minDim idim D)) 0 q). rewrite seq_nth by auto. cbn [Nat.add].
    match goal with |- radd r0 ?X = _ => transitivity X; [ring|] end.
    rewrite <- (sumn_pick (minDim idim D) q (fun J => rmul (entry r0 d J) (elt T t (fun _ => J))) Hq). apply sumn_ext. intros J _.
    now rewrite Nat.mul_1_r, Nat.add_0_r.
Qed.
End Num.
