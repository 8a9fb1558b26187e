(** The chain of tensors multiplies to the sum of the terms. *)
From Coq Require Import List ZArith Arith Lia Bool String Sorted Ring.
From Verif Require Import Util AutoMpoModel AutoMpoSpec AutoMpoProofs AutoMpoJW SvdMpoModel SvdMpoSum SvdMpoTerms SvdMpoPart SvdMpoSweep.
Import ListNotations.
Local Open Scope outcome_scope.
Local Arguments Nat.sub : simpl never.

Section Chain.
Context {R : Type} (r0 r1 : R) (radd rmul : R -> R -> R) (conj : R -> R) (ceq : R -> R -> bool) (tiny : R -> bool).
Context (SR : semi_ring_theory r0 r1 radd rmul (@eq R)).
Add Ring RRsc : SR.
Context {Q : Type} (q0 : Q) (qadd : Q -> Q -> Q) (qeqb qltb : Q -> Q -> bool).
Context (qeqb_spec : forall a b, qeqb a b = true <-> a = b).
Context (qassoc : forall a b c, qadd a (qadd b c) = qadd (qadd a b) c) (qid_l : forall a, qadd q0 a = a) (qid_r : forall a, qadd a q0 = a).
Context (opq : sterm -> Q).
Context (opId : forall n, opq (ST "Id" n) = q0) (opF : forall n, opq (ST "F" n) = q0) (opR : forall s n, opq (ST (fermionicTerm s) n) = opq (ST s n)).
Context (vof : list (list R) -> nat * list (list R)).
Context (val : nat -> list sterm -> R).
Notation calcQN := (calcQN q0 qadd opq).
Notation block := (@block R).
Notation block0 := (@block0 R).
Notation elem := (@elem R Q).
Notation get_blk := (get_blk qeqb).
Notation hterm := (@hterm R).
Notation vmat := (nat * list (list R))%type.
Notation vmat0 := (@vmat0 R).
Notation lsum := (lsum r0 radd).
Notation entry := (entry r0).
Notation link_of := (link_of q0 qeqb).
Notation blockSize := (blockSize qeqb).
Notation went := (went r0 radd rmul q0 qadd qeqb opq val).
Notation B := (B qeqb).
Notation qlf := (qlf q0 qadd opq).
Notation elof := (elof r1 q0 qadd qeqb opq).
Notation wf := (wf q0 qadd opq).
Notation shift := (shift q0 qeqb).
Notation gsum := (gsum r0 radd rmul conj q0 qeqb).
Notation colf := (colf r0 r1 q0 qeqb).
Declare Scope sc_scope.
Delimit Scope sc_scope with sc.
Notation "x + y" := (radd x y) : sc_scope.
Notation "x * y" := (rmul x y) : sc_scope.
Local Open Scope sc_scope.

Lemma calcQN_cons t p : calcQN (t :: p) = qadd (opq t) (calcQN p).
Proof. change (t :: p) with ([t] ++ p). rewrite (calcQN_app q0 qadd qassoc qid_l qid_r). f_equal. unfold SvdMpoModel.calcQN. cbn. apply qid_l. Qed.
Lemma calcQN_rw p : calcQN (map rw p) = calcQN p.
Proof. induction p as [|t p IH]; [reflexivity|]. cbn [map]. rewrite !calcQN_cons, IH. f_equal. unfold rw. destruct (isF t); auto. destruct t as [s i]. cbn. apply opR. Qed.
(** Placing the operators does not change the quantum number. *)
Lemma calcQN_spp o n : StronglySorted sle o -> calcQN (spp o n) = calcQN (on n o).
Proof.
  intros H. pose proof (spp_on n o H) as A. destruct (on n o) as [|t l] eqn:E.
  - injection A as A. rewrite <- A, calcQN_cons. destruct (isFp (lf n o)); cbn [SvdMpoModel.calcQN fold_left]; [rewrite opF|rewrite opId]; cbn; apply qid_l.
  - unfold rewriteFermionic in A. destruct (existsb _ (t :: l)); [discriminate|]. apply (f_equal (fun x => match x with Ok p => p | _ => [] end)) in A. cbv beta iota zeta in A. rewrite <- A.
    change (map (fun x => if isF x then ST (fermionicTerm (st_op x)) (st_i x) else x) (t :: l)) with (map rw (t :: l)). clear A.
    assert (F1 : calcQN [ST "F"%string (st_i t)] = q0) by (rewrite calcQN_cons, opF; cbn; apply qid_l).
    destruct (_ || _)%bool; destruct (isFp (t :: l)); rewrite ?(calcQN_app q0 qadd qassoc qid_l qid_r), ?calcQN_rw, ?F1, ?qid_r; reflexivity.
Qed.

(** The product of the operators of a term placed on the sites up to m. *)
Fixpoint Lv (m : nat) (o : prod) : R := match m with 0 => r1 | Datatypes.S k => Lv k o * val (Datatypes.S k) (spp o (Datatypes.S k)) end.
Fixpoint Iv (m : nat) : R := match m with 0 => r1 | Datatypes.S k => Iv k * val (Datatypes.S k) [ST "Id"%string (Datatypes.S k)] end.
Lemma Lv_left m k o : StronglySorted sle o -> k <= m -> Lv k (lf (Datatypes.S m) o) = Lv k o.
Proof. intros H. induction k as [|k IH]; intros Hk; [reflexivity|]. cbn [Lv]. rewrite IH, spp_left by (auto; lia). reflexivity. Qed.
Lemma Lv_before m o : StronglySorted sle o -> lf (Datatypes.S m) o = [] -> Lv m o = Iv m.
Proof.
  intros H. induction m as [|m IH]; intros E; [reflexivity|]. cbn [Lv Iv]. rewrite (spp_before o (Datatypes.S m) H E), IH; auto.
  rewrite (lf_S _ _ H) in E. now apply app_eq_nil in E.
Qed.

Context (N : nat) (T : list hterm) (qbs : list (list (Q * block))) (temp : list (list elem)).
Context (ND : NoDup (map ht_ops T)) (WF : forall h, In h T -> wf N (ht_ops h)) (NT : forall h, In h T -> tiny (ht_coef h) = false) (tiny1 : tiny r1 = false).
Context (I : Inv r1 q0 qadd qeqb opq N (pairs T) qbs temp).
Context (EX : forall q b m, In (q, b) (nth m qbs []) -> exact r0 radd rmul conj (toMatrix r0 (b_mat b)) (vof (toMatrix r0 (b_mat b)))).

Lemma uniq a b : In a T -> In b T -> ht_ops a = ht_ops b -> a = b.
Proof.
  clear -ND. intros Ha Hb E. induction T as [|x T' IH]; [destruct Ha|]. cbn in ND. apply NoDup_cons_iff in ND as [N1 N2].
  destruct Ha as [->|Ha], Hb as [->|Hb]; auto; exfalso; apply N1; [rewrite E|rewrite <- E]; now apply in_map.
Qed.

Definition Vs (m : nat) : list (Q * vmat) := match m with 0 => [] | Datatypes.S k => vmats r0 vof (nth k qbs []) end.
Definition VV (m : nat) (q : Q) : vmat := get_blk vmat0 q (Vs m).
Lemma get_vmats q (qb : list (Q * block)) : In q (map fst qb) -> get_blk vmat0 q (vmats r0 vof qb) = vof (toMatrix r0 (b_mat (get_blk block0 q qb))).
Proof.
  induction qb as [|[k b] qb IH]; intros H; [destruct H|]. cbn. destruct (qeqb q k) eqn:E; auto. apply IH. destruct H as [H|H]; auto. cbn in H. subst k.
  rewrite (proj2 (qeqb_spec q q) eq_refl) in E. discriminate.
Qed.
Lemma get_blk_in {X} (d : X) q m : In q (map fst m) -> In (q, get_blk d q m) m.
Proof. induction m as [|[k b] m IH]; intros H; [destruct H|]. cbn. destruct (qeqb q k) eqn:E; [apply qeqb_spec in E; subst; now left|]. right. apply IH. destruct H as [H|H]; auto. cbn in H. subst. rewrite (proj2 (qeqb_spec q q) eq_refl) in E. discriminate. Qed.
Lemma Vs_keys m : map fst (Vs m) = match m with 0 => [] | Datatypes.S k => map fst (nth k qbs []) end.
Proof. destruct m; [reflexivity|]. cbn. unfold vmats. rewrite map_map. reflexivity. Qed.
Lemma Vs_nodup m : NoDup (map fst (Vs m)).
Proof. rewrite Vs_keys. destruct m; [constructor|]. destruct I as [(_ & H & _)]. apply H. Qed.
Lemma key_of_right m q p : 1 <= m -> In p (b_right (B qbs m q)) -> In q (map fst (nth (m - 1) qbs [])).
Proof.
  intros Hm H. destruct (existsb (fun e => qeqb q (fst e)) (nth (m - 1) qbs [])) eqn:E; [now apply (exists_key qeqb qeqb_spec)|].
  exfalso. unfold SvdMpoPart.B in H. rewrite (get_notin q0 qeqb qltb qeqb_spec) in H; [destruct H|]. intros X. apply (exists_key qeqb qeqb_spec) in X. congruence.
Qed.

(** Terms that cross link m with quantum number q, and their matrix. *)
Definition crq (m : nat) (q : Q) : list hterm := filter (fun h => (crossing m h && qeqb (qlf (Datatypes.S m) h) q)%bool) T.
Lemma crq_in m q h : In h (crq m q) <-> In h T /\ olf (Datatypes.S m) h <> [] /\ org m h <> [] /\ qlf (Datatypes.S m) h = q.
Proof. unfold crq, crossing. rewrite filter_In, !andb_true_iff, !negb_true_iff, !emptyb_false, qeqb_spec. tauto. Qed.
Lemma crq_covers m q h : 1 <= m -> In h (crq m q) -> covers N h m /\ (m < N)%nat /\ covers N h (Datatypes.S m).
Proof.
  intros Hm H. apply crq_in in H as (H1 & H2 & H3 & H4). destruct (WF h H1) as [Wne Ws Wr We Wz Wp]. unfold olf, org in *.
  assert (A : ~ st_i (last (ht_ops h) st_none) <= m) by (intros X; apply H3; now apply (rg_nil m _ Ws Wne)).
  assert (A' : st_i (last (ht_ops h) st_none) <= N) by (apply Wr; now apply last_in).
  assert (A2 : ~ Datatypes.S m <= st_i (hd st_none (ht_ops h))) by (intros X; apply H2; now apply (lf_nil _ _ Ws Wne)).
  unfold covers. rewrite !(cover_iff _ _ Ws Wne) by lia. repeat split; lia.
Qed.
Lemma crq_mem m q h : 1 <= m -> In h (crq m q) -> In (org m h) (b_right (B qbs m q)) /\ In (olf (Datatypes.S m) h) (b_left (B qbs m q)).
Proof.
  intros Hm H. pose proof H as H'. apply crq_in in H' as (H1 & H2 & H3 & H4). destruct (crq_covers m q h Hm H) as (_ & _ & C).
  destruct I as [_ _ IL _ _ _ _]. assert (X : In (h, Datatypes.S m) (pairs T)) by (apply (in_pairs q0 qadd opq N); auto). specialize (IL _ _ X H2). unfold left_in in IL.
  replace (Datatypes.S m - 1)%nat with m in IL by lia. now rewrite H4 in IL.
Qed.
Lemma mat_eq m q : 1 <= m -> b_mat (B qbs m q) = map (ent q0 qadd qeqb opq qbs m) (crq m q).
Proof. intros Hm. destruct I as [_ _ _ _ IM _ _]. rewrite IM by auto. now rewrite (cr_pairs q0 qadd qeqb opq N). Qed.
Lemma crq_nodup m q : NoDup (crq m q).
Proof. apply NoDup_filter. apply (NoDup_map_inv ht_ops). exact ND. Qed.
Lemma mat_nodup m q : 1 <= m -> NoDup (map fst (b_mat (B qbs m q))).
Proof.
  intros Hm. rewrite mat_eq, map_map by auto. assert (G : forall l, (forall h, In h l -> In h (crq m q)) -> NoDup l -> NoDup (map (fun h => fst (ent q0 qadd qeqb opq qbs m h)) l)).
  { induction l as [|h l IH]; intros H Nl; [constructor|]. apply NoDup_cons_iff in Nl as [N1 N2]. cbn [map]. constructor.
    - intros X. apply in_map_iff in X as (h' & E & X). apply N1. replace h with h'; auto.
      pose proof (H h (or_introl eq_refl)) as Hh. pose proof (H h' (or_intror X)) as Hh'.
      destruct (crq_mem m q h Hm Hh) as [R1 L1]. destruct (crq_mem m q h' Hm Hh') as [R2 L2].
      apply crq_in in Hh as (A1 & A2 & A3 & A4). apply crq_in in Hh' as (B1 & B2 & B3 & B4).
      unfold ent in E. cbn [fst] in E. rewrite A4, B4 in E. injection E as E1 E2. apply pos_inj in E1; auto. apply pos_inj in E2; auto.
      apply uniq; auto. destruct (WF h A1) as [_ S1 _ _ _ _]. destruct (WF h' B1) as [_ S2 _ _ _ _]. unfold olf, org in *. rewrite (split2 m _ S1), (split2 m _ S2). congruence.
    - apply IH; auto. intros; apply H; now right. }
  apply G; auto. apply crq_nodup.
Qed.
(** The right singular vectors of a link. *)
Lemma VV_exact m q h : 1 <= m -> In h (crq m q) ->
  let M := b_mat (B qbs m q) in VV m q = vof (toMatrix r0 M) /\ dims (snd (VV m q)) (mcols M) (fst (VV m q)) /\
  (pos (org m h) (b_right (B qbs m q)) < mcols M)%nat /\
  forall l j, (l < mrows M)%nat -> (j < mcols M)%nat ->
    lsum (fun j' => entry (toMatrix r0 M) l j' * lsum (fun r => entry (snd (VV m q)) j' r * conj (entry (snd (VV m q)) j r)) (seq 0 (fst (VV m q)))) (seq 0 (mcols M)) = entry (toMatrix r0 M) l j.
Proof.
  intros Hm H M. destruct (crq_mem m q h Hm H) as [R1 L1]. pose proof (key_of_right m q _ Hm R1) as K.
  assert (E : VV m q = vof (toMatrix r0 M)).
  { unfold VV, Vs. destruct m as [|k]; [lia|]. replace (Datatypes.S k - 1)%nat with k in K by lia. rewrite get_vmats by exact K. unfold M, SvdMpoPart.B. now replace (Datatypes.S k - 1)%nat with k by lia. }
  assert (He : In (ent q0 qadd qeqb opq qbs m h) M) by (unfold M; rewrite mat_eq by auto; now apply in_map).
  assert (X : exact r0 radd rmul conj (toMatrix r0 M) (vof (toMatrix r0 M))) by (apply (EX q (B qbs m q) (m - 1)); unfold SvdMpoPart.B; now apply get_blk_in).
  destruct (toMatrix_spec r0 r1 radd rmul SR M (mat_nodup m q Hm)) as [D _].
  pose proof (mcols_lt M _ He) as C1. pose proof (mrows_lt M _ He) as C2. apply crq_in in H as (_ & _ & _ & A4). unfold ent in C1, C2. cbn [fst snd] in C1, C2. rewrite A4 in *.
  destruct (X _ _ D) as [D' X']; [lia|]. rewrite E. split; [reflexivity|]. split; [exact D'|]. split; [exact C1|]. exact X'.
Qed.
(** Projecting on the singular vectors of the links keeps what the terms with the same right part sum to. *)
Lemma project m q h0 (v : Q * nat -> R) : 1 <= m -> In h0 (crq m q) ->
  (forall c, (c < fst (VV m q))%nat -> v (q, (shift q + c)%nat) = lsum (fun h => ht_coef h * Lv m (ht_ops h) * entry (snd (VV m q)) (pos (org m h) (b_right (B qbs m q))) c) (crq m q)) ->
  lsum (fun i => v (q, (i + shift q)%nat) * conj (entry (snd (VV m q)) (pos (org m h0) (b_right (B qbs m q))) i)) (seq 0 (fst (VV m q))) =
  lsum (fun h => if prod_eqb (org m h) (org m h0) then ht_coef h * Lv m (ht_ops h) else r0) (crq m q).
Proof.
  intros Hm H0 Hv. destruct (VV_exact m q h0 Hm H0) as (_ & _ & C & X). set (M := b_mat (B qbs m q)) in *. set (V := VV m q) in *. set (b := B qbs m q) in *.
  set (j0 := pos (org m h0) (b_right b)) in *.
  set (w := fun l => match nth_error (b_left b) l with Some p => Lv m p | None => r0 end).
  assert (Hw : forall h, In h (crq m q) -> w (pos (olf (Datatypes.S m) h) (b_left b)) = Lv m (ht_ops h)).
  { intros h Hh. destruct (crq_mem m q h Hm Hh) as [_ L]. fold b in L. unfold w. rewrite (pos_nth _ _ L). apply crq_in in Hh as (A1 & _). unfold olf. apply Lv_left; auto. now destruct (WF h A1). }
  transitivity (lsum (fun h => w (pos (olf (Datatypes.S m) h) (b_left b)) * (ht_coef h * (fun j' => lsum (fun r => entry (snd V) j' r * conj (entry (snd V) j0 r)) (seq 0 (fst V))) (pos (org m h) (b_right b)))) (crq m q)).
  { transitivity (lsum (fun i => lsum (fun h => ht_coef h * Lv m (ht_ops h) * entry (snd V) (pos (org m h) (b_right b)) i * conj (entry (snd V) j0 i)) (crq m q)) (seq 0 (fst V))).
    - apply lsum_ext. intros i Hi. apply in_seq in Hi. rewrite (Nat.add_comm i), Hv by lia. now rewrite (lsum_mul_r r0 r1 radd rmul SR).
    - rewrite (lsum_swap r0 r1 radd rmul SR). apply lsum_ext. intros h Hh. rewrite Hw by auto. rewrite <- !(lsum_mul_l r0 r1 radd rmul SR). apply lsum_ext. intros i _. ring. }
  assert (MS : forall g : nat -> R, lsum (fun h => w (pos (olf (Datatypes.S m) h) (b_left b)) * (ht_coef h * g (pos (org m h) (b_right b)))) (crq m q) =
     lsum (fun l => w l * lsum (fun j => entry (toMatrix r0 M) l j * g j) (seq 0 (mcols M))) (seq 0 (mrows M))).
  { intros g. rewrite (mat_sum r0 r1 radd rmul SR M w g (mat_nodup m q Hm)). rewrite (mat_eq m q Hm : M = _), lsum_map. apply lsum_ext. intros h Hh. apply crq_in in Hh as (_ & _ & _ & A). unfold ent. cbn [fst snd]. rewrite A. reflexivity. }
  etransitivity; [exact (MS (fun j' => lsum (fun r => entry (snd V) j' r * conj (entry (snd V) j0 r)) (seq 0 (fst V))))|].
  transitivity (lsum (fun l => w l * lsum (fun j => entry (toMatrix r0 M) l j * (fun j => if Nat.eqb j0 j then r1 else r0) j) (seq 0 (mcols M))) (seq 0 (mrows M))).
  - apply lsum_ext. intros l Hl. apply in_seq in Hl. f_equal. rewrite X by (auto; lia). symmetry.
    transitivity (lsum (fun j => if Nat.eqb j0 j then entry (toMatrix r0 M) l j else r0) (seq 0 (mcols M))).
    + apply lsum_ext. intros j _. destruct (Nat.eqb j0 j); ring.
    + apply (lsum_pick r0 r1 radd rmul SR Nat.eqb Nat.eqb_eq (fun j => entry (toMatrix r0 M) l j)); [apply seq_NoDup|]. apply in_seq. lia.
  - etransitivity; [symmetry; exact (MS (fun j => if Nat.eqb j0 j then r1 else r0))|]. apply lsum_ext. intros h Hh. rewrite Hw by auto.
    destruct (crq_mem m q h Hm Hh) as [R1 _]. destruct (crq_mem m q h0 Hm H0) as [R0 _]. fold b in R1, R0. unfold j0.
    destruct (Nat.eqb_spec (pos (org m h0) (b_right b)) (pos (org m h) (b_right b))) as [E|E].
    + apply pos_inj in E; auto. rewrite E, (proj2 (prod_eqb_spec _ _) eq_refl). ring.
    + destruct (prod_eqb (org m h) (org m h0)) eqn:E2; [apply prod_eqb_spec in E2; rewrite E2 in E; congruence|]. ring.
Qed.

(** *** The elements of a site *)
Notation eqe := (el_equiv (fun _ _ : R => true) qeqb).
Definition covb (n : nat) (h : hterm) : bool := (negb (emptyb (org (n - 1) h)) && negb (emptyb (olf (Datatypes.S n) h)))%bool.
Lemma covb_covers n h : 1 <= n <= N -> (covb n h = true <-> covers N h n).
Proof. intros Hn. unfold covb, covers, cover, org, olf. rewrite andb_true_iff, !negb_true_iff, !emptyb_false. tauto. Qed.
Lemma temp_in n e : 1 <= n <= N -> (In e (nth (n - 1) temp []) <-> exists h, In h T /\ covers N h n /\ e = elof qbs n h).
Proof.
  intros Hn. destruct I as [_ _ _ _ _ _ IT]. rewrite IT by lia. split.
  - intros (h & H & E). apply (in_pairs q0 qadd opq N) in H; auto. exists h. tauto.
  - intros (h & H & C & E). exists h. split; auto. apply (in_pairs q0 qadd opq N); auto.
Qed.
Lemma right_mem n h : In h T -> covers N h n -> org n h <> [] -> right_in q0 qadd qeqb opq qbs n h.
Proof. intros H C G. destruct I as [_ _ _ IR _ _ _]. apply IR; auto. apply (in_pairs q0 qadd opq N); auto. Qed.
Lemma org_crq n h : In h T -> covers N h n -> org n h <> [] -> In h (crq n (qlf (Datatypes.S n) h)).
Proof. intros H [[_ C] _] G. apply crq_in. auto. Qed.
Lemma olf_crq m h : In h T -> covers N h (Datatypes.S m) -> olf (Datatypes.S m) h <> [] -> In h (crq m (qlf (Datatypes.S m) h)).
Proof. intros H [[C _] _] G. replace (Datatypes.S m - 1)%nat with m in C by lia. apply crq_in. auto. Qed.
Lemma qlf_end n h : In h T -> org n h = [] -> qlf (Datatypes.S n) h = q0.
Proof.
  intros H E. destruct (WF h H) as [_ Ws _ _ Wz _]. unfold SvdMpoPart.qlf, olf, org in *. rewrite (split2 n _ Ws), E, app_nil_r in Wz. exact Wz.
Qed.
Lemma qlf_start n (h : hterm) : olf n h = [] -> qlf n h = q0.
Proof. intros E. unfold SvdMpoPart.qlf. now rewrite E. Qed.
Lemma key_V m q p : 1 <= m -> In p (b_right (B qbs m q)) -> size_ok q0 qeqb (Vs m) q.
Proof.
  intros Hm H. apply (size_okk q0 qeqb qeqb_spec). rewrite Vs_keys. destruct m as [|k]; [lia|]. apply key_of_right in H; auto. now replace (Datatypes.S k - 1)%nat with k in H by lia.
Qed.
Lemma lsum_pick_in {X} (eqb : X -> X -> bool) (f : X -> R) x l : (forall y, In y l -> (eqb x y = true <-> x = y)) -> NoDup l -> In x l ->
  lsum (fun y => if eqb x y then f y else r0) l = f x.
Proof.
  induction l as [|y l IH]; intros Sp Nl H; [destruct H|]. apply NoDup_cons_iff in Nl as [N1 N2]. rewrite lsum_cons. destruct (eqb x y) eqn:E.
  - apply Sp in E; [|now left]. subst y. rewrite (lsum_zero r0 r1 radd rmul SR); [ring|]. intros z Hz. destruct (eqb x z) eqn:E2; auto. apply Sp in E2; [|now right]. subst z. contradiction.
  - rewrite IH; auto; [ring|intros; apply Sp; now right|]. destruct H as [->|H]; auto. rewrite (proj2 (Sp x (or_introl eq_refl)) eq_refl) in E. discriminate.
Qed.

Lemma elof_ok m h : (Datatypes.S m <= N)%nat -> In h T -> covers N h (Datatypes.S m) ->
  elem_ok2 tiny q0 qadd qeqb opq (Vs m) (Vs (Datatypes.S m)) (elof qbs (Datatypes.S m) h).
Proof.
  intros HN H C. set (n := Datatypes.S m) in *. destruct (WF h H) as [Wne Ws Wr We Wz Wp]. unfold SvdMpoPart.elof.
  assert (M1 : olf n h <> [] -> 1 <= m). { intros X. pose proof (left_ge2 q0 qadd opq N h n (WF h H) X). unfold n in *. lia. }
  split; [|split; [|split; [|split]]]; cbn [e_coef e_rq e_cq e_ops e_row e_col].
  - split; [|split; [|split]]; cbn [e_coef e_rq e_cq e_ops e_row e_col].
    + intros j Ej. destruct (emptyb (olf n h)) eqn:L; [discriminate|]. apply emptyb_false in L. injection Ej as <-. cbn zeta. replace (n - 1)%nat with m by (unfold n; lia).
      destruct (VV_exact m (qlf n h) h (M1 L) (olf_crq m h H C L)) as (_ & D & P & _). eauto.
    + intros k Ek. destruct (emptyb (org n h)) eqn:L; [discriminate|]. apply emptyb_false in L. injection Ek as <-. cbn zeta.
      destruct (VV_exact n (qlf (Datatypes.S n) h) h ltac:(unfold n; lia) (org_crq n h H C L)) as (_ & D & P & _). eauto.
    + destruct (emptyb (olf n h)) eqn:L; [|discriminate]. intros _. apply emptyb_spec in L. now apply qlf_start.
    + destruct (emptyb (org n h)) eqn:L; [|discriminate]. intros _. apply emptyb_spec in L. now apply qlf_end.
  - destruct (emptyb (olf n h)); auto.
  - rewrite calcQN_spp by auto. unfold SvdMpoPart.qlf, olf. now rewrite (lf_S n _ Ws), (calcQN_app q0 qadd qassoc qid_l qid_r).
  - destruct (emptyb (olf n h)) eqn:L; [apply emptyb_spec in L; rewrite (qlf_start n h L); now apply (size_ok0 q0 qeqb)|]. apply emptyb_false in L.
    destruct (crq_mem m (qlf n h) h (M1 L) (olf_crq m h H C L)) as [K _]. exact (key_V m _ _ (M1 L) K).
  - destruct (emptyb (org n h)) eqn:L; [apply emptyb_spec in L; rewrite (qlf_end n h H L); now apply (size_ok0 q0 qeqb)|]. apply emptyb_false in L.
    pose proof (right_mem n h H C L) as K. exact (key_V n _ _ ltac:(unfold n; lia) K).
Qed.

(** What the sites up to m multiply to. *)
Record Chn (m : nat) (v : Q * nat -> R) : Prop := mkChn {
  c_one : v (q0, 1) = Iv m;
  c_zero : v (q0, 0) = lsum (fun h => if emptyb (org m h) then ht_coef h * Lv m (ht_ops h) else r0) T;
  c_mid : forall q c, (c < fst (VV m q))%nat -> v (q, (shift q + c)%nat) = lsum (fun h => ht_coef h * Lv m (ht_ops h) * entry (snd (VV m q)) (pos (org m h) (b_right (B qbs m q))) c) (crq m q)
}.

Lemma start_same n h h0 : 1 <= n <= N -> In h T -> In h0 T -> covers N h n -> covers N h0 n -> olf n h0 = [] -> eqe (elof qbs n h) (elof qbs n h0) = true -> h = h0.
Proof.
  intros Hn H H0 C C0 L0 E. apply (el_equiv_inv _ qeqb qeqb_spec) in E as (E1 & E2 & E3 & E4 & E5). unfold SvdMpoPart.elof in *. cbn [e_coef e_rq e_cq e_ops e_row e_col] in *.
  rewrite L0 in E1. cbn [emptyb] in E1. destruct (emptyb (olf n h)) eqn:L; [|discriminate]. apply emptyb_spec in L.
  assert (G : org n h = org n h0).
  { destruct (emptyb (org n h)) eqn:G1, (emptyb (org n h0)) eqn:G2; try discriminate.
    - apply emptyb_spec in G1, G2. congruence.
    - apply emptyb_false in G1, G2. injection E2 as E2. rewrite E4 in E2. pose proof (right_mem n h H C G1) as RI. pose proof (right_mem n h0 H0 C0 G2) as RI'. unfold right_in in *. rewrite E4 in RI. eapply pos_inj; eauto. }
  destruct (WF h H) as [Wne Ws Wr We Wz Wp], (WF h0 H0) as [Wne' Ws' Wr' We' Wz' Wp'].
  apply uniq; auto. apply (start_inj _ _ n); auto; [apply on_start; auto; apply C|apply on_start; auto; apply C0].
Qed.
Lemma eqe_refl e : eqe e e = true.
Proof. apply (el_equiv_refl (fun _ _ => true) (fun _ => eq_refl) qeqb qeqb_spec). Qed.

(** The coefficient of an element times what the sites before it contribute. *)
Lemma coefG m v h0 : (Datatypes.S m <= N)%nat -> Chn m v -> In h0 T -> covers N h0 (Datatypes.S m) ->
  e_coef (elof qbs (Datatypes.S m) h0) * gsum (Vs m) v (elof qbs (Datatypes.S m) h0) =
  lsum (fun h => if (covb (Datatypes.S m) h && eqe (elof qbs (Datatypes.S m) h) (elof qbs (Datatypes.S m) h0))%bool then ht_coef h * Lv m (ht_ops h) else r0) T.
Proof.
  intros HN [C1 C0 CM] H0 CV. set (n := Datatypes.S m) in *. destruct (WF h0 H0) as [Wne Ws Wr We Wz Wp].
  assert (Hn : 1 <= n <= N) by (unfold n in *; lia). assert (Nn : (n - 1)%nat = m) by (unfold n; lia).
  destruct (emptyb (olf n h0)) eqn:L.
  - apply emptyb_spec in L. unfold SvdMpoSweep.gsum. unfold SvdMpoPart.elof at 1 2. cbn [e_row e_coef]. rewrite L. cbn [emptyb]. rewrite C1.
    transitivity (lsum (fun h => if prod_eqb (ht_ops h0) (ht_ops h) then ht_coef h * Lv m (ht_ops h) else r0) T).
    + rewrite (lsum_pick_in (fun a b => prod_eqb (ht_ops a) (ht_ops b)) (fun h => ht_coef h * Lv m (ht_ops h)) h0 T); auto.
      * now rewrite (Lv_before m (ht_ops h0) Ws L).
      * intros y Hy. rewrite prod_eqb_spec. split; [intros E; now apply uniq|intros ->; auto].
      * exact (NoDup_map_inv ht_ops T ND).
    + apply lsum_ext. intros h Hh. destruct (prod_eqb (ht_ops h0) (ht_ops h)) eqn:E.
      * apply prod_eqb_spec in E. apply uniq in E; auto. subst h. rewrite (proj2 (covb_covers n h0 Hn) CV), eqe_refl. reflexivity.
      * destruct (covb n h && eqe (elof qbs n h) (elof qbs n h0))%bool eqn:X; auto. apply andb_true_iff in X as [X1 X2]. apply (covb_covers n h Hn) in X1.
        apply (start_same n h h0 Hn Hh H0 X1 CV L) in X2. subst h. rewrite (proj2 (prod_eqb_spec _ _) eq_refl) in E. discriminate.
  - apply emptyb_false in L. assert (M1 : 1 <= m) by (pose proof (left_ge2 q0 qadd opq N h0 n (WF h0 H0) L); unfold n in *; lia).
    pose proof (olf_crq m h0 H0 CV L) as K0. fold n in K0. set (q := qlf n h0) in *.
    assert (EE : elof qbs n h0 = El q (qlf (Datatypes.S n) h0) (Some (pos (org m h0) (b_right (B qbs m q)))) (e_col (elof qbs n h0)) r1 (spp (ht_ops h0) n)).
    { unfold SvdMpoPart.elof at 1. rewrite (proj2 (emptyb_false _) L), Nn. reflexivity. }
    assert (GG : e_coef (elof qbs n h0) * gsum (Vs m) v (elof qbs n h0) = lsum (fun h => if prod_eqb (org m h) (org m h0) then ht_coef h * Lv m (ht_ops h) else r0) (crq m q)).
    { rewrite EE. unfold SvdMpoSweep.gsum. cbn [e_coef e_row e_rq]. rewrite <- (project m q h0 v M1 K0 (CM q)). unfold VV. ring. }
    rewrite GG. unfold crq. rewrite (lsum_filter r0 r1 radd rmul SR). apply lsum_ext. intros h Hh.
    assert (EQ : (crossing m h && qeqb (qlf (Datatypes.S m) h) q && prod_eqb (org m h) (org m h0))%bool = (covb n h && eqe (elof qbs n h) (elof qbs n h0))%bool).
    { destruct (WF h Hh) as [Wne' Ws' Wr' We' Wz' Wp']. apply eq_true_iff_eq. split.
      - intros X. apply andb_true_iff in X as [X X3]. apply prod_eqb_spec in X3.
        assert (Xin : In h (crq m q)) by (unfold crq; apply filter_In; auto). pose proof Xin as Xin'. apply crq_in in Xin' as (_ & X1 & X2 & X4). fold n in X1, X4.
        destruct (crq_covers m q h M1 Xin) as (_ & _ & CV'). fold n in CV'. apply andb_true_iff. split; [now apply (covb_covers n h Hn)|].
        assert (On : on n (ht_ops h) = on n (ht_ops h0)) by (unfold n, org in *; rewrite <- (on_rg m (ht_ops h)), X3, on_rg; reflexivity).
        assert (Rn : org n h = org n h0) by (unfold n, org in *; rewrite <- (rg_rg m (ht_ops h)), X3, rg_rg; reflexivity).
        assert (Sn : spp (ht_ops h) n = spp (ht_ops h0) n) by (apply spp_right; auto).
        assert (Qn : qlf (Datatypes.S n) h = qlf (Datatypes.S n) h0).
        { unfold SvdMpoPart.qlf, olf in *. rewrite (lf_S n _ Ws), (lf_S n _ Ws'), !(calcQN_app q0 qadd qassoc qid_l qid_r), On. unfold q, SvdMpoPart.qlf, olf in X4. now rewrite X4. }
        replace (elof qbs n h) with (elof qbs n h0); [apply eqe_refl|]. unfold SvdMpoPart.elof. fold q. rewrite X4, Qn, Rn, Sn, Nn, X3, (proj2 (emptyb_false _) L), (proj2 (emptyb_false _) X1). reflexivity.
      - intros X. apply andb_true_iff in X as [X1 X2]. apply (covb_covers n h Hn) in X1. apply (el_equiv_inv _ qeqb qeqb_spec) in X2 as (E1 & E2 & E3 & E4 & E5).
        rewrite EE in E1, E3. unfold SvdMpoPart.elof in E1, E3. cbn [e_row e_rq] in E1, E3. destruct (emptyb (olf n h)) eqn:Lh; [discriminate|]. apply emptyb_false in Lh.
        pose proof (olf_crq m h Hh X1 Lh) as K. fold n in K. rewrite E3 in K. injection E1 as E1. rewrite E3, Nn in E1.
        destruct (crq_mem m q h M1 K) as [R1 _]. destruct (crq_mem m q h0 M1 K0) as [R0 _]. apply pos_inj in E1; auto.
        unfold crq in K. apply filter_In in K as [_ K]. rewrite K. cbn [andb]. apply prod_eqb_spec. exact E1. }
    rewrite <- EQ. destruct (crossing m h && qeqb (qlf (Datatypes.S m) h) q)%bool; reflexivity.
Qed.

(** The sum over the elements of a site is a sum over the terms that cover it. *)
Lemma elems_sum m v (F : elem -> R) : (Datatypes.S m <= N)%nat -> Chn m v ->
  lsum (fun e => (e_coef e * gsum (Vs m) v e) * F e) (nth m temp []) =
  lsum (fun h => if covb (Datatypes.S m) h then ht_coef h * Lv m (ht_ops h) * F (elof qbs (Datatypes.S m) h) else r0) T.
Proof.
  intros HN CH. set (n := Datatypes.S m) in *. assert (Hn : 1 <= n <= N) by (unfold n in *; lia).
  assert (TI : forall e, In e (nth m temp []) <-> exists h, In h T /\ covers N h n /\ e = elof qbs n h). { intros e. rewrite <- (temp_in n e Hn). unfold n. now replace (Datatypes.S m - 1)%nat with m by lia. }
  transitivity (lsum (fun e => lsum (fun h => if (covb n h && eqe (elof qbs n h) e)%bool then ht_coef h * Lv m (ht_ops h) * F e else r0) T) (nth m temp [])).
  - apply lsum_ext. intros e He. apply TI in He as (h0 & H0 & C0 & ->). unfold n. rewrite (coefG m v h0 HN CH H0 C0). rewrite <- (lsum_mul_r r0 r1 radd rmul SR). apply lsum_ext. intros h _. fold n. destruct (_ && _)%bool; ring.
  - rewrite (lsum_swap r0 r1 radd rmul SR). apply lsum_ext. intros h Hh. destruct (covb n h) eqn:CB; cbn [andb]; [|apply (lsum_zero r0 r1 radd rmul SR); auto].
    apply (covb_covers n h Hn) in CB. apply (lsum_pick_in eqe (fun e => ht_coef h * Lv m (ht_ops h) * F e)).
    + intros e He. apply TI in He as (h' & H' & C' & ->). split; [|intros ->; apply eqe_refl].
      apply (elof_equiv r1 (fun _ _ => true) q0 qadd qeqb qeqb_spec opq N T qbs n h h'); auto using uniq; intros; now apply right_mem.
    + destruct I as [_ _ _ _ _ IN _]. specialize (IN n ltac:(lia)). unfold n in IN. now replace (Datatypes.S m - 1)%nat with m in IN by lia.
    + apply TI. eauto.
Qed.

(** *** One site *)
Definition nextv (m : nat) (v : Q * nat -> R) (fm : list ((Q * prod) * list (list R))) (s' : Q * nat) : R :=
  fold_right radd r0 (map (fun s => v s * went (Datatypes.S m) fm s s') (states (link_of (Vs m)))).
Lemma shift0 : shift q0 = 2.
Proof. unfold SvdMpoSweep.shift. now rewrite (proj2 (qeqb_spec q0 q0) eq_refl). Qed.
Lemma site_step m v : (Datatypes.S m <= N)%nat -> Chn m v ->
  exists fm, site_piece r0 r1 radd rmul conj tiny q0 qeqb (Datatypes.S m) (link_of (Vs m)) (link_of (Vs (Datatypes.S m))) (Vs m) (Vs (Datatypes.S m)) (nth m temp []) = Ok fm /\
    olist (fun e => piece_ok q0 qadd qeqb opq (link_of (Vs m)) (link_of (Vs (Datatypes.S m))) (fst e)) fm = Ok (map (fun _ => tt) fm) /\ Chn (Datatypes.S m) (nextv m v fm).
Proof.
  intros HN CH. set (n := Datatypes.S m) in *. assert (Hn : 1 <= n <= N) by (unfold n in *; lia). assert (Nn : (n - 1)%nat = m) by (unfold n; lia).
  assert (He : forall e, In e (nth m temp []) -> elem_ok2 tiny q0 qadd qeqb opq (Vs m) (Vs n) e).
  { intros e H. rewrite <- Nn in H at 1. apply (temp_in n e Hn) in H as (h & H & C & ->). now apply elof_ok. }
  destruct (site_piece_spec r0 r1 radd rmul conj tiny SR q0 qadd qeqb qeqb_spec qid_l opq val opId n (Vs m) (Vs n) (nth m temp []) He) as (fm & E1 & E2 & W).
  exists fm. split; [exact E1|]. split; [exact E2|].
  assert (STP : forall s', nextv m v fm s' = (if (qeqb q0 (fst s') && Nat.ltb (snd s') 2)%bool then v (q0, snd s') * val n [ST "Id"%string n] else r0) +
     lsum (fun h => if covb n h then ht_coef h * Lv m (ht_ops h) * (if qeqb (qlf (Datatypes.S n) h) (fst s') then val n (spp (ht_ops h) n) * colf (Vs n) (elof qbs n h) (snd s') else r0) else r0) T).
  { intros s'. unfold nextv. fold n. rewrite (step_sum r0 r1 radd rmul conj tiny SR q0 qadd qeqb qeqb_spec opq val n (Vs m) (Vs n) (nth m temp []) v fm s' He (Vs_nodup m) W). f_equal.
    etransitivity; [|exact (elems_sum m v (fun e => if qeqb (e_cq e) (fst s') then val n (e_ops e) * colf (Vs n) e (snd s') else r0) HN CH)].
    apply lsum_ext. intros e _. destruct (qeqb (e_cq e) (fst s')); ring. }
  destruct CH as [C1 C0 CM]. constructor.
  - rewrite STP. cbn [fst snd]. rewrite (proj2 (qeqb_spec q0 q0) eq_refl). cbn [andb Nat.ltb Nat.leb]. rewrite C1. rewrite (lsum_zero r0 r1 radd rmul SR); [change (Iv n) with (Iv m * val n [ST "Id"%string n]); ring|].
    intros h Hh. destruct (covb n h); auto. destruct (qeqb (qlf (Datatypes.S n) h) q0) eqn:X; [|ring]. apply qeqb_spec in X. unfold SvdMpoSweep.colf, SvdMpoPart.elof. cbn [e_col e_cq]. rewrite X.
    destruct (emptyb (org n h)); cbn [Nat.eqb]; [ring|]. unfold part. rewrite shift0. cbn [Nat.leb andb]. ring.
  - rewrite STP. cbn [fst snd]. rewrite (proj2 (qeqb_spec q0 q0) eq_refl). cbn [andb Nat.ltb Nat.leb]. rewrite C0, <- (lsum_mul_r r0 r1 radd rmul SR), <- (lsum_add r0 r1 radd rmul SR).
    apply lsum_ext. intros h Hh. destruct (WF h Hh) as [Wne Ws Wr We Wz Wp]. unfold covb. rewrite Nn.
    pose proof (rg_S m (ht_ops h) Ws) as RS. fold n in RS. change (Lv n (ht_ops h)) with (Lv m (ht_ops h) * val n (spp (ht_ops h) n)).
    destruct (emptyb (org n h)) eqn:G.
    + apply emptyb_spec in G. rewrite (qlf_end n h Hh G), (proj2 (qeqb_spec q0 q0) eq_refl). unfold SvdMpoSweep.colf, SvdMpoPart.elof. cbn [e_col e_cq]. rewrite G. cbn [emptyb Nat.eqb].
      assert (LS : emptyb (olf (Datatypes.S n) h) = false). { apply emptyb_false. unfold olf, org in *. intros X. apply Wne. rewrite (split2 n _ Ws), X, G. reflexivity. }
      rewrite LS. cbn [negb]. rewrite andb_true_r. destruct (emptyb (org m h)) eqn:G'; cbn [negb]; [|ring]. apply emptyb_spec in G'. unfold org in *. rewrite G' in RS. symmetry in RS. apply app_eq_nil in RS as [On _].
      rewrite (spp_after (ht_ops h) n Ws We G On). ring.
    + apply emptyb_false in G. assert (G' : emptyb (org m h) = false). { apply emptyb_false. unfold org in *. intros X. apply G. rewrite X in RS. symmetry in RS. now apply app_eq_nil in RS. }
      rewrite G'. cbn [negb andb]. destruct (negb (emptyb (olf (Datatypes.S n) h))); [|ring]. destruct (qeqb (qlf (Datatypes.S n) h) q0) eqn:X; [|ring]. apply qeqb_spec in X.
      unfold SvdMpoSweep.colf, SvdMpoPart.elof. cbn [e_col e_cq]. rewrite (proj2 (emptyb_false _) G). unfold part. rewrite X, shift0. cbn [Nat.leb andb]. ring.
  - intros q c Hc. rewrite STP. cbn [fst snd].
    replace (qeqb q0 q && Nat.ltb (shift q + c) 2)%bool with false.
    2:{ destruct (qeqb q0 q) eqn:X; auto. apply qeqb_spec in X. subst q. rewrite shift0. cbn [andb]. symmetry. apply Nat.ltb_ge. lia. }
    unfold crq. rewrite (lsum_filter r0 r1 radd rmul SR). rewrite (SRadd_0_l SR). apply lsum_ext. intros h Hh. destruct (WF h Hh) as [Wne Ws Wr We Wz Wp].
    pose proof (rg_S m (ht_ops h) Ws) as RS. fold n in RS. change (Lv n (ht_ops h)) with (Lv m (ht_ops h) * val n (spp (ht_ops h) n)). unfold covb, crossing. rewrite Nn.
    destruct (emptyb (org n h)) eqn:G.
    + apply emptyb_spec in G. rewrite (qlf_end n h Hh G). cbn [negb]. rewrite andb_false_r. cbn [andb]. destruct (_ && _)%bool; auto. destruct (qeqb q0 q) eqn:X; [|ring]. apply qeqb_spec in X. subst q.
      unfold SvdMpoSweep.colf, SvdMpoPart.elof. cbn [e_col e_cq]. rewrite G. cbn [emptyb]. rewrite shift0. cbn [Nat.add Nat.eqb]. ring.
    + apply emptyb_false in G. assert (G' : emptyb (org m h) = false). { apply emptyb_false. unfold org in *. intros X. apply G. rewrite X in RS. symmetry in RS. now apply app_eq_nil in RS. }
      rewrite G'. cbn [negb andb]. rewrite andb_true_r. destruct (negb (emptyb (olf (Datatypes.S n) h))); cbn [andb]; [|ring]. destruct (qeqb (qlf (Datatypes.S n) h) q) eqn:X; [|ring]. apply qeqb_spec in X.
      unfold SvdMpoSweep.colf, SvdMpoPart.elof. cbn [e_col e_cq]. rewrite (proj2 (emptyb_false _) G). cbn zeta. rewrite X. fold (VV n q). unfold part.
      destruct (Nat.leb_spec (shift q) (shift q + c)); [|lia]. destruct (Nat.ltb_spec (shift q + c) (shift q + fst (VV n q))); [|lia]. cbn [andb]. replace (shift q + c - shift q)%nat with c by lia. ring.
Qed.

Lemma skipn_nth {X} (d : X) m l : (m < List.length l)%nat -> skipn m l = nth m l d :: skipn (Datatypes.S m) l.
Proof. revert l. induction m as [|m IH]; intros [|x l] H; cbn in *; try lia; auto. rewrite IH by lia. reflexivity. Qed.
Lemma sweep_chain k : forall m v, (m + k)%nat = N -> Chn m v ->
  exists v', sweep r0 r1 radd rmul conj tiny q0 qadd qeqb opq vof val (Datatypes.S m) (link_of (Vs m)) (Vs m) (skipn m qbs) (skipn m temp) v = Ok (link_of (Vs N), v') /\ Chn N v'.
Proof.
  destruct I as [(LQ & _) LT _ _ _ _ _]. induction k as [|k IH]; intros m v Hm CH.
  - assert (m = N) by lia. subst m. rewrite !skipn_all2 by lia. exists v. auto.
  - rewrite (skipn_nth [] m qbs), (skipn_nth [] m temp) by lia. destruct (site_step m v ltac:(lia) CH) as (fm & E1 & E2 & CH').
    destruct (IH (Datatypes.S m) (nextv m v fm) ltac:(lia) CH') as (v' & E3 & C3). exists v'. split; auto. cbn [sweep]. change (vmats r0 vof (nth m qbs [])) with (Vs (Datatypes.S m)).
    rewrite E1. cbn [obind]. rewrite E2. cbn [obind]. exact E3.
Qed.
Lemma chain_start : Chn 0 (fun s => if st_q qeqb s (q0, 1) then r1 else r0).
Proof.
  constructor.
  - unfold st_q. cbn [fst snd]. now rewrite (proj2 (qeqb_spec q0 q0) eq_refl).
  - unfold st_q. cbn [fst snd Nat.eqb]. rewrite andb_false_r. symmetry. apply (lsum_zero r0 r1 radd rmul SR). intros h Hh. destruct (WF h Hh) as [Wne Ws Wr We Wz Wp].
    destruct (emptyb (org 0 h)) eqn:E; auto. apply emptyb_spec in E. unfold org in E. apply (rg_nil 0 _ Ws Wne) in E. assert (X : In (last (ht_ops h) st_none) (ht_ops h)) by now apply last_in. specialize (Wr _ X). lia.
  - intros q c Hc. cbn in Hc. lia.
Qed.
Lemma svd_result : exists v, sweep r0 r1 radd rmul conj tiny q0 qadd qeqb opq vof val 1 (link0 q0) [] qbs temp (fun s => if st_q qeqb s (q0, 1) then r1 else r0) = Ok (link_of (Vs N), v) /\
  v (q0, 0) = lsum (fun h => ht_coef h * Lv N (ht_ops h)) T.
Proof.
  destruct (sweep_chain N 0 _ eq_refl chain_start) as (v & E & C). exists v. split; [exact E|]. rewrite (c_zero _ _ C). apply lsum_ext. intros h Hh. destruct (WF h Hh) as [Wne Ws Wr We Wz Wp].
  replace (emptyb (org N h)) with true; auto. symmetry. apply emptyb_spec. unfold org. apply (rg_nil N _ Ws Wne). apply Wr. now apply last_in.
Qed.
End Chain.

