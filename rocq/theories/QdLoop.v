(** The loop over pairs of blocks. *)
From Coq Require Import List ZArith Lia Bool Arith Permutation Sorted Ring.
From Verif Require Import Util RangeModel RangeSpec RangeProofs TensorModel TensorSpec TensorProofs SemProofs
  ContractModel DenseModel DenseProofs LabelProofs QnModel QdModel QdSpec QdProofs QdAdd QdKernel QdEntries.
Import ListNotations.
Open Scope outcome_scope.
Local Arguments Nat.sub : simpl never.

Lemma nth_lt {T} (l : list T) p x : nth_error l p = Some x -> p < length l.
Proof. intros H. apply nth_error_Some. rewrite H. discriminate. Qed.

Section Loop.
Context {R : Type} (r0 r1 : R) (radd rmul : R -> R -> R) (is0 : R -> bool).
Context (SR : semi_ring_theory r0 r1 radd rmul (@eq R)).
Context (is0_spec : forall x, is0 x = true -> x = r0).
Add Ring RRql : SR.
Context {I : Type} (ieq : I -> I -> bool) (ieq_spec : forall a b, ieq a b = true <-> a = b) (bs : I -> list nat).
Notation nblocks := (nblocks bs).
Notation ranged := (ranged bs).
Notation blockof := (blockof bs).
Notation qval := (qval r0 bs).
Notation sz := (sz bs).
Notation filled := (filled bs).
Notation stored := (stored bs).
Notation proper := (proper bs).
Notation bdim := (bdim bs).
Notation inpos := (inpos bs).

(** ** sums over lists *)
Definition lsm {T} (l : list T) (f : T -> R) : R := fold_right (fun x acc => radd (f x) acc) r0 l.
Lemma lsm_app {T} (l l' : list T) f : lsm (l ++ l') f = radd (lsm l f) (lsm l' f).
Proof.
  induction l as [|x l IH].
  - cbn [app]. change (lsm [] f) with r0. ring.
  - change (lsm ((x :: l) ++ l') f) with (radd (f x) (lsm (l ++ l') f)). change (lsm (x :: l) f) with (radd (f x) (lsm l f)). rewrite IH. ring.
Qed.
Lemma lsm_perm {T} (l l' : list T) f : Permutation l l' -> lsm l f = lsm l' f.
Proof. induction 1; unfold lsm in *; cbn [fold_right]; [reflexivity|rewrite IHPermutation; reflexivity|ring|congruence]. Qed.
Lemma lsm_ext {T} (l : list T) f g : (forall x, In x l -> f x = g x) -> lsm l f = lsm l g.
Proof. unfold lsm. induction l as [|x l IH]; intros H; cbn [fold_right]; auto. rewrite H, IH; cbn; auto. intros. apply H. cbn. auto. Qed.
Lemma lsm_map {T T'} (h : T -> T') l f : lsm (map h l) f = lsm l (fun x => f (h x)).
Proof. unfold lsm. induction l as [|x l IH]; cbn [map fold_right]; congruence. Qed.
Lemma lsm_filter {T} (p : T -> bool) l f : lsm (filter p l) f = lsm l (fun x => if p x then f x else r0).
Proof. unfold lsm. induction l as [|x l IH]; cbn [filter fold_right]; auto. destruct (p x); cbn [fold_right]; rewrite IH; ring. Qed.
Lemma lsm_flat {T T'} (h : T -> list T') l f : lsm (flat_map h l) f = lsm l (fun x => lsm (h x) f).
Proof. induction l as [|x l IH]; cbn [flat_map]; auto. rewrite lsm_app, IH. reflexivity. Qed.

Lemma getBlock_in' is (d : qd R) b o : stored is d -> In (b, o) (offs d) -> getBlock d b = Ok (Some o).
Proof.
  intros H Hin. destruct is as [|x is].
  - destruct (stored_nil bs d H) as [[E _]|(v & E & _)]; rewrite E in Hin; [contradiction|]. destruct Hin as [Hin|[]]. injection Hin as <- <-. reflexivity.
  - apply (getBlock_in bs (x :: is)); auto. discriminate.
Qed.

Definition ofs (d : qd R) (b : block) : nat := match find (beq b) (offs d) with Some e => snd e | None => 0 end.
Lemma ofs_in is (d : qd R) b : stored is d -> In b (map fst (offs d)) -> In (b, ofs d b) (offs d).
Proof.
  intros H Hb. apply in_fst in Hb as (o & Hb). unfold ofs. rewrite (find_in b o); auto. apply (stored_nodup bs is); auto.
Qed.

Section Two.
Variables (L Rr : list I).
Hypothesis PL : proper L.
Hypothesis PR : proper Rr.
Variables (A B : qd R).
Hypothesis HA : stored L A.
Hypothesis HB : stored Rr B.
Let NL : NoDup L := proj1 PL.
Let NR : NoDup Rr := proj1 PR.
Let N := only ieq L Rr ++ only ieq Rr L.
Let com := common ieq L Rr.
Notation joinb := (joinb ieq L Rr).
Notation matches := (matches ieq L Rr).
Notation cblock := (cblock ieq L Rr).
Variable co : list blof.
Variable cj : triple -> nat -> R.
Let g := glab ieq L Rr.
Definition ctx : cctx := mkC A B L Rr N (map g L) (map g Rr) (map g N) co cj.

(** what the pair of blocks a, b adds to the element s *)
Definition term (a b : block) (s : I -> nat) : R :=
  sum_over r0 radd ieq (bdim (joinb a b)) com
    (fun t => rmul (elt r0 (bdim (joinb a b)) L (seg_of bs L A a (ofs A a)) t) (elt r0 (bdim (joinb a b)) Rr (seg_of bs Rr B b (ofs B b)) t)) (inpos s).

(** a contraction that is in the list *)
Definition good (t : triple) : Prop :=
  exists a b, t = (a, b, cblock a b) /\ In a (map fst (offs A)) /\ In b (map fst (offs B)) /\ matches a b = true /\ In (cblock a b) (map fst co).
Definition tterm (s : I -> nat) (t : triple) : R := term (fst (fst t)) (snd (fst t)) s.

(** a state of the result *)
Definition okst (st : cstate (R := R)) : Prop := stored N (mkQD co (fst st)) /\ length (snd st) = length co.

Lemma step st t : good t -> okst st ->
  exists p o seg, nth_error co p = Some (snd t, o) /\ do_contract r0 r1 radd rmul is0 bs ctx st t = Ok (put_seg o seg (fst st), upd p r1 (snd st)) /\
    length seg = sz N (snd t) /\ (exists beta, snd t = map beta N /\
    forall s, ranged N s -> blockof N s = snd t ->
      elt r0 (bdim beta) N seg (inpos s) = radd (tterm s t) (rmul (nth p (snd st) r0) (qval N (mkQD co (fst st)) s))).
Proof.
  intros (a & b & -> & Ha & Hb & HM & Hc) [HS HL]. cbn [snd fst].
  pose proof (ofs_in L A a HA Ha) as HaI. pose proof (ofs_in Rr B b HB Hb) as HbI.
  destruct (stored_bound bs _ _ _ _ HA HaI) as [Va LA]. destruct (stored_bound bs _ _ _ _ HB HbI) as [Vb LB].
  pose proof (vlen bs L a Va) as La. pose proof (vlen bs Rr b Vb) as Lb.
  set (j := joinb a b).
  assert (Ea : a = map j L) by (symmetry; apply (join_L ieq ieq_spec L Rr NL); auto).
  assert (Eb : b = map j Rr) by (symmetry; apply (join_R ieq ieq_spec L Rr NR); auto).
  assert (Ec : cblock a b = map j N) by reflexivity.
  pose proof (cblock_valid ieq ieq_spec bs L Rr NL NR a b Va Vb) as Vc. fold N in Vc.
  apply in_fst in Hc as (o & Hc). set (dC := mkQD co (fst st) : qd R) in *.
  destruct (stored_bound bs _ _ _ _ HS Hc) as [_ LC]. cbn [store dC] in LC.
  destruct (offsetOf_in (map nblocks N) co (stored_valid bs N dC HS) (proj2 HS) (cblock a b) Vc o Hc) as (_ & p & Ep & Np).
  exists p, o. unfold do_contract. cbn [cA cB cLis cRis cNis cLind cRind cCind cOffs cjunk ctx].
  rewrite (getBlock_in' L A a _ HA HaI). cbn [obind]. rewrite (getBlock_in' Rr B b _ HB HbI). cbn [obind]. fold dC.
  rewrite (getBlock_in' N dC _ o HS Hc). cbn [obind]. rewrite Ep. cbn [obind].
  assert (D1 : bdims bs L a = Ok (map (bdim j) L)) by (rewrite Ea; apply bdims_beta; rewrite <- Ea; auto).
  assert (D2 : bdims bs Rr b = Ok (map (bdim j) Rr)) by (rewrite Eb; apply bdims_beta; rewrite <- Eb; auto).
  assert (D3 : bdims bs N (cblock a b) = Ok (map (bdim j) N)) by (rewrite Ec; apply bdims_beta; rewrite <- Ec; auto).
  rewrite D1, D2, D3. cbn [obind].
  assert (P1 : prod (map (bdim j) L) = sz L a) by (rewrite Ea, sz_beta; reflexivity).
  assert (P2 : prod (map (bdim j) Rr) = sz Rr b) by (rewrite Eb, sz_beta; reflexivity).
  assert (P3 : prod (map (bdim j) N) = sz N (cblock a b)) by (rewrite Ec, sz_beta; reflexivity).
  rewrite P1, P2, P3, !segment_ok by auto. cbn [obind].
  assert (Hp : p < length co) by (eapply nth_lt; exact Np).
  rewrite (oget_ok r0) by lia. cbn [obind].
  assert (Hpos : forall x, In x L \/ In x Rr -> 0 < bdim j x).
  { intros x Hx. pose proof (join_lt ieq ieq_spec bs L Rr NL NR a b x Va Vb Hx) as K. unfold QdAdd.bdim.
    assert (F : Forall (fun n => 0 < n) (bs x)) by (destruct Hx as [Hx|Hx]; [apply PL|apply PR]; auto).
    rewrite Forall_forall in F. apply F. apply nth_In. exact K. }
  assert (F1 : full (bdim j) L (seg_of bs L A a (ofs A a))) by (rewrite Ea at 1; apply seg_full; auto; rewrite <- Ea; auto).
  assert (F2 : full (bdim j) Rr (seg_of bs Rr B b (ofs B b))) by (rewrite Eb at 1; apply seg_full; auto; rewrite <- Eb; auto).
  assert (F3 : full (bdim j) N (seg_of bs N dC (cblock a b) o)) by (rewrite Ec; apply seg_full; auto).
  destruct (contract_beta_spec r0 r1 radd rmul is0 SR is0_spec ieq ieq_spec (bdim j) L _ Rr _ _ (nth p (snd st) r0) (cj (a, b, cblock a b)) NL NR Hpos F1 F2 F3)
    as (C' & E & FC & HE).
  unfold seg_of in E. cbn [store dC] in E. fold N in E, FC, HE. fold g in E. rewrite E. cbn [obind].
  unfold oupd. destruct (Nat.ltb_spec p (length (snd st))); [|lia]. cbn [obind].
  exists C'. split; [exact Np|]. split; [reflexivity|]. split; [unfold full in FC; rewrite FC, Ec, sz_beta; reflexivity|].
  exists j. split; [exact Ec|]. intros s Hs Es. rewrite HE by (apply inpos_range; auto). unfold tterm, term. cbn [fst snd]. fold j com. f_equal. f_equal.
  rewrite (qval_seg r0 bs N dC j o s HS); auto; rewrite Ec in Hc; exact Hc.
Qed.

Definition sameC (c : block) (t : triple) : bool := if list_eq_dec Nat.eq_dec (snd t) c then true else false.
Lemma sameC_iff c t : sameC c t = true <-> snd t = c.
Proof. unfold sameC. destruct (list_eq_dec Nat.eq_dec (snd t) c); split; congruence. Qed.

(** after the contractions ts *)
Definition inv (ts : list triple) (st : cstate (R := R)) : Prop :=
  okst st /\ forall p c o, nth_error co p = Some (c, o) ->
    (filter (sameC c) ts = [] -> nth p (snd st) r0 = r0) /\
    (filter (sameC c) ts <> [] -> nth p (snd st) r0 = r1 /\
       forall s, ranged N s -> blockof N s = c -> qval N (mkQD co (fst st)) s = lsm (filter (sameC c) ts) (tterm s)).

Lemma co_inj st p q c o o' : okst st -> nth_error co p = Some (c, o) -> nth_error co q = Some (c, o') -> p = q /\ o = o'.
Proof.
  intros [HS _] H1 H2. pose proof (stored_nodup bs N _ HS) as ND. cbn [offs] in ND.
  assert (p = q).
  { apply (proj1 (NoDup_nth_error _) ND).
    - rewrite map_length. eapply nth_lt. exact H1.
    - rewrite (map_nth_error fst _ _ H1), (map_nth_error fst _ _ H2). reflexivity. }
  subst q. pose proof (eq_trans (eq_sym H1) H2) as Q. injection Q as ->. auto.
Qed.

Lemma step_inv ts st t : good t -> inv ts st ->
  exists st', do_contract r0 r1 radd rmul is0 bs ctx st t = Ok st' /\ inv (t :: ts) st'.
Proof.
  intros Hg [HO HI]. destruct (step st t Hg HO) as (p & o & seg & Np & E & Ls & beta & Eb & HE).
  eexists. split; [exact E|]. destruct HO as [HS HL]. set (dC := mkQD co (fst st) : qd R) in *.
  assert (Hin : In (map beta N, o) (offs dC)) by (cbn [offs dC]; rewrite <- Eb; eapply nth_error_In; exact Np).
  destruct (qval_put r0 bs N dC beta o seg HS Hin) as (HS' & Q1 & Q2). { rewrite <- Eb. exact Ls. }
  cbn [offs store dC] in HS', Q1, Q2.
  assert (HO' : okst (put_seg o seg (fst st), upd p r1 (snd st))) by (split; cbn [fst snd]; [exact HS'|rewrite upd_length; exact HL]).
  split; [exact HO'|]. cbn [fst snd]. intros q c o' Nq.
  assert (Hp : p < length co) by (eapply nth_lt; exact Np).
  cbn [filter]. destruct (sameC c t) eqn:EC.
  - apply sameC_iff in EC. rewrite <- EC in Nq. destruct (co_inj st p q _ _ _ (conj HS HL) Np Nq) as [<- <-].
    split; [discriminate|]. intros _. split; [apply nth_upd_eq; lia|]. intros s Hs Es.
    rewrite Q1 by (auto; congruence). rewrite HE by (auto; congruence). unfold lsm. cbn [fold_right]. f_equal.
    destruct (HI p c o ltac:(congruence)) as [K1 K2]. destruct (filter (sameC c) ts) as [|t0 l0] eqn:EF.
    + rewrite K1 by auto. cbn [fold_right]. ring.
    + destruct K2 as [K3 K4]; [discriminate|]. rewrite K3, K4 by auto. unfold lsm. fold (@lsm triple). ring_simplify. reflexivity.
  - assert (NE : snd t <> c) by (intros Q; apply sameC_iff in Q; congruence).
    destruct (HI q c o' Nq) as [K1 K2]. assert (p <> q) by (intros <-; apply NE; pose proof (eq_trans (eq_sym Np) Nq) as Q; injection Q as Q _; exact Q).
    rewrite nth_upd_neq by auto. split; auto. intros H'. destruct (K2 H') as [K3 K4]. split; auto. intros s Hs Es.
    rewrite Q2; auto. rewrite Es, <- Eb. auto.
Qed.

Lemma inv_perm ts ts' st : Permutation ts ts' -> inv ts st -> inv ts' st.
Proof.
  intros HP [HO HI]. split; auto. intros p c o Np. destruct (HI p c o Np) as [K1 K2].
  assert (PF : Permutation (filter (sameC c) ts) (filter (sameC c) ts')).
  { clear -HP. induction HP; cbn [filter]; auto.
    - destruct (sameC c x); auto.
    - destruct (sameC c x), (sameC c y); auto. apply perm_swap.
    - etransitivity; eauto. }
  split.
  - intros E. apply K1. rewrite E in PF. apply Permutation_sym, Permutation_nil in PF. exact PF.
  - intros E. destruct K2 as [K3 K4]. { intros Q. apply E. rewrite Q in PF. now apply Permutation_nil in PF. }
    split; auto. intros s Hs Es. rewrite K4 by auto. now apply lsm_perm.
Qed.

Lemma loop_inv : forall ts done st, Forall good ts -> inv done st ->
  exists st', loop_serial r0 r1 radd rmul is0 bs ctx ts st = Ok st' /\ inv (ts ++ done) st'.
Proof.
  induction ts as [|t ts IH]; intros done st HG HI; cbn [loop_serial].
  - exists st. auto.
  - inversion HG as [|? ? Ht HG']; subst. destruct (step_inv done st t Ht HI) as (st' & E & HI'). rewrite E. cbn [obind].
    destruct (IH (t :: done) st' HG' HI') as (st2 & E2 & HI2). exists st2. split; [exact E2|].
    eapply inv_perm; [|exact HI2]. cbn [app]. symmetry. apply Permutation_middle.
Qed.

Lemma inv_start st : okst st -> (forall p, nth p (snd st) r0 = r0) -> inv [] st.
Proof. intros HO HZ. split; auto. intros p c o Np. cbn [filter]. split; auto. congruence. Qed.

(** every interleaving *)
Lemma par_inv tasks st o : par r0 r1 radd rmul is0 bs ctx tasks st o -> forall done, Forall good (concat tasks) -> inv done st ->
  exists st', o = Ok st' /\ inv (concat tasks ++ done) st'.
Proof.
  induction 1 as [ts st HF|pre t ts post st st' o Hd _ IH|pre t ts post st Hd|pre t ts post st Hd]; intros done HG HI.
  - exists st. split; auto. assert (E : concat ts = []). { clear -HF. induction HF as [|x l Hx HF IH]; cbn; auto. rewrite Hx. exact IH. }
    rewrite E. exact HI.
  - rewrite concat_app in HG. cbn [concat app] in HG. apply Forall_app in HG as [G1 G2]. inversion G2 as [|? ? Gt G3]; subst.
    destruct (step_inv done st t Gt HI) as (st2 & E2 & HI2). rewrite Hd in E2. injection E2 as <-.
    destruct (IH (t :: done)) as (st3 & E3 & HI3).
    { rewrite concat_app. cbn [concat]. apply Forall_app. split; auto. } { exact HI2. }
    exists st3. split; [exact E3|]. eapply inv_perm; [|exact HI3]. rewrite !concat_app. cbn [concat app]. rewrite <- !app_assoc.
    apply Permutation_app_head. cbn [app].
    transitivity (t :: ((ts ++ concat post) ++ done)); [rewrite app_assoc; symmetry; apply Permutation_middle|cbn [app]; rewrite <- app_assoc; reflexivity].
  - exfalso. rewrite concat_app in HG. cbn [concat app] in HG. apply Forall_app in HG as [_ G2]. inversion G2 as [|? ? Gt G3]; subst.
    destruct (step_inv done st t Gt HI) as (st2 & E2 & _). congruence.
  - exfalso. rewrite concat_app in HG. cbn [concat app] in HG. apply Forall_app in HG as [_ G2]. inversion G2 as [|? ? Gt G3]; subst.
    destruct (step_inv done st t Gt HI) as (st2 & E2 & _). congruence.
Qed.

(** the tensor after all contractions *)
Lemma inv_value ts st : inv ts st -> Forall good ts -> (forall c, In c (map fst co) -> In c (map snd ts)) ->
  stored N (mkQD co (fst st)) /\ forall s, ranged N s -> qval N (mkQD co (fst st)) s = lsm (filter (sameC (blockof N s)) ts) (tterm s).
Proof.
  intros [[HS HL] HI] HG HC. split; [exact HS|]. intros s Hs. destruct (block_dec (blockof N s) co) as [Hb|Hb].
  - apply in_fst in Hb as (o & Hb). destruct (In_nth_error _ _ Hb) as (p & Np). apply (HI p _ o Np); auto.
    assert (In (blockof N s) (map snd ts)) as K by (apply HC; apply (in_map fst) in Hb; exact Hb).
    apply in_map_iff in K as (t & Et & Ht). intros Q.
    assert (In t (filter (sameC (blockof N s)) ts)) by (apply filter_In; split; auto; now apply sameC_iff). rewrite Q in H. contradiction.
  - rewrite qval_notin by exact Hb. assert (E : filter (sameC (blockof N s)) ts = []); [|rewrite E; reflexivity].
    destruct (filter (sameC (blockof N s)) ts) as [|t l] eqn:E; auto. exfalso. apply Hb.
    assert (Ht : In t (filter (sameC (blockof N s)) ts)) by (rewrite E; left; auto). apply filter_In in Ht as [Ht K]. apply sameC_iff in K. rewrite <- K.
    rewrite Forall_forall in HG. destruct (HG t Ht) as (a & b & -> & _ & _ & _ & K2). exact K2.
Qed.
End Two.
End Loop.
