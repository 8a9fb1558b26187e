(** C09: swapPrime and swapTags.  Vocabulary: IndexSpec.v, TagSetSpec.v. *)
From Coq Require Import List ZArith Bool Lia Arith.
From Coq Require Import Init.Byte.
From Verif Require Import Util SmallStringModel SmallStringProofs TagSetModel TagSetSpec TagSetProofs TagSetProps
  QnModel IndexModel IndexSpec IndexProofs IndexProps.
Import ListNotations.

(** Exchange of two levels. *)
Definition exchange (p1 p2 l : Z) : Z := if (l =? p1)%Z then p2 else if (l =? p2)%Z then p1 else l.

(** The index sets the property is about: nobody uses the private level 431543 ... *)
Definition avoids_level (is : list index) : Prop := forall J, In J is -> ix_level J <> 431543%Z.
(** ... or the private tag "df4sd32". *)
Definition private_tag : Tag := ss_make [x64; x66; x34; x73; x64; x33; x32].
Definition avoids_tag (is : list index) : Prop := forall J, In J is -> ~ tag_in (ix_tags J) private_tag.

Definition setlev (p : Z) (J : index) : index := with_tags J (ts_setPrime (ix_tags J) p).
Definition maplev (s : selector) (a b : Z) (J : index) : index :=
  if selb s J && (ix_level J =? a)%Z then setlev b J else J.

Lemma sel_nodup s : valid_selector s -> match s with SInds sel => NoDup (map key sel) | _ => True end.
Proof. destruct s; auto. intros [V D]. now apply distinct_keys. Qed.

Lemma mapPrime_release s a b is : NoDup (map key is) -> valid_selector s ->
  is_op false (IMapPrime a b) s is = Ok (map (maplev s a b) is).
Proof.
  intros ND VS. pose proof (is_op_release (IMapPrime a b) s is ND (sel_nodup s VS)) as H.
  assert (E : each_where (ix_op false (IMapPrime a b)) (selb s) is = Ok (map (maplev s a b) is)).
  { unfold each_where. apply each_Forall2. clear. induction is as [|J is IH]; simpl; constructor; auto.
    unfold maplev. destruct (selb s J); auto. simpl. destruct (ix_level J =? a)%Z; auto. }
  destruct (is_op false (IMapPrime a b) s is) as [is'| |]; [congruence| |];
  destruct H as (J & _ & _ & [H|H]); simpl in H; destruct (ix_level J =? a)%Z; discriminate.
Qed.

Lemma setlev_key p J : key (setlev p J) = (ix_id J, p, snd (key J)).
Proof. reflexivity. Qed.

Lemma maplev_keys s a b is : NoDup (map key is) -> (forall J, In J is -> ix_level J <> b) ->
  NoDup (map key (map (maplev s a b) is)).
Proof.
  intros ND HL. induction is as [|J is IH]; simpl; [constructor|]. simpl in ND. inversion ND as [|? ? H1 H2]; subst.
  constructor; [|apply IH; auto; intros K HK; apply HL; simpl; auto].
  intros H. rewrite map_map in H. apply in_map_iff in H as (K & E & HK). apply H1. apply in_map_iff. exists K. split; auto.
  unfold maplev in E. destruct (selb s K && (ix_level K =? a)%Z) eqn:E1, (selb s J && (ix_level J =? a)%Z) eqn:E2.
  - rewrite !setlev_key in E. apply andb_prop in E1 as [_ E1], E2 as [_ E2]. apply Z.eqb_eq in E1, E2.
    injection E as X Y. unfold key. congruence.
  - rewrite setlev_key in E. exfalso. apply (HL J); [simpl; auto|]. unfold key in E. injection E as X Y Z. auto.
  - rewrite setlev_key in E. exfalso. apply (HL K); [simpl; auto|]. unfold key in E. injection E as X Y Z. auto.
  - auto.
Qed.

Definition swaplev (s : selector) (p1 p2 : Z) (J : index) : index :=
  if selb s J then if (ix_level J =? p1)%Z then setlev p2 J else if (ix_level J =? p2)%Z then setlev p1 J else J else J.

Lemma swapPrime_release s p1 p2 is : NoDup (map key is) -> valid_selector s ->
  avoids_level is -> p1 <> 431543%Z -> p2 <> 431543%Z ->
  swapPrime false p1 p2 s is = Ok (map (swaplev s p1 p2) is).
Proof.
  intros ND VS HA H1 H2. unfold swapPrime. cbn [andb].
  assert (ND1 : NoDup (map key (map (maplev s p1 temp_level) is))) by now apply maplev_keys.
  rewrite mapPrime_release by auto. cbn [obind].
  rewrite mapPrime_release by auto. cbn [obind]. unfold is_op. cbn [checked andb].
  assert (E : forall l, each (ix_op false (IMapPrime temp_level p2)) l = Ok (map (maplev SAll temp_level p2) l)).
  { intros l. apply each_Forall2. induction l; simpl; constructor; auto. unfold maplev. simpl.
    destruct (_ =? _)%Z; auto. }
  rewrite E. cbn [obind]. unfold checked. cbn [andb]. f_equal. rewrite !map_map. apply map_ext_in. intros J HJ. specialize (HA J HJ).
  unfold maplev at 3. unfold swaplev. destruct (selb s J) eqn:ES; cbn [andb].
  - destruct (Z.eqb_spec (ix_level J) p1).
    + assert (Q : maplev s p2 p1 (setlev temp_level J) = setlev temp_level J).
      { unfold maplev. change (ix_level (setlev temp_level J)) with temp_level.
        rewrite (proj2 (Z.eqb_neq temp_level p2)) by (unfold temp_level; auto). now rewrite andb_false_r. }
      rewrite Q. unfold maplev. cbn [selb andb]. change (ix_level (setlev temp_level J)) with temp_level. rewrite Z.eqb_refl. reflexivity.
    + unfold maplev at 2. rewrite ES. cbn [andb]. destruct (Z.eqb_spec (ix_level J) p2).
      * unfold maplev. cbn [selb andb]. change (ix_level (setlev p1 J)) with p1.
        rewrite (proj2 (Z.eqb_neq p1 temp_level)) by (unfold temp_level; auto). reflexivity.
      * unfold maplev. cbn [selb andb]. rewrite (proj2 (Z.eqb_neq (ix_level J) temp_level)) by (unfold temp_level; auto). reflexivity.
  - unfold maplev at 2. rewrite ES. cbn [andb]. unfold maplev. cbn [selb andb].
    rewrite (proj2 (Z.eqb_neq (ix_level J) temp_level)) by (unfold temp_level; auto). reflexivity.
Qed.

Lemma swaplev_level s p1 p2 J : selb s J = true -> ix_level (swaplev s p1 p2 J) = exchange p1 p2 (ix_level J).
Proof.
  intros H. unfold swaplev, exchange. rewrite H. destruct (_ =? p1)%Z; [reflexivity|]. destruct (_ =? p2)%Z; reflexivity.
Qed.

(** swapPrime exchanges the two levels on the selected indices and changes nothing else. *)
Theorem C09_swapPrime : forall p1 p2 s is,
  Forall valid is -> distinct is -> valid_selector s -> avoids_level is -> p1 <> 431543%Z -> p2 <> 431543%Z ->
  exists is', swapPrime false p1 p2 s is = Ok is' /\
    Forall2 (fun J J' => same_object J J' /\ ts_list (ix_tags J') = ts_list (ix_tags J) /\
       (selected s J -> ix_level J' = exchange p1 p2 (ix_level J)) /\
       (~ selected s J -> J' = J)) is is'.
Proof.
  intros p1 p2 s is V D VS HA H1 H2. eexists. split.
  - apply swapPrime_release; auto. now apply distinct_keys.
  - clear D HA. induction is as [|J is IH]; simpl; constructor; inversion V; subst; auto.
    pose proof (selb_selected s J H3 VS) as S. split; [|split; [|split]].
    + unfold swaplev. destruct (selb s J); [|repeat split]. destruct (_ =? p1)%Z; [repeat split|]. destruct (_ =? p2)%Z; repeat split.
    + unfold swaplev. destruct (selb s J); auto. destruct (_ =? p1)%Z; [reflexivity|]. destruct (_ =? p2)%Z; reflexivity.
    + intros HS. apply swaplev_level. now apply S.
    + intros HS. unfold swaplev. destruct (selb s J); auto. exfalso. apply HS. now apply S.
Qed.

(** Whatever a DEBUG build returns is what a release build returns, it has no repeated index, and the
    private level was checked not to be in use. *)
Theorem C09_swapPrime_debug : forall p1 p2 s is is',
  swapPrime true p1 p2 s is = Ok is' ->
  swapPrime false p1 p2 s is = Ok is' /\ (Forall valid is' -> distinct is') /\ avoids_level is.
Proof.
  intros p1 p2 s is is' H. unfold swapPrime in *. cbn [andb] in H |- *.
  destruct (existsb _ is) eqn:EX; [discriminate|].
  destruct (is_op true (IMapPrime p1 temp_level) s is) as [is1| |] eqn:E1; try discriminate. cbn [obind] in H.
  destruct (is_op true (IMapPrime p2 p1) s is1) as [is2| |] eqn:E2; try discriminate. cbn [obind] in H.
  apply is_op_debug in E1 as (_ & _ & E1). apply is_op_debug in E2 as (_ & _ & E2). apply is_op_debug in H as (ND & _ & H).
  rewrite E1. cbn [obind]. rewrite E2. cbn [obind]. split; auto. split; [intros V; now apply distinct_keys|].
  intros J HJ E. assert (existsb (fun J => (ix_level J =? temp_level)%Z) is = true); [|congruence].
  apply existsb_exists. exists J. split; auto. apply Z.eqb_eq. exact E.
Qed.

(** Doing it twice restores the index set. *)
Theorem C09_swapPrime_twice : forall p1 p2 is is',
  Forall valid is -> distinct is -> avoids_level is -> p1 <> 431543%Z -> p2 <> 431543%Z ->
  swapPrime false p1 p2 SAll is = Ok is' -> swapPrime false p1 p2 SAll is' = Ok is.
Proof.
  intros p1 p2 is is' V D HA H1 H2 H. apply distinct_keys in D; auto.
  rewrite swapPrime_release in H by (auto; exact Logic.I). injection H as <-.
  assert (EX : forall l, exchange p1 p2 (exchange p1 p2 l) = l).
  { intros l. unfold exchange. destruct (Z.eqb_spec l p1), (Z.eqb_spec l p2); subst;
      repeat match goal with |- context [(?a =? ?b)%Z] => destruct (Z.eqb_spec a b); subst end; try congruence; auto. }
  assert (KK : forall J, key (swaplev SAll p1 p2 J) = (ix_id J, exchange p1 p2 (ix_level J), snd (key J))).
  { intros J. unfold swaplev, exchange. cbn [selb]. destruct (_ =? p1)%Z; [reflexivity|]. destruct (_ =? p2)%Z; reflexivity. }
  rewrite swapPrime_release; auto; try exact Logic.I.
  - f_equal. rewrite map_map. rewrite <- (map_id is) at 2. apply map_ext. intros J.
    unfold swaplev at 1. cbn [selb]. rewrite swaplev_level by reflexivity. unfold swaplev, exchange. cbn [selb].
    destruct J as [i d r q [tg lv sz]]. unfold ix_level, setlev, with_tags, ts_setPrime. cbn [ix_tags ts_plev ix_id ix_dim ix_dir ix_qns ts_tags ts_size].
    destruct (Z.eqb_spec lv p1), (Z.eqb_spec lv p2); subst; cbn [ix_tags ts_plev ix_id ix_dim ix_dir ix_qns ts_tags ts_size];
      repeat match goal with |- context [(?a =? ?b)%Z] => destruct (Z.eqb_spec a b); subst end; try congruence; auto.
  - clear HA V. induction is as [|J is IH]; simpl; [constructor|]. simpl in D. inversion D as [|? ? D1 D2]; subst.
    constructor; auto. intros H. rewrite map_map in H. apply in_map_iff in H as (K & E & HK). rewrite !KK in E.
    apply D1. apply in_map_iff. exists K. split; auto. injection E as X Y Z. apply (f_equal (exchange p1 p2)) in Y.
    rewrite !EX in Y. unfold key. congruence.
  - intros J' HJ'. apply in_map_iff in HJ' as (J & <- & HJ). rewrite swaplev_level by reflexivity.
    specialize (HA J HJ). unfold exchange. destruct (_ =? p1)%Z; auto. destruct (_ =? p2)%Z; auto.
Qed.

(** Finding: an index that does use level 431543 is changed by a release build. *)
Theorem C09_private_level_refuted :
  exists is is', swapPrime false 0 1 (SInds [iA]) is = Ok is' /\ map ix_level is = [0; 1; 431543]%Z /\
    map ix_level is' = [1; 1; 1]%Z.
Proof. exists [iA; iA'; setlev 431543 iB]. eexists. split; [vm_compute; reflexivity|]. split; reflexivity. Qed.

(** ** swapTags *)

(** J' is J with the tags t1 replaced by t2, and the level of t1 (if it has one) by that of t2. *)
Definition replaced (t1 t2 : TagSet) (J J' : index) : Prop :=
  same_object J J' /\
  (forall t, tag_in (ix_tags J') t <-> (tag_in (ix_tags J) t /\ ~ tag_in t1 t) \/ tag_in t2 t) /\
  ix_level J' = (if (0 <=? ts_plev t1)%Z then ts_plev t2 else ix_level J).
Definition unchanged (J J' : index) : Prop := same_object J J' /\ same J J'.
Definition carries (J : index) (ts : TagSet) : Prop := a_incl (abs ts) (abs (ix_tags J)).

Lemma carries_dec J ts : valid J -> api_tagset ts -> carries J ts \/ ~ carries J ts.
Proof.
  intros VJ VT. unfold carries. rewrite <- ts_hasTags_iff by (now apply api_WF).
  destruct (ts_hasTags (ix_tags J) ts); auto.
Qed.

Lemma effect_replace t1 t2 J J' : effect (IReplaceTags t1 t2) J J' ->
  valid J' /\ (carries J t1 -> replaced t1 t2 J J') /\ (~ carries J t1 -> unchanged J J').
Proof.
  intros (SO & VJ' & a' & HS & HE). split; auto. simpl in HS.
  inversion HS; subst; split; intros HC; try contradiction.
  - split; auto. destruct HE as [HL HM]. simpl in HL, HM. split.
    + intros t. rewrite HM. destruct (0 <=? ts_plev t1)%Z; simpl; tauto.
    + unfold ix_level. rewrite HL. destruct (0 <=? ts_plev t1)%Z; reflexivity.
  - split; auto. destruct HE as [HL HM]. simpl in HL, HM. destruct SO as (X & _). split; auto. split; [symmetry; auto|].
    intros t. symmetry. apply HM.
Qed.

Lemma temp_api b : api_tagset (temp_ts b).
Proof.
  assert (E : addTag ts_new temp_tag = Ok (temp_ts false)) by (vm_compute; reflexivity).
  assert (A : api_tagset (temp_ts false)) by (eapply api_op with (o := OAddTag temp_tag); [constructor|constructor|exact E]).
  destruct b; auto. eapply api_op with (o := OSetPrime temp_level); [exact A|constructor|reflexivity].
Qed.
Lemma temp_in b t : tag_in (temp_ts b) t <-> t = private_tag.
Proof.
  split.
  - intros (i & Hi & <-). change (ts_size (temp_ts b)) with 1 in Hi. assert (i = 0) by lia. subst. reflexivity.
  - intros ->. exists 0. split; [change (ts_size (temp_ts b)) with 1; lia|reflexivity].
Qed.

Lemma Forall2_combine {A} (P Q R : A -> A -> Prop) l1 l2 l3 : (forall a b c, In a l1 -> P a b -> Q b c -> R a c) ->
  Forall2 P l1 l2 -> Forall2 Q l2 l3 -> Forall2 R l1 l3.
Proof.
  intros H HP. revert l3. induction HP; intros l3 HQ; inversion HQ; subst; constructor.
  - eapply H; eauto. simpl; auto.
  - apply IHHP; auto. intros a b c Ha. apply H. simpl; auto.
Qed.
Lemma Forall2_right {A} (P : A -> A -> Prop) (Q : A -> Prop) l1 l2 : Forall2 P l1 l2 -> (forall a b, In a l1 -> P a b -> Q b) -> Forall Q l2.
Proof.
  intros F. induction F; intros H1; constructor.
  - apply (H1 x); simpl; auto.
  - apply IHF. intros a b Ha. apply H1. simpl; auto.
Qed.

(** distinct is preserved by a change that keeps different indices different. *)
Lemma distinct_map (P : index -> index -> Prop) is is' : distinct is -> Forall2 P is is' ->
  (forall a b a' b', In a is -> In b is -> P a a' -> P b b' -> same a' b' -> same a b) -> distinct is'.
Proof.
  intros D F H m n a' b' Ha Hb Hne HS.
  assert (G : forall m x', nth_error is' m = Some x' -> exists x, nth_error is m = Some x /\ P x x').
  { clear - F. induction F; intros [|m] x' Hx; simpl in Hx; try discriminate.
    - injection Hx as <-. exists x. auto.
    - apply IHF in Hx as (z & ? & ?). exists z. auto. }
  destruct (G _ _ Ha) as (a & Ea & Pa). destruct (G _ _ Hb) as (b & Eb & Pb).
  apply (D m n a b Ea Eb Hne). eapply H; eauto using nth_error_In.
Qed.

Lemma C08_step t1 t2 s is is' dbg : Forall valid is -> distinct is -> valid_selector s -> api_tagset t1 -> api_tagset t2 ->
  is_op dbg (IReplaceTags t1 t2) s is = Ok is' ->
  Forall2 (fun J J' => valid J' /\ (selected s J -> carries J t1 -> replaced t1 t2 J J') /\
                       (selected s J -> ~ carries J t1 -> unchanged J J') /\ (~ selected s J -> J' = J)) is is'.
Proof.
  intros V D VS V1 V2 H. pose proof (C08_selected_only dbg (IReplaceTags t1 t2) s is is' V D VS (conj V1 V2) H) as F.
  assert (VI : forall J, In J is -> valid J) by (now apply Forall_forall).
  assert (G : forall J, In J is -> selected s J \/ ~ selected s J).
  { intros J HJ. pose proof (selb_selected s J (VI J HJ) VS). destruct (selb s J); intuition congruence. }
  clear - F G VI. induction F as [|J J' l l' H F IH]; constructor.
  - assert (VJ : valid J) by (apply VI; simpl; auto). destruct H as [H1 H2]. destruct (G J (or_introl eq_refl)) as [S|S].
    + destruct (effect_replace _ _ _ _ (H1 S)) as (A & B & C). split; [exact A|]. split; [intros _; exact B|]. split; [intros _; exact C|]. intros X. contradiction.
    + rewrite (H2 S). split; auto. split; [|split]; try (intros X; contradiction). auto.
  - apply IH; intros; [apply VI|apply G]; simpl; auto.
Qed.

Lemma all_effect o is is' dbg : Forall valid is -> valid_iop o -> is_op dbg o SAll is = Ok is' -> Forall2 (effect o) is is'.
Proof.
  intros V VO H. unfold is_op, checked in H. destruct (each (ix_op dbg o) is) as [r| |] eqn:E; try discriminate. cbn [obind] in H.
  assert (r = is') by (destruct (dbg && has_dup r); congruence). subst r.
  pose proof (each_spec (ix_op dbg o) is) as F. rewrite E in F. clear - V VO F. induction F; constructor; inversion V; subst; auto.
  eapply ix_op_effect; eauto.
Qed.
Lemma tag_in_dec ts t : api_tagset ts -> tag_in ts t \/ ~ tag_in ts t.
Proof.
  intros A. destruct (api_WF _ A) as (l & r & W). rewrite (wf_mem _ _ _ t W). destruct (in_dec ss_dec t l); auto.
Qed.
Lemma carries_same J K ts : same J K -> (carries J ts <-> carries K ts).
Proof.
  intros (_ & L & M). unfold ix_level in L. unfold carries, a_incl. simpl. rewrite L.
  split; intros [P Q]; split; auto; intros t Ht; apply M; auto.
Qed.
Lemma same_sym x y : same x y -> same y x.
Proof. intros (X & Y & Z). split; auto. split; auto. intros t; symmetry; apply Z. Qed.
Lemma same_trans x y z : same x y -> same y z -> same x z.
Proof. intros (X & Y & Z) (X' & Y' & Z'). split; [congruence|]. split; [congruence|]. intros t. rewrite Z. apply Z'. Qed.
Lemma selected_same s J K : same J K -> (selected s J <-> selected s K).
Proof.
  intros H. destruct s as [|sel|ts]; simpl; [tauto| |apply carries_same; auto].
  unfold has. split; intros (x & Hx & S); exists x; split; auto; eapply same_trans; eauto using same_sym.
Qed.
Lemma so_trans x y z : same_object x y -> same_object y z -> same_object x z.
Proof. intros (A & B & C & E) (A' & B' & C' & E'). repeat split; congruence. Qed.
Lemma unchanged_trans x y z : unchanged x y -> unchanged y z -> unchanged x z.
Proof. intros [A B] [C E]. split; [eapply so_trans|eapply same_trans]; eauto. Qed.
Lemma unchanged_refl x : unchanged x x.
Proof. repeat split; auto. Qed.
Lemma replaced_pre t1 t2 x y z : unchanged x y -> replaced t1 t2 y z -> replaced t1 t2 x z.
Proof.
  intros [O (I & L & M)] (O' & M' & L'). split; [eapply so_trans; eauto|]. split.
  - intros t. rewrite M', M. tauto.
  - rewrite L', L. reflexivity.
Qed.
Lemma replaced_post t1 t2 x y z : replaced t1 t2 x y -> unchanged y z -> replaced t1 t2 x z.
Proof.
  intros (O' & M' & L') [O (I & L & M)]. split; [eapply so_trans; eauto|]. split.
  - intros t. rewrite <- M, M'. tauto.
  - rewrite <- L, L'. reflexivity.
Qed.

Section SwapTags.
Variables (dbg : bool) (t1 t2 : TagSet) (s : selector) (is : list index).
Hypothesis V : Forall valid is.
Hypothesis D : distinct is.
Hypothesis VS : valid_selector s.
Hypothesis A1 : api_tagset t1.
Hypothesis A2 : api_tagset t2.
Hypothesis NT : avoids_tag is.
Hypothesis N1 : ~ tag_in t1 private_tag.
Hypothesis N2 : ~ tag_in t2 private_tag.
Hypothesis L2 : ts_plev t2 <> 431543%Z.
Hypothesis NB : forall J, In J is -> selected s J -> ~ (carries J t1 /\ carries J t2).

Section Tmp.
Variable b : bool.
Hypothesis B1 : b = true <-> (0 <= ts_plev t1)%Z.
Hypothesis B2 : b = true <-> (0 <= ts_plev t2)%Z.
Let tmp := temp_ts b.
Lemma swap_AT : api_tagset tmp.
Proof. apply temp_api. Qed.
Lemma swap_TI : forall t, tag_in tmp t <-> t = private_tag.
Proof. intros; apply temp_in. Qed.
Lemma swap_TL : ts_plev tmp = (if b then 431543 else -1)%Z.
Proof. reflexivity. Qed.
Lemma swap_VI : forall J, In J is -> valid J.
Proof. now apply Forall_forall. Qed.
Lemma swap_SD : forall J, In J is -> selected s J \/ ~ selected s J.
Proof. intros J HJ. pose proof (selb_selected s J (swap_VI J HJ) VS). destruct (selb s J); intuition congruence. Qed.

(** The indices after the first and the second step. *)
Definition swap_R1 (J J1 : index) := valid J1 /\
     ((selected s J /\ carries J t1 /\ replaced t1 tmp J J1) \/ ((~ selected s J \/ ~ carries J t1) /\ unchanged J J1)).
Definition swap_R2 (J J2 : index) := valid J2 /\
     ((selected s J /\ carries J t1 /\ replaced t1 tmp J J2) \/
      (selected s J /\ carries J t2 /\ replaced t2 t1 J J2) \/
      ((~ selected s J \/ (~ carries J t1 /\ ~ carries J t2)) /\ unchanged J J2)).

Lemma swap_step1 is1 : is_op dbg (IReplaceTags t1 tmp) s is = Ok is1 ->
  Forall2 swap_R1 is is1 /\ Forall valid is1 /\ distinct is1.
Proof.
  intros E1. pose proof swap_AT as AT. pose proof swap_TI as TI. pose proof swap_TL as TL. pose proof swap_VI as VI. pose proof swap_SD as SD.
  pose proof (C08_step _ _ _ _ _ _ V D VS A1 AT E1) as F1.
  assert (G1 : Forall2 swap_R1 is is1).
  { clear - F1 VI SD A1. induction F1 as [|J J1 l l1 H F IH]; constructor.
    - destruct H as (VJ & P & Q & U). split; auto. destruct (SD J (or_introl eq_refl)) as [S|S].
      + destruct (carries_dec J t1 (VI J (or_introl eq_refl)) A1) as [C|C]; [left; auto|right; auto].
      + right. split; auto. rewrite (U S). repeat split; auto.
    - apply IH; intros; [apply VI|apply SD]; simpl; auto. }
  assert (V1 : Forall valid is1) by (eapply Forall2_right; [exact G1|intros a c _ X; apply X]).
  assert (D1 : distinct is1).
  { eapply distinct_map; [exact D|exact G1|]. intros x y x' y' Hx Hy (Vx & Px) (Vy & Py) HS.
    destruct Px as [(Sx & Cx & (Ox & Mx & Lx))|(_ & Ux)], Py as [(Sy & Cy & (Oy & My & Ly))|(_ & Uy)].
    - destruct HS as (HI & HL & HM). destruct Ox as (Ix & _), Oy as (Iy & _). split; [congruence|]. split.
      + destruct (Z.leb_spec 0 (ts_plev t1)); [|congruence]. unfold ix_level.
        destruct Cx as [_ Cx], Cy as [_ Cy]. simpl in Cx, Cy. rewrite Cx, Cy; auto.
      + intros t. specialize (HM t). rewrite Mx, My in HM. destruct (tag_in_dec t1 t A1) as [T|T].
        * destruct Cx as [Cx _], Cy as [Cy _]. simpl in Cx, Cy. split; intros _; auto.
        * rewrite TI in HM. split; intros Q; assert (t <> private_tag) by (intros ->; first [exact (NT x Hx Q)|exact (NT y Hy Q)]); tauto.
    - exfalso. destruct HS as (_ & _ & HM). destruct Uy as (_ & (_ & _ & UM)). specialize (HM private_tag). rewrite Mx, <- UM in HM.
      apply (NT y Hy). apply HM. right. now apply TI.
    - exfalso. destruct HS as (_ & _ & HM). destruct Ux as (_ & (_ & _ & UM)). specialize (HM private_tag). rewrite My, <- UM in HM.
      apply (NT x Hx). apply HM. right. now apply TI.
    - eapply same_trans; [apply Ux|]. eapply same_trans; [exact HS|]. apply same_sym, Uy. }
  auto.
Qed.

Lemma swap_not_t2 J J1 : In J is -> selected s J -> replaced t1 tmp J J1 -> carries J t1 -> ~ carries J1 t2.
Proof.
  intros HJ S R C. destruct R as (_ & RM & RL). intros [C1 C2]. simpl in C1, C2. apply (NB J HJ S). split; auto.
  pose proof swap_TI as TI. subst tmp. destruct b.
  - exfalso. pose proof (proj1 B1 eq_refl) as Q1. pose proof (proj1 B2 eq_refl) as Q2.
    rewrite (proj2 (Z.leb_le 0 (ts_plev t1)) Q1) in RL. unfold ix_level in RL. rewrite C2 in RL by auto. apply L2. rewrite RL. reflexivity.
  - split; simpl.
    + intros t Ht. specialize (C1 t Ht). apply RM in C1 as [[X _]|X]; auto. apply TI in X. subst. contradiction.
    + intros X. apply B2 in X. discriminate.
Qed.

Lemma swap_step2 is1 is2 : Forall2 swap_R1 is is1 -> Forall valid is1 -> distinct is1 ->
  is_op dbg (IReplaceTags t2 t1) s is1 = Ok is2 ->
  Forall2 swap_R2 is is2 /\ Forall valid is2.
Proof.
  intros G1 V1 D1 E2. pose proof swap_AT as AT. pose proof swap_TI as TI. pose proof swap_TL as TL. pose proof swap_VI as VI. pose proof swap_SD as SD.
  pose proof (C08_step _ _ _ _ _ _ V1 D1 VS A2 A1 E2) as F2.
  assert (G2 : Forall2 swap_R2 is is2).
  { eapply Forall2_combine; [|exact G1|exact F2]. intros J J1 J2 HJ (VJ1 & HR) (VJ2 & P & Q & U).
    split; auto. specialize (VI J HJ). destruct HR as [(S & C & R)|(NSC & UN)].
    - left. split; auto. split; auto.
      assert (NC : ~ carries J1 t2).
      { eapply swap_not_t2; eauto. }
      eapply replaced_post; [exact R|]. destruct (selb s J1) eqn:SB.
      + apply Q; auto. now apply (selb_selected s J1 VJ1 VS).
      + rewrite U; [apply unchanged_refl|]. intros X. apply (selb_selected s J1 VJ1 VS) in X. congruence.
    - right. pose proof (selected_same s _ _ (proj2 UN)) as SS. pose proof (carries_same _ _ t2 (proj2 UN)) as CS.
      destruct (SD J HJ) as [S|S].
      + destruct (carries_dec J t2 VI A2) as [C|C].
        * left. split; auto. split; auto. eapply replaced_pre; [exact UN|]. apply P; tauto.
        * right. split; [right; tauto|]. eapply unchanged_trans; [exact UN|]. apply Q; tauto.
      + right. split; auto. rewrite U by tauto. exact UN. }
  split; auto. eapply Forall2_right; [exact G2|intros a c _ X; apply X].
Qed.
End Tmp.

(** On the selected indices swapTags exchanges the two tag sets; every other index is unchanged. *)
Theorem C09_swapTags : forall is', swapTags dbg t1 t2 s is = Ok is' ->
  Forall2 (fun J J' =>
    (selected s J -> carries J t1 -> replaced t1 t2 J J') /\
    (selected s J -> carries J t2 -> replaced t2 t1 J J') /\
    (~ selected s J \/ (~ carries J t1 /\ ~ carries J t2) -> unchanged J J') /\ valid J') is is'.
Proof.
  intros is' H. unfold swapTags in H.
  assert (TMP : exists b, (if (ts_plev t1 <? 0)%Z
               then if (0 <=? ts_plev t2)%Z then Err else Ok (temp_ts false)
               else if (ts_plev t2 <? 0)%Z then Err else Ok (temp_ts true)) = Ok (temp_ts b) /\
               (b = true <-> (0 <= ts_plev t1)%Z) /\ (b = true <-> (0 <= ts_plev t2)%Z)).
  { destruct (Z.ltb_spec (ts_plev t1) 0).
    - destruct (Z.leb_spec 0 (ts_plev t2)); [discriminate|]. exists false. split; auto. split; split; intros; try discriminate; lia.
    - destruct (Z.ltb_spec (ts_plev t2) 0); [discriminate|]. exists true. split; auto. split; split; intros; auto; lia. }
  destruct TMP as (b & TMP & B1 & B2). rewrite TMP in H. cbn [obind] in H.
  destruct (dbg && _); [discriminate|]. set (tmp := temp_ts b) in *.
  destruct (is_op dbg (IReplaceTags t1 tmp) s is) as [is1| |] eqn:E1; try discriminate. cbn [obind] in H.
  destruct (is_op dbg (IReplaceTags t2 t1) s is1) as [is2| |] eqn:E2; try discriminate. cbn [obind] in H.
  pose proof (swap_AT b) as AT. pose proof (swap_TI b) as TI. pose proof (swap_TL b) as TL.
  destruct (swap_step1 b B1 B2 is1 E1) as (G1 & V1 & D1). destruct (swap_step2 b B1 B2 is1 is2 G1 V1 D1 E2) as (G2 & V2). fold tmp in AT, TI, TL.
  pose proof (all_effect (IReplaceTags tmp t2) _ _ _ V2 (conj AT A2) H) as F3.
  eapply Forall2_combine; [|exact G2|exact F3]. intros J J2 J3 HJ (VJ2 & HR) HE.
  apply effect_replace in HE as (VJ3 & P & Q). specialize (NT J HJ). specialize (NB J HJ).
  destruct HR as [(S & C & R)|[(S & C & R)|(N & U)]].
  - assert (C2 : carries J2 tmp).
    { destruct R as (_ & RM & RL). split; simpl.
      - intros t Ht. apply RM. auto.
      - intros X. change (0 <= ts_plev tmp)%Z in X. rewrite TL in X. change (ix_level J2 = ts_plev tmp). rewrite RL. clear P Q. destruct b; [|lia].
        rewrite (proj2 (Z.leb_le 0 (ts_plev t1))); auto. now apply B1. }
    specialize (P C2). split; [intros _ _|split; [intros _ X; exfalso; tauto|split; auto]].
    + destruct R as (RO & RM & RL), P as (PO & PM & PL). fold tmp in RM, RL. split; [eapply so_trans; eauto|]. split.
      * intros t. rewrite PM, RM, TI. split.
        -- tauto.
        -- intros [[X Y]|X]; auto. left. split; auto. intros ->. contradiction.
      * rewrite PL, RL, TL. destruct b.
        -- rewrite (proj2 (Z.leb_le 0 (ts_plev t1))) by (now apply B1). reflexivity.
        -- destruct (Z.leb_spec 0 (ts_plev t1)) as [X|X]; [apply B1 in X; discriminate|]. reflexivity.
    + intros [X|[X _]]; contradiction.
  - assert (C2 : ~ carries J2 tmp).
    { intros [X _]. simpl in X. specialize (X private_tag (proj2 (TI _) eq_refl)). apply R in X as [[X _]|X]; contradiction. }
    specialize (Q C2). split; [intros _ X; exfalso; tauto|]. split; [intros _ _; eapply replaced_post; eauto|]. split; auto.
    intros [X|[_ X]]; contradiction.
  - assert (C2 : ~ carries J2 tmp).
    { intros [X _]. simpl in X. specialize (X private_tag (proj2 (TI _) eq_refl)). apply (proj2 U) in X. contradiction. }
    specialize (Q C2). split; [intros; exfalso; tauto|]. split; [intros; exfalso; tauto|]. split; auto.
    intros _. eapply unchanged_trans; eauto.
Qed.
End SwapTags.

(** Two tag sets neither of which contains the other, and index sets no index of which carries one
    and shares a tag with the other. *)
Definition unrelated (t1 t2 : TagSet) (is : list index) : Prop :=
  ~ a_incl (abs t1) (abs t2) /\ ~ a_incl (abs t2) (abs t1) /\
  (forall t, tag_in t1 t -> ~ tag_in t2 t) /\
  (forall J, In J is -> (carries J t1 -> forall t, tag_in t2 t -> ~ tag_in (ix_tags J) t) /\
                        (carries J t2 -> forall t, tag_in t1 t -> ~ tag_in (ix_tags J) t)) /\
  (forall J, In J is -> ~ (carries J t1 /\ carries J t2)).

(** Swapping twice restores the index set. *)
Theorem C09_swapTags_twice : forall dbg t1 t2 is is' is'',
  Forall valid is -> distinct is -> api_tagset t1 -> api_tagset t2 -> avoids_tag is ->
  ~ tag_in t1 private_tag -> ~ tag_in t2 private_tag -> ts_plev t2 <> 431543%Z ->
  ((0 <= ts_plev t1)%Z <-> (0 <= ts_plev t2)%Z) -> unrelated t1 t2 is ->
  swapTags dbg t1 t2 SAll is = Ok is' -> swapTags dbg t1 t2 SAll is' = Ok is'' ->
  Forall2 unchanged is is''.
Proof.
  intros dbg t1 t2 is is' is'' V D A1 A2 NT N1 N2 L2 LL (U1 & U2 & U3 & U4 & U5) H1 H2.
  assert (VI : forall J, In J is -> valid J) by (now apply Forall_forall).
  pose proof (C09_swapTags dbg t1 t2 SAll is V D Logic.I A1 A2 NT N1 N2 L2 (fun J HJ _ => U5 J HJ) is' H1) as F1.
  assert (LV : forall J ta tb J', replaced ta tb J J' -> carries J ta -> ((0 <= ts_plev ta)%Z <-> (0 <= ts_plev tb)%Z) ->
     carries J' tb).
  { intros J ta tb J' (_ & RM & RL) C L. split; simpl.
    - intros t Ht. apply RM. auto.
    - intros X. change (ix_level J' = ts_plev tb). rewrite RL. rewrite (proj2 (Z.leb_le 0 (ts_plev ta))); auto. now apply L. }
  assert (NN : forall J ta tb J', replaced ta tb J J' -> ((0 <= ts_plev ta)%Z <-> (0 <= ts_plev tb)%Z) ->
     ~ a_incl (abs ta) (abs tb) -> ~ carries J' ta).
  { intros J ta tb J' (_ & RM & RL) L NI [C1 C2]. simpl in C1, C2. apply NI. split; simpl.
    - intros t Ht. specialize (C1 t Ht). apply RM in C1 as [[_ X]|X]; [contradiction|auto].
    - intros X. rewrite <- C2 by auto. change (ts_plev tb = ix_level J'). rewrite RL, (proj2 (Z.leb_le 0 (ts_plev ta))); auto. }
  assert (PRIV : forall J ta tb J', In J is -> replaced ta tb J J' -> ~ tag_in tb private_tag -> ~ tag_in (ix_tags J') private_tag).
  { intros J ta tb J' HJ (_ & RM & _) N X. apply RM in X as [[X _]|X]; [|contradiction]. exact (NT J HJ X). }
  set (R := fun J J' => valid J' /\ ~ tag_in (ix_tags J') private_tag /\
    ((carries J t1 /\ replaced t1 t2 J J' /\ carries J' t2 /\ ~ carries J' t1) \/
     (carries J t2 /\ replaced t2 t1 J J' /\ carries J' t1 /\ ~ carries J' t2) \/
     (~ carries J t1 /\ ~ carries J t2 /\ unchanged J J' /\ ~ carries J' t1 /\ ~ carries J' t2))).
  assert (G : Forall2 R is is').
  { assert (E : Forall2 eq is is) by (clear; induction is; constructor; auto).
    eapply Forall2_combine; [|exact E|exact F1]. intros J ? J' HJ <- (P & Q & W & VJ'). split; auto.
    destruct (carries_dec J t1 (VI J HJ) A1) as [C1|C1].
    - specialize (P Logic.I C1). split; [eapply PRIV; eauto|]. left. split; auto. split; auto. split; [eapply LV; eauto|eapply NN; eauto].
    - destruct (carries_dec J t2 (VI J HJ) A2) as [C2|C2].
      + specialize (Q Logic.I C2). split; [eapply PRIV; eauto|]. right. left. split; auto. split; auto.
        split; [eapply LV; eauto; tauto|eapply NN; eauto; tauto].
      + specialize (W (or_intror (conj C1 C2))). split.
        * intros X. apply (proj2 W) in X. exact (NT J HJ X).
        * right. right. split; auto. split; auto. split; auto.
          split; intros X; apply (carries_same _ _ _ (proj2 W)) in X; contradiction. }
  assert (V' : Forall valid is') by (eapply Forall2_right; [exact G|intros a b _ X; apply X]).
  assert (NT' : avoids_tag is').
  { assert (Q : Forall (fun J => ~ tag_in (ix_tags J) private_tag) is') by (eapply Forall2_right; [exact G|intros a b _ X; apply X]).
    rewrite Forall_forall in Q. exact Q. }
  assert (NB' : forall J', In J' is' -> ~ (carries J' t1 /\ carries J' t2)).
  { assert (Q : Forall (fun J' => ~ (carries J' t1 /\ carries J' t2)) is').
    { eapply Forall2_right; [exact G|]. intros a b _ (_ & _ & [X|[X|X]]); tauto. }
    rewrite Forall_forall in Q. exact Q. }
  assert (TM : forall x x' ta tb t, api_tagset ta -> carries x ta -> replaced ta tb x x' ->
     (forall t, tag_in tb t -> ~ tag_in (ix_tags x) t) ->
     (tag_in (ix_tags x) t <-> (tag_in (ix_tags x') t /\ ~ tag_in tb t) \/ tag_in ta t)).
  { intros x x' ta tb t Aa [C _] (_ & RM & _) NS. simpl in C. rewrite RM. split.
    - intros X. destruct (tag_in_dec ta t Aa) as [T|T]; auto. left. split; auto. intros Y. exact (NS t Y X).
    - intros [[[[X _]|X] Y]|X]; auto. contradiction. }
  assert (LM : forall x x' ta tb, carries x ta -> replaced ta tb x x' -> ((0 <= ts_plev ta)%Z <-> (0 <= ts_plev tb)%Z) ->
     ix_level x = (if (0 <=? ts_plev tb)%Z then ts_plev ta else ix_level x')).
  { intros x x' ta tb [_ C] (_ & _ & RL) L. simpl in C. destruct (Z.leb_spec 0 (ts_plev ta)), (Z.leb_spec 0 (ts_plev tb)); try lia.
    apply C. auto. }
  assert (D' : distinct is').
  { eapply distinct_map; [exact D|exact G|]. intros x y x' y' Hx Hy (_ & _ & Px) (_ & _ & Py) HS.
    pose proof (carries_same _ _ t1 HS) as S1. pose proof (carries_same _ _ t2 HS) as S2.
    destruct (U4 x Hx) as [Ux1 Ux2], (U4 y Hy) as [Uy1 Uy2].
    destruct Px as [(Cx & Rx & Bx & Nx)|[(Cx & Rx & Bx & Nx)|(_ & _ & Ux & Nx)]], Py as [(Cy & Ry & By & Ny)|[(Cy & Ry & By & Ny)|(_ & _ & Uy & Ny)]];
      try (exfalso; tauto).
    - destruct HS as (HI & HL & HM). split; [destruct Rx as ((I1 & _) & _), Ry as ((I2 & _) & _); congruence|]. split.
      + rewrite (LM _ _ _ _ Cx Rx LL), (LM _ _ _ _ Cy Ry LL), HL. reflexivity.
      + intros t. rewrite (TM x x' t1 t2 t A1 Cx Rx (Ux1 Cx)), (TM y y' t1 t2 t A1 Cy Ry (Uy1 Cy)), HM. tauto.
    - destruct HS as (HI & HL & HM). split; [destruct Rx as ((I1 & _) & _), Ry as ((I2 & _) & _); congruence|]. split.
      + rewrite (LM _ _ t2 t1 Cx Rx), (LM _ _ t2 t1 Cy Ry), HL by tauto. reflexivity.
      + intros t. rewrite (TM x x' t2 t1 t A2 Cx Rx (Ux2 Cx)), (TM y y' t2 t1 t A2 Cy Ry (Uy2 Cy)), HM. tauto.
    - eapply same_trans; [apply Ux|]. eapply same_trans; [exact HS|]. apply same_sym, Uy. }
  pose proof (C09_swapTags dbg t1 t2 SAll is' V' D' Logic.I A1 A2 NT' N1 N2 L2 (fun J HJ _ => NB' J HJ) is'' H2) as F2.
  eapply Forall2_combine; [|exact G|exact F2]. intros x x' x'' Hx (_ & _ & P) (Q1 & Q2 & Q3 & _). destruct (U4 x Hx) as [Ux1 Ux2].
  destruct P as [(Cx & Rx & Bx & Nx)|[(Cx & Rx & Bx & Nx)|(_ & _ & Ux & Nx)]].
  - specialize (Q2 Logic.I Bx). destruct Q2 as (O2 & M2 & L2'). pose proof Rx as (O1 & _). split; [eapply so_trans; eauto|].
    split; [|split].
    + destruct O1 as (X & _), O2 as (Y & _). congruence.
    + rewrite L2'. apply (LM _ _ _ _ Cx Rx LL).
    + intros t. rewrite M2. apply (TM x x' t1 t2 t A1 Cx Rx (Ux1 Cx)).
  - specialize (Q1 Logic.I Bx). destruct Q1 as (O2 & M2 & L2'). pose proof Rx as (O1 & _). split; [eapply so_trans; eauto|].
    split; [|split].
    + destruct O1 as (X & _), O2 as (Y & _). congruence.
    + rewrite L2'. apply (LM _ _ t2 t1 Cx Rx). tauto.
    + intros t. rewrite M2. apply (TM x x' t2 t1 t A2 Cx Rx (Ux2 Cx)).
  - eapply unchanged_trans; [exact Ux|]. apply Q3. right. tauto.
Qed.

(** A set of tags that fits in [n] places. *)
Definition fits (n : nat) (P : Tag -> Prop) : Prop := exists u, length u <= n /\ forall t, P t -> In t u.

Lemma addTag_list_fits l0 : Forall storable l0 -> forall ts l r, wf ts l r ->
  fits 3 (fun t => In t l \/ In t l0) -> exists ts', addTag_list ts l0 = Ok ts'.
Proof.
  induction 1 as [|t l0 [Ht Hi] Hl0 IH]; intros ts l r W (u & Hu & HF); simpl; [eauto|].
  pose proof (addTag_spec ts l r t W) as H. rewrite Hi in H.
  assert (L3 : length l <= 3).
  { destruct W as (_ & _ & _ & Hs & _). apply tsorted_nodup in Hs.
    pose proof (NoDup_incl_length Hs (fun x Hx => HF x (or_introl Hx))). lia. }
  destruct (addTag ts t) as [ts'| |]; [|destruct W as (_ & Hl & _); lia|contradiction]. cbn [obind].
  destruct H as [(l' & r' & W' & Hm) Hp]. apply (IH ts' l' r' W'). exists u. split; auto.
  intros x [X|X]; [|apply HF; simpl; auto]. apply Hm in X as [X|(_ & -> & _)]; apply HF; simpl; auto.
Qed.

Lemma replaceTags_fits T r d : api_tagset T -> api_tagset r -> api_tagset d ->
  ((0 <= ts_plev r)%Z <-> (0 <= ts_plev d)%Z) -> length (ts_list T) <= 3 ->
  (ts_hasTags T r = true -> fits 3 (fun t => (tag_in T t /\ ~ tag_in r t) \/ tag_in d t)) ->
  exists T', replaceTags T r d = Ok T'.
Proof.
  intros AT AR AD L LT HF. unfold replaceTags.
  destruct (api_WF _ AT) as (l & x & W). destruct (api_WF _ AR) as (l2 & x2 & W2). destruct (api_WF _ AD) as (l3 & x3 & W3).
  assert (E : ((0 <=? ts_plev d)%Z && (ts_plev r <? 0)%Z || (ts_plev d <? 0)%Z && (0 <=? ts_plev r)%Z) = false).
  { destruct (Z.leb_spec 0 (ts_plev d)), (Z.ltb_spec (ts_plev r) 0), (Z.ltb_spec (ts_plev d) 0), (Z.leb_spec 0 (ts_plev r)); try reflexivity; lia. }
  rewrite E. clear E. destruct (ts_hasTags T r) eqn:EH; cbn [negb]; [|eauto].
  set (T1 := if (0 <=? ts_plev r)%Z then mkTS (ts_tags T) (ts_plev d) (ts_size T) else T).
  assert (W1 : wf T1 l x) by (unfold T1; destruct (0 <=? ts_plev r)%Z; auto).
  rewrite (wf_list r l2 x2), (wf_list d l3 x3) by auto. rewrite (wf_list T l x) in LT by auto.
  pose proof (removeTag_list_spec l2 T1 l x W1) as H. destruct (removeTag_list T1 l2) as [T2| |]; [|contradiction|].
  - cbn [obind]. destruct H as [(l' & x' & W' & Hm) Hp]. pose proof W3 as (_ & _ & _ & _ & Hf3).
    apply (addTag_list_fits l3 Hf3 T2 l' x' W'). destruct (HF eq_refl) as (u & Hu & HU). exists u. split; auto.
    intros t [X|X]; apply HU.
    + left. apply Hm in X. rewrite (wf_mem T l x), (wf_mem r l2 x2) by auto. auto.
    + right. now apply (wf_mem d l3 x3).
  - destruct H as [H4 _]. destruct W1 as (_ & Hl & _). lia.
Qed.

Lemma wf_card T l r n (P : Tag -> Prop) : wf T l r -> fits n P -> (forall t, tag_in T t -> P t) -> length l <= n.
Proof.
  intros W (u & Hu & HU) HP. pose proof W as (_ & _ & _ & Hs & _). apply tsorted_nodup in Hs.
  assert (I : incl l u) by (intros t Ht; apply HU, HP, (wf_mem T l r); auto). pose proof (NoDup_incl_length Hs I). lia.
Qed.

(** In a release build swapTags succeeds whenever all the tag sets involved stay below four tags. *)
Theorem C09_swapTags_succeeds : forall t1 t2 s is,
  Forall valid is -> distinct is -> valid_selector s -> api_tagset t1 -> api_tagset t2 -> avoids_tag is ->
  ~ tag_in t1 private_tag -> ~ tag_in t2 private_tag -> ts_plev t2 <> 431543%Z ->
  (forall J, In J is -> selected s J -> ~ (carries J t1 /\ carries J t2)) ->
  ((0 <= ts_plev t1)%Z <-> (0 <= ts_plev t2)%Z) ->
  (forall J, In J is -> length (ts_list (ix_tags J)) <= 3 /\
     (carries J t1 -> fits 2 (fun t => tag_in (ix_tags J) t /\ ~ tag_in t1 t) /\
                      fits 3 (fun t => (tag_in (ix_tags J) t /\ ~ tag_in t1 t) \/ tag_in t2 t)) /\
     (carries J t2 -> fits 3 (fun t => (tag_in (ix_tags J) t /\ ~ tag_in t2 t) \/ tag_in t1 t))) ->
  exists is', swapTags false t1 t2 s is = Ok is'.
Proof.
  intros t1 t2 s is V D VS A1 A2 NT N1 N2 L2 NB LL HF. unfold swapTags. cbn [andb].
  set (b := (0 <=? ts_plev t1)%Z).
  assert (B1 : b = true <-> (0 <= ts_plev t1)%Z) by (unfold b; apply Z.leb_le).
  assert (B2 : b = true <-> (0 <= ts_plev t2)%Z) by (rewrite B1; exact LL).
  assert (E : (if (ts_plev t1 <? 0)%Z
               then if (0 <=? ts_plev t2)%Z then Err else Ok (temp_ts false)
               else if (ts_plev t2 <? 0)%Z then Err else Ok (temp_ts true)) = Ok (temp_ts b)).
  { unfold b. destruct (Z.ltb_spec (ts_plev t1) 0), (Z.leb_spec 0 (ts_plev t2)), (Z.ltb_spec (ts_plev t2) 0), (Z.leb_spec 0 (ts_plev t1)); try lia; reflexivity. }
  rewrite E. cbn [obind]. clear E. pose proof (temp_api b) as AT. pose proof (temp_in b) as TI.
  assert (TL : ts_plev (temp_ts b) = (if b then 431543 else -1)%Z) by reflexivity.
  assert (LT : (0 <= ts_plev t1)%Z <-> (0 <= ts_plev (temp_ts b))%Z).
  { rewrite TL, <- B1. destruct b; split; intros; try discriminate; lia. }
  assert (HC : forall J ts, valid J -> api_tagset ts -> (ts_hasTags (ix_tags J) ts = true <-> carries J ts)).
  { intros J ts VJ VT. apply ts_hasTags_iff; now apply api_WF. }
  assert (VI : forall J, In J is -> valid J) by (now apply Forall_forall).
  (* first step *)
  assert (S1 : exists is1, is_op false (IReplaceTags t1 (temp_ts b)) s is = Ok is1).
  { apply C08_succeeds; auto. intros J HJ _. simpl. unfold ix_replaceTags.
    destruct (HF J HJ) as (H3 & H1 & _). specialize (VI J HJ).
    destruct (replaceTags_fits (ix_tags J) t1 (temp_ts b)) as (T' & ET); auto.
    - intros X. apply HC in X; auto. destruct (H1 X) as ((u & Hu & HU) & _). exists (private_tag :: u). split; [simpl; lia|].
      intros t [Y|Y]; [right; auto|left; symmetry; now apply TI].
    - rewrite ET. simpl. eauto. }
  destruct S1 as (is1 & E1). rewrite E1. cbn [obind].
  assert (G : Forall2 (swap_R1 t1 s b) is is1 /\ Forall valid is1 /\ distinct is1) by (eapply swap_step1; eauto).
  destruct G as (G1 & V1 & D1).
  (* second step *)
  assert (S2 : exists is2, is_op false (IReplaceTags t2 t1) s is1 = Ok is2).
  { apply C08_succeeds; auto. intros J1 HJ1 SJ1.
    assert (Q : Forall (fun J1 => selected s J1 -> exists J', ix_op false (IReplaceTags t2 t1) J1 = Ok J') is1).
    { eapply Forall2_right; [exact G1|]. clear J1 HJ1 SJ1. intros J J1 HJ (VJ1 & HR) SJ1. simpl. unfold ix_replaceTags.
      destruct (HF J HJ) as (H3 & H1 & H2). specialize (VI J HJ).
      destruct (replaceTags_fits (ix_tags J1) t2 t1) as (T' & ET); auto; try tauto.
      - destruct HR as [(SJ & CJ & (_ & RM & _))|(_ & (_ & (_ & _ & SM)))].
        + destruct (api_WF _ VJ1) as (l & x & W). rewrite (wf_list _ l x) by auto. destruct (H1 CJ) as ((u & Hu & HU) & _).
          eapply (wf_card _ l x 3 (fun t => (tag_in (ix_tags J) t /\ ~ tag_in t1 t) \/ tag_in (temp_ts b) t) W).
          * exists (private_tag :: u). split; [simpl; lia|]. intros t [Y|Y]; [right; auto|left; symmetry; now apply TI].
          * intros t Ht. now apply RM.
        + destruct (api_WF _ VJ1) as (l & x & W). rewrite (wf_list _ l x) by auto. destruct (api_WF _ VI) as (l0 & x0 & W0).
          rewrite (wf_list _ l0 x0) in H3 by auto. eapply (wf_card _ l x 3 (tag_in (ix_tags J)) W).
          * exists l0. split; auto. intros t. now apply wf_mem with (r := x0).
          * intros t Ht. now apply SM.
      - intros X. apply HC in X; auto. destruct HR as [(SJ & CJ & RJ)|(_ & UJ)].
        + exfalso. revert X. eapply (swap_not_t2 t1 t2 s is); eauto.
        + apply (carries_same _ _ t2 (proj2 UJ)) in X. destruct (H2 X) as (u & Hu & HU). exists u. split; auto.
          intros t Y. apply HU. destruct UJ as (_ & (_ & _ & SM)). rewrite SM. exact Y.
      - rewrite ET. simpl. eauto. }
    rewrite Forall_forall in Q. auto. }
  destruct S2 as (is2 & E2). rewrite E2. cbn [obind].
  assert (G : Forall2 (swap_R2 t1 t2 s b) is is2 /\ Forall valid is2) by (eapply swap_step2; eauto).
  destruct G as (G2 & V2).
  (* third step *)
  unfold is_op. assert (Q : Forall (fun J2 => exists J', ix_op false (IReplaceTags (temp_ts b) t2) J2 = Ok J') is2).
  { eapply Forall2_right; [exact G2|]. intros J J2 HJ (VJ2 & HR). simpl. unfold ix_replaceTags.
    destruct (HF J HJ) as (H3 & H1 & H2). specialize (VI J HJ). destruct (api_WF _ VJ2) as (l & x & W).
    destruct (replaceTags_fits (ix_tags J2) (temp_ts b) t2) as (T' & ET); auto; try tauto.
    - rewrite (wf_list _ l x) by auto. destruct HR as [(SJ & CJ & (_ & RM & _))|[(SJ & CJ & (_ & RM & _))|(_ & (_ & (_ & _ & SM)))]].
      + destruct (H1 CJ) as ((u & Hu & HU) & _).
        eapply (wf_card _ l x 3 (fun t => (tag_in (ix_tags J) t /\ ~ tag_in t1 t) \/ tag_in (temp_ts b) t) W).
        * exists (private_tag :: u). split; [simpl; lia|]. intros t [Y|Y]; [right; auto|left; symmetry; now apply TI].
        * intros t Ht. now apply RM.
      + eapply (wf_card _ l x 3 _ W); [exact (H2 CJ)|]. intros t Ht. now apply RM.
      + destruct (api_WF _ VI) as (l0 & x0 & W0).
        rewrite (wf_list _ l0 x0) in H3 by auto. eapply (wf_card _ l x 3 (tag_in (ix_tags J)) W).
        * exists l0. split; auto. intros t. now apply wf_mem with (r := x0).
        * intros t Ht. now apply SM.
    - intros X. apply HC in X; auto. destruct X as [X _]. simpl in X. specialize (X private_tag (proj2 (TI _) eq_refl)).
      destruct HR as [(SJ & CJ & (_ & RM & _))|[(SJ & CJ & (_ & RM & _))|(_ & (_ & (_ & _ & SM)))]].
      + destruct (H1 CJ) as (_ & (u & Hu & HU)). exists u. split; auto. intros t Y. apply HU. rewrite RM, TI in Y. tauto.
      + exfalso. apply RM in X as [[X _]|X]; [exact (NT J HJ X)|contradiction].
      + exfalso. apply SM in X. exact (NT J HJ X).
    - rewrite ET. simpl. eauto. }
  pose proof (each_spec (ix_op false (IReplaceTags (temp_ts b) t2)) is2) as EE. rewrite Forall_forall in Q.
  destruct (each _ is2) as [r| |]; [cbn [obind]; unfold checked; simpl; eauto| |];
  destruct EE as (J & HJ & [H|H]); destruct (Q J HJ) as (J' & HJ'); congruence.
Qed.

(** ** Concrete cases *)
Definition tsA : TagSet := get (run_ops [OAddTag tA] ts_new).
Definition tsB : TagSet := get (run_ops [OAddTag tB] ts_new).
Lemma tsA_api : api_tagset tsA. Proof. apply (api_run [OAddTag tA] ts_new); [constructor|repeat constructor|vm_compute; reflexivity]. Qed.
Lemma tsB_api : api_tagset tsB. Proof. apply (api_run [OAddTag tB] ts_new); [constructor|repeat constructor|vm_compute; reflexivity]. Qed.
Definition jA := ix_new 1 2 tsA.
Definition jB := ix_new 2 2 tsB.
Definition jAB := ix_new 3 2 exAB.

(** Finding: on an index that has both tags, one of them is lost... *)
Theorem C09_both_tags_refuted :
  exists is', swapTags false tsA tsB (STags exAB) [jAB] = Ok is' /\
    tag_in (ix_tags jAB) tB /\ map (fun J => ts_hasTags (ix_tags J) tsA) is' = [false].
Proof. eexists. split; [vm_compute; reflexivity|]. split; [exists 1; split; [vm_compute; lia|reflexivity]|reflexivity]. Qed.
(** ... swapping two levels through swapTags reads past the tag array of an index with three tags
    (adding the temporary tag fills it, see C04_removeTag_full_refuted) and fails with four tags... *)
Definition ts0 : TagSet := get (run_ops [OSetPrime 0] ts_new).
Definition ts1 : TagSet := get (run_ops [OSetPrime 1] ts_new).
Definition jABC := ix_new 4 2 (get (run_ops [OAddTag tA; OAddTag tB; OAddTag tC] ts_new)).
Definition jABCD := ix_new 4 2 (get (run_ops [OAddTag tA; OAddTag tB; OAddTag tC; OAddTag tD] ts_new)).
Theorem C09_level_tags_refuted :
  valid jABC /\ valid jABCD /\ swapTags false ts0 ts1 SAll [jABC] = UB /\ swapTags false ts0 ts1 SAll [jABCD] = Err.
Proof.
  assert (A : forall l, Forall api_args l -> forall T, run_ops l ts_new = Ok T -> valid (ix_new 4 2 T)).
  { intros l HL T E. unfold valid. simpl. unfold fix_level. destruct (_ <? 0)%Z; [eapply api_op with (o := OSetPrime 0); [|constructor|reflexivity]|];
    eapply api_run; eauto; constructor. }
  split; [eapply A with (l := [OAddTag tA; OAddTag tB; OAddTag tC]); [repeat constructor|vm_compute; reflexivity]|].
  split; [eapply A with (l := [OAddTag tA; OAddTag tB; OAddTag tC; OAddTag tD]); [repeat constructor|vm_compute; reflexivity]|].
  split; vm_compute; reflexivity.
Qed.
(** ... and two swaps do not restore an index that carries one tag set and part of the other. *)
Definition tsBC : TagSet := get (run_ops [OAddTag tB; OAddTag tC] ts_new).
Theorem C09_overlap_refuted :
  exists is' is'', swapTags false tsA tsBC SAll [jAB] = Ok is' /\ swapTags false tsA tsBC SAll is' = Ok is'' /\
    tag_in (ix_tags jAB) tB /\ map (fun J => ts_hasTags (ix_tags J) tsB) is'' = [false].
Proof.
  eexists. eexists. split; [vm_compute; reflexivity|]. split; [vm_compute; reflexivity|].
  split; [exists 1; split; [vm_compute; lia|reflexivity]|reflexivity].
Qed.

Lemma valid_new id m T : api_tagset T -> valid (ix_new id m T).
Proof.
  intros A. unfold valid. simpl. unfold fix_level. destruct (_ <? 0)%Z; auto.
  eapply api_op with (o := OSetPrime 0); [exact A|constructor|reflexivity].
Qed.
Lemma not_carries J ts : valid J -> api_tagset ts -> ts_hasTags (ix_tags J) ts = false -> ~ carries J ts.
Proof. intros V A E C. apply ts_hasTags_iff in C; [congruence|now apply api_WF|now apply api_WF]. Qed.
Lemma tsA_in t : tag_in tsA t <-> t = tA.
Proof.
  split; [intros (i & Hi & <-); change (ts_size tsA) with 1 in Hi; assert (i = 0) by lia; subst; reflexivity|].
  intros ->. exists 0. split; [change (ts_size tsA) with 1; lia|reflexivity].
Qed.
Lemma tsB_in t : tag_in tsB t <-> t = tB.
Proof.
  split; [intros (i & Hi & <-); change (ts_size tsB) with 1 in Hi; assert (i = 0) by lia; subst; reflexivity|].
  intros ->. exists 0. split; [change (ts_size tsB) with 1; lia|reflexivity].
Qed.

Example C09_nonvacuous :
  let is := [jA; jB; iA'] in
  (Forall valid is /\ distinct is /\ avoids_level is /\ avoids_tag is /\ unrelated tsA tsB is) /\
  (exists is', swapPrime true 0 1 SAll is = Ok is' /\ map ix_level is' = [1; 1; 0]%Z) /\
  (exists is', swapTags true tsA tsB SAll is = Ok is' /\
     map (fun J => (ts_hasTags (ix_tags J) tsA, ts_hasTags (ix_tags J) tsB)) is' = [(false, true); (true, false); (false, false)]).
Proof.
  cbv zeta. split; [|split; eexists; split; vm_compute; reflexivity].
  assert (VA : valid jA) by (apply valid_new, tsA_api). assert (VB : valid jB) by (apply valid_new, tsB_api).
  assert (V : Forall valid [jA; jB; iA']) by (repeat constructor; auto using vA').
  split; auto. split.
  { apply distinct_keys; auto. apply NoDup_nth_error. intros i j Hi. simpl in Hi.
    destruct i as [|[|[|i]]]; try lia; destruct j as [|[|[|j]]]; vm_compute; try reflexivity; try discriminate; destruct j; discriminate. }
  assert (T : forall J, In J [jA; jB; iA'] -> forall t, tag_in (ix_tags J) t -> t = tA \/ t = tB).
  { intros J [<-|[<-|[<-|[]]]] t (i & Hi & <-).
    - change (ts_size (ix_tags jA)) with 1 in Hi. assert (i = 0) by lia. subst. left. reflexivity.
    - change (ts_size (ix_tags jB)) with 1 in Hi. assert (i = 0) by lia. subst. right. reflexivity.
    - change (ts_size (ix_tags iA')) with 0 in Hi. lia. }
  split. { intros J [<-|[<-|[<-|[]]]] E; vm_compute in E; discriminate. }
  split. { intros J HJ X. destruct (T J HJ _ X) as [E|E]; apply (f_equal ss_bytes) in E; vm_compute in E; discriminate. }
  assert (AB : tA <> tB) by (intros E; apply (f_equal ss_bytes) in E; vm_compute in E; discriminate).
  split; [|split; [|split; [|split]]].
  - intros [I _]. specialize (I tA (proj2 (tsA_in tA) eq_refl)). apply tsB_in in I. contradiction.
  - intros [I _]. specialize (I tB (proj2 (tsB_in tB) eq_refl)). apply tsA_in in I. congruence.
  - intros t H1 H2. apply tsA_in in H1. apply tsB_in in H2. congruence.
  - intros J [<-|[<-|[<-|[]]]]; split; intros C t Ht X.
    + apply tsB_in in Ht. subst t. destruct X as (i & Hi & E). change (ts_size (ix_tags jA)) with 1 in Hi. assert (i = 0) by lia. subst. apply AB. exact E.
    + exfalso. revert C. apply not_carries; auto using tsB_api.
    + exfalso. revert C. apply not_carries; auto using tsA_api.
    + apply tsA_in in Ht. subst t. destruct X as (i & Hi & E). change (ts_size (ix_tags jB)) with 1 in Hi. assert (i = 0) by lia. subst. apply AB. symmetry. exact E.
    + exfalso. revert C. apply not_carries; auto using tsA_api, vA'.
    + exfalso. revert C. apply not_carries; auto using tsB_api, vA'.
  - intros J [<-|[<-|[<-|[]]]] [C1 C2].
    + revert C2. apply not_carries; auto using tsB_api.
    + revert C1. apply not_carries; auto using tsA_api.
    + revert C1. apply not_carries; auto using tsA_api, vA'.
Qed.

Print Assumptions C09_swapPrime.
Print Assumptions C09_swapPrime_debug.
Print Assumptions C09_swapPrime_twice.
Print Assumptions C09_private_level_refuted.
Print Assumptions C09_swapTags.
Print Assumptions C09_swapTags_twice.
Print Assumptions C09_swapTags_succeeds.
Print Assumptions C09_both_tags_refuted.
Print Assumptions C09_level_tags_refuted.
Print Assumptions C09_overlap_refuted.
