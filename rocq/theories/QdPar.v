(** The tasks of the threaded loop, and their independence. *)
From Coq Require Import List ZArith Lia Bool Arith Permutation Sorted.
From Verif Require Import Util RangeModel RangeSpec RangeProofs TensorModel TensorSpec TensorProofs SemProofs
  ContractModel DenseModel DenseProofs LabelProofs QnModel QdModel QdSpec QdProofs QdAdd QdKernel QdEntries QdLoop QdSum QdDense.
Import ListNotations.
Open Scope outcome_scope.
Local Arguments Nat.sub : simpl never.

(** ** the tasks: runs of equal result blocks in the sorted list *)
Fixpoint grp (l : list triple) : list (list triple) :=
  match l with
  | [] => []
  | t :: l' => match grp l' with
               | (u :: g) :: gs => if block_eqb (snd u) (snd t) then (t :: u :: g) :: gs else [t] :: (u :: g) :: gs
               | _ => [[t]]
               end
  end.
Lemma grp_head : forall l t, exists g gs, grp (t :: l) = (t :: g) :: gs.
Proof.
  intros l t. cbn [grp]. destruct (grp l) as [|[|u g] gs]; [eauto|eauto|]. destruct (block_eqb (snd u) (snd t)); eauto.
Qed.
Lemma grp_cons t u l : exists g gs, grp (u :: l) = (u :: g) :: gs /\
  grp (t :: u :: l) = if block_eqb (snd u) (snd t) then (t :: u :: g) :: gs else [t] :: (u :: g) :: gs.
Proof.
  destruct (grp_head l u) as (g & gs & E). exists g, gs. split; [exact E|]. cbn [grp] in *. rewrite E. reflexivity.
Qed.
Lemma grp_concat : forall l, concat (grp l) = l.
Proof.
  induction l as [|t l IH]; auto. destruct l as [|u l]; [reflexivity|]. destruct (grp_cons t u l) as (g & gs & E1 & E2).
  rewrite E2. rewrite E1 in IH. destruct (block_eqb (snd u) (snd t)); cbn [concat app] in *; rewrite IH; reflexivity.
Qed.
Lemma grp_same : forall l g, In g (grp l) -> g <> [] /\ forall t u, In t g -> In u g -> snd t = snd u.
Proof.
  induction l as [|t l IH]; intros g Hg; [contradiction|]. destruct l as [|u l].
  - destruct Hg as [<-|[]]. split; [discriminate|]. intros a b [<-|[]] [<-|[]]; reflexivity.
  - destruct (grp_cons t u l) as (h & gs & E1 & E2). rewrite E2 in Hg. rewrite E1 in IH. destruct (block_eqb (snd u) (snd t)) eqn:E.
    + apply block_eqb_spec in E. destruct Hg as [<-|Hg]; [|apply IH; right; auto]. split; [discriminate|].
      destruct (IH (u :: h) (or_introl eq_refl)) as [_ K]. assert (G : forall a, In a (t :: u :: h) -> snd a = snd u).
      { intros a [<-|Ha]; auto. apply K; auto. left; auto. }
      intros a b Ha Hb. rewrite (G a Ha), (G b Hb). reflexivity.
    + destruct Hg as [<-|Hg]; [|apply IH; auto]. split; [discriminate|]. intros a b [<-|[]] [<-|[]]; reflexivity.
Qed.
Definition t0 : triple := ([], [], []).
Definition heads (l : list triple) : list block := map (fun g => snd (hd t0 g)) (grp l).
Lemma heads_in l c : In c (heads l) <-> In c (map snd l).
Proof.
  unfold heads. rewrite !in_map_iff. split.
  - intros (g & <- & Hg). destruct (grp_same l g Hg) as [K _]. destruct g as [|t g]; [congruence|]. exists t. split; auto.
    rewrite <- (grp_concat l). apply in_concat. exists (t :: g). split; auto. left; auto.
  - intros (t & <- & Ht). rewrite <- (grp_concat l) in Ht. apply in_concat in Ht as (g & Hg & Ht). exists g. split; auto.
    destruct (grp_same l g Hg) as [K1 K2]. destruct g as [|u g]; [congruence|]. cbn [hd]. apply K2; auto. left; auto.
Qed.

Section Keys.
Variable e : list nat.
Lemma heads_sorted : forall (l : list triple), Forall (fun t : triple => valid e (snd t)) l -> StronglySorted (fun a b : triple => block_lt (snd b) (snd a) = false) l ->
  StronglySorted (fun a b => colmajor e a < colmajor e b) (heads l).
Proof.
  induction l as [|t l IH]; intros HV HS; [constructor|]. destruct l as [|u l]; [repeat constructor|].
  apply StronglySorted_inv in HS as [HS HF]. inversion HV as [|? ? Vt HV']; subst. specialize (IH HV' HS).
  unfold heads in *. destruct (grp_cons t u l) as (g & gs & E1 & E2). rewrite E2. destruct (block_eqb (snd u) (snd t)) eqn:E.
  - apply block_eqb_spec in E. rewrite E1 in IH. cbn [map hd] in *. rewrite <- E. exact IH.
  - rewrite <- E1. cbn [map hd]. constructor; [exact IH|]. apply Forall_forall. intros c Hc.
    assert (Vu : valid e (snd u)) by (inversion HV'; auto). inversion HF as [|? ? K _]; subst.
    assert (KU : colmajor e (snd t) < colmajor e (snd u)).
    { rewrite (block_lt_key e) in K by auto. apply Nat.ltb_ge in K.
      assert (colmajor e (snd t) <> colmajor e (snd u)); [|lia]. intros Q. apply key_inj in Q; auto. rewrite Q in E. rewrite (proj2 (block_eqb_spec _ _) eq_refl) in E. discriminate. }
    rewrite E1 in Hc, IH. cbn [map hd] in Hc, IH. destruct Hc as [<-|Hc]; [exact KU|]. apply StronglySorted_inv in IH as [_ F]. rewrite Forall_forall in F. specialize (F c Hc). lia.
Qed.
End Keys.

(** ** offset and nrepeat describe these runs *)
Fixpoint starts (i : nat) (gs : list (list triple)) : list nat := match gs with [] => [] | g :: gs' => i :: starts (i + length g) gs' end.
Lemma upd_app {A} (a b : list A) x y : upd (length a) y (a ++ x :: b) = a ++ y :: b.
Proof. induction a as [|z a IH]; cbn [length app upd]; [reflexivity|]. rewrite IH. reflexivity. Qed.
Lemma oupd_app {A} (a b : list A) x y : oupd (length a) y (a ++ x :: b) = Ok (a ++ y :: b).
Proof. rewrite oupd_ok; [rewrite upd_app; reflexivity|]. rewrite app_length. cbn. lia. Qed.
Lemma oget_app {A} (a b : list A) x : oget (a ++ x :: b) (length a) = Ok x.
Proof. rewrite (oget_ok x) by (rewrite app_length; cbn; lia). rewrite app_nth2, Nat.sub_diag by lia. reflexivity. Qed.
Lemma plan_spec : forall l t g gs, grp (t :: l) = (t :: g) :: gs -> forall i o1 x r1 n, length r1 = length o1 ->
  plan t l i (length o1) (o1 ++ x :: repeat 0 (length gs)) (r1 ++ n :: repeat 1 (length gs)) =
  Ok (o1 ++ x :: starts (i + length g) gs, r1 ++ (n + length g) :: map (@length triple) gs).
Proof.
  induction l as [|u l IH]; intros t g gs E i o1 x r1 n HL.
  - cbn in E. injection E as <- <-. cbn [plan length repeat starts map]. rewrite Nat.add_0_r. reflexivity.
  - destruct (grp_cons t u l) as (h & hs & E1 & E2). rewrite E2 in E. cbn [plan]. destruct (block_eqb (snd u) (snd t)).
    + injection E as <- <-. rewrite <- HL, oget_app. cbn [obind]. rewrite oupd_app. cbn [obind]. rewrite HL.
      rewrite (IH u h hs E1 (S i) o1 x r1 (n + 1) HL). cbn [length]. do 3 f_equal; [f_equal; f_equal; lia|f_equal; lia].
    + injection E as <- <-. cbn [length repeat].
      replace (o1 ++ x :: 0 :: repeat 0 (length hs)) with ((o1 ++ [x]) ++ 0 :: repeat 0 (length hs)) by (rewrite <- app_assoc; reflexivity).
      replace (length o1 + 1) with (length (o1 ++ [x])) by (rewrite app_length; reflexivity). rewrite oupd_app. cbn [obind].
      replace (r1 ++ n :: 1 :: repeat 1 (length hs)) with ((r1 ++ [n]) ++ 1 :: repeat 1 (length hs)) by (rewrite <- app_assoc; reflexivity).
      rewrite (IH u h hs E1 (S i) (o1 ++ [x]) i (r1 ++ [n]) 1) by (rewrite !app_length; cbn; lia).
      cbn [starts map length]. rewrite <- !app_assoc. cbn [app]. do 3 f_equal; [f_equal; f_equal; f_equal; lia|f_equal; lia].
Qed.
Lemma tasks_spec : forall gs pre, tasks_of (pre ++ concat gs) (starts (length pre) gs) (map (@length triple) gs) = Ok gs.
Proof.
  induction gs as [|g gs IH]; intros pre; cbn [starts map tasks_of]; auto. cbn [concat].
  rewrite (select_spec t0) by (intros k Hk; apply in_seq in Hk; rewrite !app_length; lia). cbn [obind].
  replace (pre ++ g ++ concat gs) with ((pre ++ g) ++ concat gs) by (now rewrite app_assoc).
  replace (length pre + length g) with (length (pre ++ g)) by (apply app_length). rewrite IH. cbn [obind]. do 2 f_equal.
  rewrite <- app_assoc. apply (nth_ext _ _ t0 t0); [now rewrite map_length, seq_length|]. rewrite map_length, seq_length. intros k Hk.
  rewrite (nth_indep _ t0 (nth 0 (pre ++ g ++ concat gs) t0)) by (now rewrite map_length, seq_length).
  rewrite (map_nth (fun i => nth i (pre ++ g ++ concat gs) t0)), seq_nth by exact Hk. rewrite app_nth2 by lia. rewrite app_nth1 by lia. f_equal. lia.
Qed.

Lemma omp_tasks_spec srt (Hsrt : sorts srt) e nnz (ts : list triple) : Forall (fun t : triple => valid e (snd t)) ts ->
  (exists l, NoDup l /\ length l = nnz /\ forall c, In c l <-> In c (map snd ts)) ->
  exists tasks, omp_tasks srt nnz ts = Ok tasks /\ Permutation (concat tasks) ts /\
    (forall g t u, In g tasks -> In t g -> In u g -> snd t = snd u) /\
    (forall i j g h t u, nth_error tasks i = Some g -> nth_error tasks j = Some h -> i <> j -> In t g -> In u h -> snd t <> snd u) /\
    length tasks = nnz.
Proof.
  intros HV (l & ND & LN & HM). unfold omp_tasks. set (sorted := srt triple (fun a b : triple => block_lt (snd a) (snd b)) ts).
  destruct (Hsrt triple (fun a b : triple => block_lt (snd a) (snd b)) ts) as [HP HS].
  { intros a. apply block_lt_irr. } { intros a b c. apply block_lt_trans. } { intros a b c. apply block_lt_neg. }
  fold sorted in HP, HS.
  assert (HV' : Forall (fun t : triple => valid e (snd t)) sorted) by (eapply Permutation_Forall; eauto).
  pose proof (heads_sorted e sorted HV' HS) as HH.
  assert (NH : NoDup (heads sorted)).
  { clear -HH. induction HH as [|c l HS IH HF]; constructor; auto. intros Q. rewrite Forall_forall in HF. specialize (HF c Q). lia. }
  assert (LH : length (grp sorted) = nnz).
  { rewrite <- LN. replace (length (grp sorted)) with (length (heads sorted)) by (unfold heads; now rewrite map_length).
    apply Permutation_length. apply NoDup_Permutation; auto. intros c. rewrite heads_in, HM. split; intros Hc; (eapply Permutation_in; [|exact Hc]); apply Permutation_map; [symmetry|]; auto. }
  exists (grp sorted). split; [|split; [|split; [|split]]].
  - assert (EP : match sorted with [] => Ok (repeat 0 nnz, repeat 1 nnz) | t :: l => plan t l 1 0 (repeat 0 nnz) (repeat 1 nnz) end
       = Ok (starts 0 (grp sorted), map (@length triple) (grp sorted))).
    { rewrite <- LH. destruct sorted as [|t l']; [reflexivity|]. destruct (grp_head l' t) as (g & gs & E). rewrite E. cbn [length repeat].
      pose proof (plan_spec l' t g gs E 1 [] 0 [] 1 eq_refl) as K. cbn [length app] in K. rewrite K. cbn [starts map length]. do 3 f_equal. }
    rewrite EP. cbn [obind]. pose proof (tasks_spec (grp sorted) []) as K. cbn [app length] in K. rewrite grp_concat in K. exact K.
  - rewrite grp_concat. symmetry. exact HP.
  - intros g t u Hg Ht Hu. apply (grp_same sorted g Hg); auto.
  - intros i j g h t u Hi Hj Hij Ht Hu Q. apply Hij. apply (proj1 (NoDup_nth_error (heads sorted)) NH).
    + unfold heads. rewrite map_length. eapply nth_lt; exact Hi.
    + unfold heads. rewrite (map_nth_error _ _ _ Hi), (map_nth_error _ _ _ Hj). do 1 f_equal.
      destruct (grp_same sorted g (nth_error_In _ _ Hi)) as [K1 K2]. destruct (grp_same sorted h (nth_error_In _ _ Hj)) as [K3 K4].
      destruct g as [|a g]; [congruence|]. destruct h as [|b h]; [congruence|]. cbn [hd].
      rewrite (K2 a t), (K4 b u); auto; left; auto.
  - exact LH.
Qed.

(** ** one contraction works on its own block only; nothing is assumed of the numbers *)
Section Local.
Context {R : Type} (r0 r1 : R) (radd rmul : R -> R -> R) (is0 : R -> bool).

Lemma gemm_length mA A mB B mC (C C' : list R) alpha beta : gemm r0 radd rmul mA A mB B mC C alpha beta = Ok C' -> length C' = length C.
Proof.
  assert (G : forall ta tb m n k (A B : list R), dgemm r0 radd rmul ta tb m n k alpha A B beta C = Ok C' -> length C' = length C).
  { intros ta tb m n k A0 B0 H. unfold dgemm in H. destruct ((length A0 <? m * k) || (length B0 <? k * n) || (length C <? m * n)) eqn:E; [discriminate|].
    injection H as <-. apply orb_false_iff in E as [_ E]. apply Nat.ltb_ge in E. rewrite app_length, map_length, seq_length, skipn_length. lia. }
  unfold gemm, gemm_impl. destruct (isTransposed mC); apply G.
Qed.
Lemma obind_ok {A B} (o : outcome A) (f : A -> outcome B) y : obind o f = Ok y -> exists x, o = Ok x /\ f x = Ok y.
Proof. destruct o; cbn; try discriminate. eauto. Qed.
Lemma oupd_length {A} i (x : A) l l' : oupd i x l = Ok l' -> length l' = length l.
Proof. unfold oupd. destruct (i <? length l); [|discriminate]. intros H; injection H as <-. apply upd_length. Qed.
Lemma transform_length (op : R -> R -> R) rf from rt to to' : transform op rf from rt to = Ok to' -> length to' = length to.
Proof.
  assert (GI : forall n pf sf pt st to to', transform_inner op n pf sf pt st from to = Ok to' -> length to' = length to).
  { induction n as [|n IH]; intros pf sf pt st a a' H; cbn [transform_inner] in H; [congruence|].
    apply obind_ok in H as (x & _ & H). apply obind_ok in H as (y & _ & H). apply obind_ok in H as (b & E & H). apply IH in H. apply oupd_length in E. congruence. }
  assert (GO : forall its bs sf st to to', transform_outer op its rf rt bs sf st from to = Ok to' -> length to' = length to).
  { induction its as [|[i k] its IH]; intros bs sf st a a' H; cbn [transform_outer] in H; [congruence|].
    apply obind_ok in H as (x & _ & H). apply obind_ok in H as (y & _ & H). apply obind_ok in H as (b & E & H). apply IH in H. apply GI in E. congruence. }
  unfold transform. destruct (negb (length rf =? length rt)); [discriminate|]. destruct rf as [|f0 rf'].
  - intros H. apply obind_ok in H as (x & _ & H). apply obind_ok in H as (y & _ & H). apply oupd_length in H. exact H.
  - destruct (bigind_loop 1 (map ext rf') 0 (ext f0)) as [bi bs]. intros H. apply obind_ok in H as (x & _ & H). apply obind_ok in H as (y & _ & H).
    cbv zeta in H. apply obind_ok in H as ([its|] & _ & H); [|discriminate]. apply GO in H. exact H.
Qed.
Lemma contract_length rA (A : list R) ai rB B bi rC C ci alpha beta junk C' :
  contract r0 radd rmul is0 rA A ai rB B bi rC C ci alpha beta junk = Ok C' -> length C' = length C.
Proof.
  assert (GS : forall a rB B bi, contractScalar radd rmul is0 a rB B bi rC C ci alpha beta = Ok C' -> length C' = length C).
  { intros a rB0 B0 bi0 H. unfold contractScalar in H. apply obind_ok in H as (P & _ & H). apply obind_ok in H as (v & _ & H).
    destruct (is0 beta); apply transform_length in H; exact H. }
  assert (GP : forall p, contract_props r0 radd rmul p rA A rB B rC C alpha beta junk = Ok C' -> length C' = length C).
  { intros p H. unfold contract_props in H. apply obind_ok in H as ([mA dA] & _ & H). apply obind_ok in H as ([mB dB] & _ & H).
    destruct (permuteC p).
    - apply obind_ok in H as (nC & _ & H). apply obind_ok in H as (vC & _ & H). apply transform_length in H. exact H.
    - destruct (ctrans p); apply gemm_length in H; exact H. }
  unfold contract. destruct ai as [|x ai]; [|destruct bi as [|y bi]]; intros H.
  - apply obind_ok in H as (a & _ & H). eapply GS; exact H.
  - apply obind_ok in H as (a & _ & H). eapply GS; exact H.
  - apply obind_ok in H as (p & _ & H). eapply GP; exact H.
Qed.

(** a step that reads and writes n numbers at o, and entry p of the second list *)
Definition local_step (o p n : nat) (F : list R -> R -> outcome (list R)) (st : list R * list R) : outcome (list R * list R) :=
  let! sc := segment o n (fst st) in
  let! beta := oget (snd st) p in
  let! sc' := F sc beta in
  let! b := oupd p r1 (snd st) in
  Ok (put_seg o sc' (fst st), b).
Definition keeps (F : list R -> R -> outcome (list R)) : Prop := forall sc beta sc', F sc beta = Ok sc' -> length sc' = length sc.

Lemma segment_inv {A} o n (l s : list A) : segment o n l = Ok s -> o + n <= length l /\ s = firstn n (skipn o l).
Proof. unfold segment. destruct (Nat.leb_spec (o + n) (length l)); [|discriminate]. intros E. injection E as <-. auto. Qed.
Lemma seg_ext {A} (d : A) o n (l l' : list A) : length l = length l' -> (forall k, o <= k < o + n -> nth k l d = nth k l' d) -> segment o n l = segment o n l'.
Proof.
  intros HL H. unfold segment. rewrite HL. destruct (Nat.leb_spec (o + n) (length l')); auto. f_equal.
  apply (nth_ext _ _ d d); [rewrite !firstn_length, !skipn_length; lia|]. rewrite firstn_length, skipn_length. intros k Hk.
  rewrite !nth_firstn_lt by lia. rewrite !nth_skipn. apply H. lia.
Qed.
Lemma oget_inv {A} (l : list A) i x : oget l i = Ok x -> i < length l.
Proof. unfold oget. destruct (nth_error l i) eqn:E; [|discriminate]. intros _. eapply nth_lt; exact E. Qed.

Lemma commute o1 p1 n1 F1 o2 p2 n2 F2 st st1 st2 : keeps F1 -> keeps F2 -> p1 <> p2 -> o1 + n1 <= o2 \/ o2 + n2 <= o1 ->
  local_step o1 p1 n1 F1 st = Ok st1 -> local_step o2 p2 n2 F2 st1 = Ok st2 ->
  exists st', local_step o2 p2 n2 F2 st = Ok st' /\ local_step o1 p1 n1 F1 st' = Ok st2.
Proof.
  intros K1 K2 Hp Ho E1 E2. unfold local_step in *. destruct st as [S b].
  apply obind_ok in E1 as (sc1 & A1 & E1). apply obind_ok in E1 as (be1 & B1 & E1). apply obind_ok in E1 as (sd1 & C1 & E1). apply obind_ok in E1 as (b1 & D1 & E1). injection E1 as <-.
  cbn [fst snd] in *.
  apply obind_ok in E2 as (sc2 & A2 & E2). apply obind_ok in E2 as (be2 & B2 & E2). apply obind_ok in E2 as (sd2 & C2 & E2). apply obind_ok in E2 as (b2 & D2 & E2). injection E2 as <-.
  pose proof (K1 _ _ _ C1) as L1. pose proof (K2 _ _ _ C2) as L2.
  destruct (segment_inv _ _ _ _ A1) as [W1 G1]. assert (LS1 : length sc1 = n1) by (rewrite G1, firstn_length, skipn_length; lia). rewrite LS1 in L1.
  assert (PL1 : length (put_seg o1 sd1 S) = length S) by (apply put_seg_length; lia).
  destruct (segment_inv _ _ _ _ A2) as [W2 G2]. assert (LS2 : length sc2 = n2) by (rewrite G2, firstn_length, skipn_length; lia). rewrite LS2 in L2.
  rewrite PL1 in W2. assert (PL2 : length (put_seg o2 sd2 S) = length S) by (apply put_seg_length; lia).
  assert (Q2 : segment o2 n2 S = Ok sc2).
  { rewrite <- A2. apply (seg_ext r0); [auto|]. intros k Hk. rewrite put_seg_nth by lia.
    destruct (Nat.leb_spec o1 k), (Nat.ltb_spec k (o1 + length sd1)); cbn [andb]; auto; lia. }
  assert (Q1 : segment o1 n1 (put_seg o2 sd2 S) = Ok sc1).
  { rewrite <- A1. apply (seg_ext r0); [auto|]. intros k Hk. rewrite put_seg_nth by lia.
    destruct (Nat.leb_spec o2 k), (Nat.ltb_spec k (o2 + length sd2)); cbn [andb]; auto; lia. }
  pose proof (oget_inv _ _ _ B1) as P1. unfold oupd in D1. destruct (Nat.ltb_spec p1 (length b)); [|lia]. injection D1 as <-.
  pose proof (oget_inv _ _ _ B2) as P2. rewrite upd_length in P2. unfold oupd in D2. rewrite upd_length in D2. destruct (Nat.ltb_spec p2 (length b)); [|lia]. injection D2 as <-.
  assert (R2 : oget b p2 = Ok be2). { rewrite <- B2. rewrite !(oget_ok r0) by (rewrite ?upd_length; lia). f_equal. symmetry. apply nth_upd_neq. auto. }
  assert (R1 : oget (upd p2 r1 b) p1 = Ok be1). { rewrite <- B1. rewrite !(oget_ok r0) by (rewrite ?upd_length; lia). f_equal. apply nth_upd_neq. auto. }
  exists (put_seg o2 sd2 S, upd p2 r1 b). cbn [fst snd]. rewrite Q2. cbn [obind]. rewrite R2. cbn [obind]. rewrite C2. cbn [obind].
  rewrite oupd_ok by lia. cbn [obind]. split; [reflexivity|]. rewrite Q1. cbn [obind]. rewrite R1. cbn [obind]. rewrite C1. cbn [obind].
  rewrite oupd_ok by (rewrite upd_length; lia). cbn [obind]. do 2 f_equal.
  - apply (nth_ext _ _ r0 r0); [rewrite !put_seg_length; auto; rewrite ?PL1, ?PL2; lia|]. intros k _.
    rewrite (put_seg_nth o1 sd1 (put_seg o2 sd2 S)) by lia. rewrite (put_seg_nth o2 sd2 (put_seg o1 sd1 S)) by lia. rewrite (put_seg_nth o1 sd1 S), (put_seg_nth o2 sd2 S) by lia.
    destruct (Nat.leb_spec o1 k), (Nat.ltb_spec k (o1 + length sd1)), (Nat.leb_spec o2 k), (Nat.ltb_spec k (o2 + length sd2)); cbn [andb]; auto; lia.
  - apply (nth_ext _ _ r0 r0); [now rewrite !upd_length|]. intros k _.
    destruct (Nat.eq_dec k p1) as [->|N1]; [rewrite nth_upd_eq by (rewrite upd_length; lia); rewrite (nth_upd_neq p2) by auto; rewrite nth_upd_eq by lia; reflexivity|].
    rewrite (nth_upd_neq p1 k) by auto. destruct (Nat.eq_dec k p2) as [->|N2]; [rewrite !nth_upd_eq by (rewrite ?upd_length; lia); reflexivity|].
    rewrite !(nth_upd_neq p2 k) by auto. rewrite (nth_upd_neq p1 k) by auto. reflexivity.
Qed.

Context {I : Type} (ieq : I -> I -> bool) (ieq_spec : forall a b, ieq a b = true <-> a = b) (bs : I -> list nat).
Notation nblocks := (nblocks bs).
Notation sz := (sz bs).
Notation filled := (filled bs).
Notation stored := (stored bs).

Lemma filled_disjoint is : forall l o n p q b b' x x', filled is o l n -> nth_error l p = Some (b, x) -> nth_error l q = Some (b', x') -> p < q ->
  o <= x /\ x + sz is b <= x'.
Proof.
  assert (LO : forall l o n q b' x', filled is o l n -> nth_error l q = Some (b', x') -> o <= x').
  { induction l as [|[c y] l IH]; intros o n q b' x' F Hq; [destruct q; discriminate|]. cbn [QdSpec.filled] in F. destruct F as (-> & _ & F).
    destruct q as [|q]; cbn [nth_error] in Hq; [injection Hq as -> ->; lia|]. specialize (IH _ _ _ _ _ F Hq). lia. }
  induction l as [|[c y] l IH]; intros o n p q b b' x x' F Hp Hq Hpq; [destruct p; discriminate|]. cbn [QdSpec.filled] in F. destruct F as (-> & _ & F).
  destruct q as [|q]; [lia|]. cbn [nth_error] in Hq. destruct p as [|p]; cbn [nth_error] in Hp.
  - injection Hp as -> ->. split; [lia|]. eapply LO; eauto.
  - destruct (IH _ _ _ _ _ _ _ _ F Hp Hq ltac:(lia)). split; lia.
Qed.

Section Two.
Variables (L Rr : list I).
Hypothesis NL : NoDup L.
Hypothesis NR : NoDup Rr.
Variables (A B : qd R).
Hypothesis HA : stored L A.
Hypothesis HB : stored Rr B.
Let N := only ieq L Rr ++ only ieq Rr L.
Variable co : list blof.
Variable ntot : nat.
Hypothesis HF : filled N 0 co ntot.
Hypothesis HS : StronglySorted (keyed bs N) co.
Variable cj : triple -> nat -> R.
Notation ctx := (ctx ieq L Rr A B co cj).
Notation good := (good ieq L Rr A B co).
Notation do_contract := (do_contract r0 r1 radd rmul is0 bs).

Lemma stored_any (S : list R) : length S = ntot -> stored N (mkQD co S).
Proof. intros H. split; cbn [offs store]; [rewrite H; exact HF|exact HS]. Qed.

Lemma do_local t : good t -> exists p o F, nth_error co p = Some (snd t, o) /\ keeps F /\
  forall st, do_contract ctx st t = local_step o p (sz N (snd t)) F st.
Proof.
  intros (a & b & -> & Ha & Hb & HM & Hc). cbn [snd].
  pose proof (ofs_in bs L A a HA Ha) as HaI. pose proof (ofs_in bs Rr B b HB Hb) as HbI.
  destruct (stored_bound bs _ _ _ _ HA HaI) as [Va LA]. destruct (stored_bound bs _ _ _ _ HB HbI) as [Vb LB].
  pose proof (cblock_valid ieq ieq_spec bs L Rr NL NR a b Va Vb) as Vc. fold N in Vc.
  apply in_fst in Hc as (o & Hc).
  set (dC := mkQD co (repeat r0 ntot) : qd R). pose proof (stored_any (repeat r0 ntot) (repeat_length _ _)) as SC. fold dC in SC.
  destruct (offsetOf_in (map nblocks N) co (stored_valid bs N dC SC) (proj2 SC) (cblock ieq L Rr a b) Vc o Hc) as (_ & p & Ep & Np).
  exists p, o.
  assert (EC : forall S : list R, getBlock (mkQD co S : qd R) (cblock ieq L Rr a b) = Ok (Some o)).
  { intros S. pose proof (getBlock_in' bs N dC _ o SC Hc) as K. unfold getBlock in *. exact K. }
  assert (D1 : exists da, bdims bs L a = Ok da /\ prod da = sz L a).
  { pose proof (bsize_spec bs L a Va) as K. unfold bsize, omap in K. destruct (bdims bs L a) as [da| |]; try discriminate. injection K as K. eauto. }
  assert (D2 : exists da, bdims bs Rr b = Ok da /\ prod da = sz Rr b).
  { pose proof (bsize_spec bs Rr b Vb) as K. unfold bsize, omap in K. destruct (bdims bs Rr b) as [da| |]; try discriminate. injection K as K. eauto. }
  assert (D3 : exists da, bdims bs N (cblock ieq L Rr a b) = Ok da /\ prod da = sz N (cblock ieq L Rr a b)).
  { pose proof (bsize_spec bs N _ Vc) as K. unfold bsize, omap in K. destruct (bdims bs N _) as [da| |]; try discriminate. injection K as K. eauto. }
  destruct D1 as (da & D1 & P1), D2 as (db & D2 & P2), D3 as (dc & D3 & P3).
  exists (fun sc beta => contract r0 radd rmul is0 (range_init da) (firstn (prod da) (skipn (ofs A a) (store A))) (map (glab ieq L Rr) L)
     (range_init db) (firstn (prod db) (skipn (ofs B b) (store B))) (map (glab ieq L Rr) Rr) (range_init dc) sc (map (glab ieq L Rr) N) r1 beta (cj (a, b, cblock ieq L Rr a b))).
  split; [exact Np|]. split; [intros sc beta sc' E; eapply contract_length; exact E|].
  intros st. unfold QdModel.do_contract. cbn [cA cB cLis cRis cNis cLind cRind cCind cOffs cjunk QdLoop.ctx]. fold N.
  rewrite (getBlock_in' bs L A a _ HA HaI). cbn [obind]. rewrite (getBlock_in' bs Rr B b _ HB HbI). cbn [obind].
  rewrite EC. cbn [obind]. rewrite Ep. cbn [obind]. rewrite D1, D2, D3. cbn [obind].
  rewrite !(segment_ok (ofs A a)) by lia. rewrite !(segment_ok (ofs B b)) by lia. cbn [obind]. rewrite P3. reflexivity.
Qed.

Lemma swap_good t u st st1 st2 : good t -> good u -> snd t <> snd u ->
  do_contract ctx st t = Ok st1 -> do_contract ctx st1 u = Ok st2 ->
  exists st', do_contract ctx st u = Ok st' /\ do_contract ctx st' t = Ok st2.
Proof.
  intros Gt Gu NE E1 E2. destruct (do_local t Gt) as (p & o & F & Hp & KF & HD). destruct (do_local u Gu) as (q & o' & F' & Hq & KF' & HD').
  rewrite HD in E1. rewrite HD' in E2.
  assert (NPQ : p <> q) by (intros <-; apply NE; pose proof (eq_trans (eq_sym Hp) Hq) as Q; injection Q as Q _; exact Q).
  destruct (commute o p (sz N (snd t)) F o' q (sz N (snd u)) F' st st1 st2 KF KF' NPQ) as (st' & K1 & K2); auto.
  - destruct (Nat.lt_ge_cases p q) as [H|H].
    + left. apply (filled_disjoint N co 0 ntot p q _ _ _ _ HF Hp Hq H).
    + right. apply (filled_disjoint N co 0 ntot q p _ _ _ _ HF Hq Hp). lia.
  - exists st'. rewrite HD', HD. auto.
Qed.

Notation loop := (loop_serial r0 r1 radd rmul is0 bs ctx).
Lemma move_front t : good t -> forall pre ys st st', Forall good pre -> (forall u, In u pre -> snd u <> snd t) ->
  loop (t :: pre ++ ys) st = Ok st' -> loop (pre ++ t :: ys) st = Ok st'.
Proof.
  intros Gt. induction pre as [|u pre IH]; intros ys st st' HG HN E; auto. cbn [app loop_serial] in *.
  inversion HG as [|? ? Gu HG']; subst. apply obind_ok in E as (s1 & E1 & E). apply obind_ok in E as (s2 & E2 & E).
  destruct (swap_good t u st s1 s2 Gt Gu) as (s3 & K1 & K2); auto. { intros Q. apply (HN u); [left; auto|auto]. }
  rewrite K1. cbn [obind]. apply IH; auto. { intros v Hv. apply HN. right; auto. }
  cbn [loop_serial]. rewrite K2. exact E.
Qed.

(** every interleaving that completes gives what running the tasks one after another gives *)
Definition separate (tasks : list (list triple)) : Prop :=
  forall i j g h t u, nth_error tasks i = Some g -> nth_error tasks j = Some h -> i <> j -> In t g -> In u h -> snd t <> snd u.
Lemma separate_tail pre t ts post : separate (pre ++ (t :: ts) :: post) -> separate (pre ++ ts :: post).
Proof.
  intros H i j g h a b Hi Hj Hij Ha Hb.
  assert (G : forall k g a, nth_error (pre ++ ts :: post) k = Some g -> In a g -> exists g', nth_error (pre ++ (t :: ts) :: post) k = Some g' /\ In a g').
  { intros k g0 a0 Hk Ha0. destruct (Nat.lt_ge_cases k (length pre)) as [Hl|Hl].
    - rewrite nth_error_app1 in Hk by auto. exists g0. rewrite nth_error_app1 by auto. auto.
    - rewrite nth_error_app2 in Hk by auto. rewrite nth_error_app2 by auto. destruct (k - length pre) as [|m]; cbn [nth_error] in *; [|eauto].
      injection Hk as <-. exists (t :: ts). split; auto. right; auto. }
  destruct (G i g a Hi Ha) as (g' & Hi' & Ha'). destruct (G j h b Hj Hb) as (h' & Hj' & Hb'). apply (H i j g' h' a b); auto.
Qed.
Lemma par_serial tasks st o : par r0 r1 radd rmul is0 bs ctx tasks st o -> Forall good (concat tasks) -> separate tasks ->
  forall st', o = Ok st' -> loop (concat tasks) st = Ok st'.
Proof.
  induction 1 as [ts st HE|pre t ts post st st1 o Hd _ IH|pre t ts post st Hd|pre t ts post st Hd]; intros HG HSep st' EO; try discriminate.
  - injection EO as <-. assert (E : concat ts = []). { clear -HE. induction HE as [|x l Hx HE IH]; cbn; auto. rewrite Hx. exact IH. }
    rewrite E. reflexivity.
  - rewrite concat_app in *. cbn [concat app] in *. apply Forall_app in HG as [G1 G2]. inversion G2 as [|? ? Gt G3]; subst.
    apply move_front; auto.
    + intros u Hu. apply in_concat in Hu as (g & Hg & Hu). destruct (In_nth_error _ _ Hg) as (i & Hi).
      intros Q. symmetry in Q. revert Q. apply (HSep (length pre) i (t :: ts) g t u); [| | |left; auto|exact Hu].
      * rewrite nth_error_app2, Nat.sub_diag by lia. reflexivity.
      * rewrite nth_error_app1; [exact Hi|]. eapply nth_lt; exact Hi.
      * pose proof (nth_lt _ _ _ Hi). lia.
    + cbn [loop_serial]. rewrite Hd. cbn [obind].
      apply IH; auto.
      * apply Forall_app. split; auto.
      * eapply separate_tail; exact HSep.
Qed.
End Two.
End Local.
