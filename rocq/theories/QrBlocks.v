(** A block matrix decomposed block by block: the columns of Q and the rows of R put together. *)
From Coq Require Import List ZArith Arith Lia Ring Bool Permutation.
From Verif Require Import Util TensorModel TensorSpec TensorProofs QnModel QdModel QdSpec QdProofs QdAdd QdSum QCombProofs SvdModel SvdSpec SvdRank SvdMat SvdFactor SvdQn QrSpec QrModel QrMat QrFactor.
Import ListNotations.
Local Arguments Nat.sub : simpl never.
Local Arguments Nat.div : simpl never.
Local Arguments Nat.modulo : simpl never.

(** The row blocks without a block, and those with one, are all of them. *)
Lemma split_rows {A} (f : A -> nat) (bl : list A) n : NoDup (map f bl) -> (forall b, In b bl -> f b < n) ->
  Permutation (seq 0 n) (map f bl ++ filter (fun i => negb (existsb (fun b => f b =? i) bl)) (seq 0 n)).
Proof.
  intros ND Hb. apply NoDup_Permutation; [apply seq_NoDup| |].
  - apply NoDup_app_intro; [exact ND|apply NoDup_filter, seq_NoDup|]. intros x K1 K2. apply filter_In in K2 as [_ K2]. apply in_map_iff in K1 as (b & <- & K1).
    assert (existsb (fun b0 => f b0 =? f b) bl = true) by (apply existsb_exists; exists b; split; [exact K1|apply Nat.eqb_refl]). rewrite H in K2. discriminate.
  - intros x. rewrite in_app_iff, filter_In, in_seq, in_map_iff. split.
    + intros H. destruct (existsb (fun b => f b =? x) bl) eqn:E; [left|right; auto]. apply existsb_exists in E as (b & Hin & E). apply Nat.eqb_eq in E. eauto.
    + intros [(b & <- & H)|[H _]]; [|exact H]. specialize (Hb b H). lia.
Qed.
Lemma start_S l i : i < length l -> start l (S i) = start l i + nth i l 0.
Proof. revert i. induction l as [|n l IH]; intros i Hi; cbn in Hi; [lia|]. destruct i as [|i]; rewrite start_cons; [cbn; lia|]. rewrite start_cons, IH by lia. cbn [nth]. lia. Qed.
Lemma start_le l : forall i j, i <= j -> j <= length l -> start l i <= start l j.
Proof. intros i j H. induction H as [|j H IH]; intros Hj; [lia|]. rewrite start_S by lia. specialize (IH ltac:(lia)). lia. Qed.

Section Blocks.
Context {R : Type} (r0 r1 : R) (radd rmul rsub : R -> R -> R) (ropp : R -> R).
Context (RT : ring_theory r0 r1 radd rmul rsub ropp eq).
Add Ring RRqb : RT.
Context (conj : R -> R) (HC : conjugation radd rmul conj) (neg : R -> bool).
Hypothesis neg_opp : forall x, neg x = true -> neg (ropp x) = false.
Notation sum := (sum_below r0 radd).
Notation kron := (kron r0 r1).
Notation cm := (cm r0).
Notation qblock := (@qblock R).
Notation onb := (onb r0).
Notation qr_mat := (qr_mat r0 r1 radd rmul conj).
Notation qrm := (qrm r0 r1 radd rmul conj neg).
Notation inner := (inner r0 radd rmul conj).
Notation lsum := (fold_right radd r0).
Notation ident := (ident r0 r1).

Lemma conj1 : conj r1 = r1.
Proof.
  destruct HC as (_ & HM & HI). transitivity (rmul (conj r1) (conj (conj r1))); [rewrite HI; ring|]. rewrite <- HM. transitivity (conj (conj r1)); [f_equal; ring|apply HI].
Qed.
Lemma sum_nth_list {A} (F : A -> R) z l : sum (length l) (fun j => F (nth j l z)) = lsum (map F l).
Proof.
  rewrite (sum_list r0 r1 radd rmul rsub ropp RT). f_equal. rewrite <- (map_map (fun j => nth j l z) F). f_equal.
  apply nth_ext with (d := z) (d' := z); [now rewrite map_length, seq_length|]. intros n Hn. rewrite map_length, seq_length in Hn.
  rewrite (nth_indep _ z ((fun j => nth j l z) 0)) by (now rewrite map_length, seq_length). rewrite (map_nth (fun j => nth j l z)), seq_nth by exact Hn. reflexivity.
Qed.
Lemma lsum_app l l' : lsum (l ++ l') = radd (lsum l) (lsum l').
Proof. induction l as [|x l IH]; cbn [app fold_right]; [ring|]. rewrite IH. ring. Qed.
Lemma lsum_add {A} (F G : A -> R) l : lsum (map (fun x => radd (F x) (G x)) l) = radd (lsum (map F l)) (lsum (map G l)).
Proof. induction l as [|x l IH]; cbn [map fold_right]; [ring|]. rewrite IH. ring. Qed.
Lemma lsum_filter {A} (F : A -> R) p l : (forall x, In x l -> p x = false -> F x = r0) -> lsum (map F (filter p l)) = lsum (map F l).
Proof.
  induction l as [|x l IH]; intros H; [reflexivity|]. cbn [filter map fold_right]. specialize (IH (fun y Hy => H y (or_intror Hy))). destruct (p x) eqn:E; cbn [map fold_right]; rewrite IH; [reflexivity|].
  rewrite (H x (or_introl eq_refl) E). ring.
Qed.
Lemma lsum_one n i f : i < n -> lsum (map (fun j => if j =? i then f else r0) (seq 0 n)) = f.
Proof.
  intros Hi. rewrite <- (sum_list r0 r1 radd rmul rsub ropp RT). revert Hi. induction n as [|n IH]; intros Hi; [lia|]. cbn [sum_below]. destruct (Nat.eqb_spec n i) as [->|Ne].
  - rewrite (sum_zero r0 r1 radd rmul rsub ropp RT); [ring|]. intros j Hj. destruct (Nat.eqb_spec j i); [lia|reflexivity].
  - rewrite IH by lia. ring.
Qed.
Lemma sum_one n i F : i < n -> (forall j, j < n -> j <> i -> F j = r0) -> sum n F = F i.
Proof.
  intros Hi H. transitivity (sum n (fun j => if j =? i then F i else r0)).
  - apply sum_ext. intros j Hj. destruct (Nat.eqb_spec j i) as [->|Ne]; auto.
  - rewrite (sum_list r0 r1 radd rmul rsub ropp RT). now apply lsum_one.
Qed.
Lemma sum_split a b F : sum (a + b) F = radd (sum a F) (sum b (fun j => F (a + j))).
Proof. induction b as [|b IH]; [rewrite Nat.add_0_r; cbn; ring|]. rewrite Nat.add_succ_r. cbn [sum_below]. rewrite IH. ring. Qed.
Lemma sum_sumn n F : sum n F = sumn r0 radd n F.
Proof. induction n as [|n IH]; cbn; [reflexivity|now rewrite IH]. Qed.
Lemma sum_blocks l F : sum (list_sum l) F = sum (length l) (fun j => sum (nth j l 0) (fun q => F (start l j + q))).
Proof.
  rewrite sum_sumn. etransitivity; [apply (sumn_blocks r0 r1 radd rmul (SRof r0 r1 radd rmul rsub ropp RT) l)|].
  rewrite <- sum_sumn. apply sum_ext. intros j _. symmetry. apply sum_sumn.
Qed.

Context (bu bv : list nat) (bl : list qblock) (srt : list nat) (complete positive : bool) (A2 : nat -> nat -> R).
Definition bok (b : qblock) : Prop :=
  qb_i1 b < length bu /\ qb_i2 b < length bv /\ qb_m b = nth (qb_i1 b) bu 0 /\ qb_n b = nth (qb_i2 b) bv 0 /\ 0 < qb_m b /\ 0 < qb_n b /\
  qb_k b = qr_rows complete (qb_m b) (qb_n b) /\
  qr_mat (qb_m b) (qb_n b) (qb_k b) (fun i j => A2 (start bu (qb_i1 b) + i) (start bv (qb_i2 b) + j)) (qb_q b) (qb_r b) /\
  (positive = true -> forall i, i < qb_k b -> i < qb_n b -> neg (cm (qb_k b) (qb_r b) i i) = false).
Definition zq : qblock := QB 0 0 0 0 [] [] 0.
Notation nb := (length bl).
Hypothesis HB : forall b, In b bl -> bok b.
Hypothesis HZ : forall u v, u < list_sum bu -> v < list_sum bv -> (forall b, In b bl -> qb_i1 b <> blk bu u \/ qb_i2 b <> blk bv v) -> A2 u v = r0.
Hypothesis N1 : NoDup (map (@qb_i1 R) bl).
Hypothesis N2 : NoDup (map (@qb_i2 R) bl).
Hypothesis Psrt : Permutation srt (seq 0 nb).
Definition bat (j : nat) : qblock := nth (nth j srt 0) bl zq.
Hypothesis Hinc : forall j j', j < j' -> j' < nb -> qb_i2 (bat j) < qb_i2 (bat j').
Hypothesis Hbu : forall n, In n bu -> 0 < n.

Lemma rr_min b : bok b -> qb_rr b = Nat.min (qb_m b) (qb_n b) /\ qb_rr b <= qb_k b /\ qb_k b <= qb_m b /\ (complete = true -> qb_k b = qb_m b) /\ forall r, qb_rr b <= r -> r < qb_k b -> qb_n b <= r.
Proof.
  intros (_ & _ & _ & _ & _ & _ & E & _). unfold qb_rr. rewrite E. unfold qr_rows. destruct (Nat.ltb_spec (qb_m b) (qb_n b)); [repeat split; auto; intros; lia|].
  destruct complete; repeat split; auto; try discriminate; intros; lia.
Qed.
Lemma srt_lt j : j < nb -> nth j srt 0 < nb.
Proof.
  intros H. assert (K : In (nth j srt 0) srt) by (apply nth_In; rewrite (Permutation_length Psrt), seq_length; exact H). apply (Permutation_in _ Psrt), in_seq in K. lia.
Qed.
Lemma bat_in j : j < nb -> In (bat j) bl.
Proof. intros H. apply nth_In, srt_lt, H. Qed.
Lemma srt_len : length srt = nb.
Proof. rewrite (Permutation_length Psrt), seq_length. reflexivity. Qed.
Lemma srt_inj j j' : j < nb -> j' < nb -> nth j srt 0 = nth j' srt 0 -> j = j'.
Proof. intros H H' E. assert (ND : NoDup srt) by (eapply Permutation_NoDup; [symmetry; exact Psrt|apply seq_NoDup]). rewrite (NoDup_nth _ 0) in ND. apply ND; rewrite ?srt_len; auto. Qed.
Lemma srt_onto n : n < nb -> exists j, j < nb /\ nth j srt 0 = n.
Proof. intros H. assert (K : In n srt) by (apply (Permutation_in _ (Permutation_sym Psrt)), in_seq; lia). apply (In_nth _ _ 0) in K as (j & Hj & E). rewrite srt_len in Hj. eauto. Qed.
Lemma i1_inj b b' : In b bl -> In b' bl -> qb_i1 b = qb_i1 b' -> b = b'.
Proof.
  intros H H' E. apply (In_nth _ _ zq) in H as (n & Hn & <-). apply (In_nth _ _ zq) in H' as (n' & Hn' & <-). assert (n = n'); [|now subst].
  rewrite (NoDup_nth _ (qb_i1 zq)) in N1. rewrite map_length in N1. apply N1; auto. now rewrite !map_nth.
Qed.
Lemma bat_inj j j' : j < nb -> j' < nb -> bat j = bat j' -> j = j'.
Proof.
  intros H H' E. apply srt_inj; auto. rewrite (NoDup_nth _ (qb_i1 zq)) in N1. rewrite map_length in N1. apply N1; [now apply srt_lt|now apply srt_lt|]. rewrite !map_nth. fold (bat j) (bat j'). now rewrite E.
Qed.
Lemma bat_onto b : In b bl -> exists j, j < nb /\ bat j = b.
Proof. intros H. apply (In_nth _ _ zq) in H as (n & Hn & <-). destruct (srt_onto n Hn) as (j & Hj & E). exists j. split; [exact Hj|]. unfold bat. now rewrite E. Qed.

(** The column blocks of Q: row block, number of columns, and the first of them. *)
Notation ci c := (fst (fst c)).
Notation cs c := (snd (fst c)).
Notation co c := (snd c).
Definition cmain (b : qblock) : nat * nat * nat := (qb_i1 b, qb_rr b, 0).
Definition cfill (b : qblock) : nat * nat * nat := (qb_i1 b, qb_m b - qb_n b, qb_rr b).
Definition czero (i : nat) : nat * nat * nat := (i, nth i bu 0, 0).
Definition zs : list nat := filter (fun i => negb (existsb (fun b => qb_i1 b =? i) bl)) (seq 0 (length bu)).
Definition fs : list qblock := filter (fun b => 0 <? qb_m b - qb_n b) bl.
Definition cols : list (nat * nat * nat) :=
  map (fun n => cmain (nth n bl zq)) srt ++ (if complete then map cfill fs ++ map czero zs else []).
Definition bsl : list nat := map (fun c => cs c) cols.
(** The orthonormal columns the column blocks of row block i are taken from. *)
Definition base (i : nat) : list R := match find (fun b => qb_i1 b =? i) bl with Some b => qb_q b | None => ident (nth i bu 0) end.
Definition kk (i : nat) : nat := match find (fun b => qb_i1 b =? i) bl with Some b => qb_k b | None => nth i bu 0 end.
Lemma find_b b : In b bl -> find (fun b' => qb_i1 b' =? qb_i1 b) bl = Some b.
Proof.
  intros H. destruct (find (fun b' => qb_i1 b' =? qb_i1 b) bl) as [b'|] eqn:E.
  - apply find_some in E as [E1 E2]. apply Nat.eqb_eq in E2. f_equal. now apply i1_inj.
  - apply (find_none _ _ E) in H. rewrite Nat.eqb_refl in H. discriminate.
Qed.
Lemma zs_in i : In i zs <-> i < length bu /\ forall b, In b bl -> qb_i1 b <> i.
Proof.
  unfold zs. rewrite filter_In, in_seq. split.
  - intros [H K]. split; [lia|]. intros b Hb E. assert (existsb (fun b => qb_i1 b =? i) bl = true) by (apply existsb_exists; exists b; split; [exact Hb|now apply Nat.eqb_eq]). rewrite H0 in K. discriminate.
  - intros [H K]. split; [lia|]. destruct (existsb _ bl) eqn:E; [|reflexivity]. apply existsb_exists in E as (b & Hb & E). apply Nat.eqb_eq in E. now apply K in Hb.
Qed.
Lemma find_z i : In i zs -> find (fun b' => qb_i1 b' =? i) bl = None.
Proof.
  intros H. apply zs_in in H as [_ H]. destruct (find _ bl) as [b'|] eqn:E; [|reflexivity]. apply find_some in E as [E1 E2]. apply Nat.eqb_eq in E2. now apply H in E1.
Qed.
Lemma len_c1 : length (map (fun n => cmain (nth n bl zq)) srt) = nb.
Proof. rewrite map_length. apply srt_len. Qed.
Lemma cols_main j : j < nb -> nth j cols (0, 0, 0) = cmain (bat j).
Proof.
  intros H. unfold cols. rewrite app_nth1 by (rewrite len_c1; exact H).
  rewrite (nth_indep _ _ (cmain (nth 0 bl zq))) by (rewrite len_c1; exact H). apply (map_nth (fun n => cmain (nth n bl zq))).
Qed.
Lemma cols_in c : In c cols -> (exists b, In b bl /\ c = cmain b) \/ (complete = true /\ exists b, In b bl /\ qb_n b < qb_m b /\ c = cfill b) \/ (complete = true /\ exists i, In i zs /\ c = czero i).
Proof.
  unfold cols. rewrite in_app_iff. intros [H|H].
  - left. apply in_map_iff in H as (n & <- & H). exists (nth n bl zq). split; [|reflexivity]. apply nth_In. apply (Permutation_in _ Psrt), in_seq in H. lia.
  - right. destruct complete; [|destruct H]. apply in_app_or in H as [H|H]; [left|right]; (split; [reflexivity|]).
    + apply in_map_iff in H as (b & <- & H). unfold fs in H. apply filter_In in H as [H K]. apply Nat.ltb_lt in K. exists b. split; [exact H|]. split; [lia|reflexivity].
    + apply in_map_iff in H as (i & <- & H). eauto.
Qed.
Lemma cols_ok c : In c cols -> ci c < length bu /\ 0 < cs c /\ co c + cs c <= kk (ci c).
Proof.
  intros H. apply cols_in in H as [(b & Hb & ->)|[(Hc & b & Hb & Hn & ->)|(Hc & i & Hi & ->)]]; cbn [fst snd cmain cfill czero].
  - pose proof (rr_min b (HB b Hb)) as (E1 & E2 & E3 & _). destruct (HB b Hb) as (K1 & _ & _ & _ & P1 & P2 & _). unfold kk. rewrite (find_b b Hb). split; [exact K1|]. lia.
  - pose proof (rr_min b (HB b Hb)) as (E1 & E2 & E3 & E4 & _). destruct (HB b Hb) as (K1 & _ & _ & _ & P1 & P2 & _). unfold kk. rewrite (find_b b Hb). split; [exact K1|]. rewrite (E4 Hc). lia.
  - unfold kk. rewrite (find_z i Hi). apply zs_in in Hi as [Hi _]. split; [exact Hi|]. split; [|lia]. apply Hbu, nth_In, Hi.
Qed.
(** Two column blocks of the same row block hold different columns. *)
Lemma cols_disj j j' : j < j' -> j' < length cols -> ci (nth j cols (0, 0, 0)) = ci (nth j' cols (0, 0, 0)) ->
  co (nth j cols (0, 0, 0)) + cs (nth j cols (0, 0, 0)) <= co (nth j' cols (0, 0, 0)).
Proof.
  intros Hl Hj' E. assert (CD : (forall i, In i zs -> forall b, In b bl -> qb_i1 b <> i)) by (intros i Hi; now apply zs_in).
  assert (FS : forall b, In b fs -> In b bl) by (intros b Hb; unfold fs in Hb; now apply filter_In in Hb).
  assert (NF : NoDup (map (@qb_i1 R) fs)).
  { unfold fs. clear -N1. induction bl as [|b l IH]; [constructor|]. cbn [map filter] in *. inversion N1; subst. destruct (0 <? _); cbn [map]; auto. constructor; auto. intros K. apply H1. apply in_map_iff in K as (y & <- & K). apply filter_In in K as [K _]. now apply in_map. }
  assert (NZ : NoDup zs) by (apply NoDup_filter, seq_NoDup).
  destruct (Nat.lt_ge_cases j' nb) as [H1|H1].
  { rewrite !cols_main in E by lia. cbn [fst snd cmain] in E. apply i1_inj in E; [|apply bat_in; lia|now apply bat_in]. apply bat_inj in E; lia. }
  assert (LC : length cols = nb + length (if complete then map cfill fs ++ map czero zs else [])) by (unfold cols; rewrite app_length, len_c1; reflexivity).
  assert (NJ : forall i, nb <= i -> nth i cols (0, 0, 0) = nth (i - nb) (if complete then map cfill fs ++ map czero zs else []) (0, 0, 0)).
  { intros i Hi. unfold cols. rewrite app_nth2 by (rewrite len_c1; exact Hi). now rewrite len_c1. }
  destruct complete eqn:EC; [|cbn in LC; lia]. rewrite app_length, !map_length in LC.
  assert (NF' : forall i, i < length fs -> nth i (map cfill fs ++ map czero zs) (0, 0, 0) = cfill (nth i fs zq)).
  { intros i Hi. rewrite app_nth1 by (now rewrite map_length). rewrite (nth_indep _ _ (cfill zq)) by (now rewrite map_length). apply map_nth. }
  assert (NZ' : forall i, length fs <= i -> i < length fs + length zs -> nth i (map cfill fs ++ map czero zs) (0, 0, 0) = czero (nth (i - length fs) zs 0)).
  { intros i Hi Hi'. rewrite app_nth2 by (now rewrite map_length). rewrite map_length. rewrite (nth_indep _ _ (czero 0)) by (rewrite map_length; lia). apply map_nth. }
  destruct (Nat.lt_ge_cases j nb) as [H2|H2].
  - rewrite cols_main in E |- * by exact H2. rewrite NJ in E |- * by exact H1. destruct (Nat.lt_ge_cases (j' - nb) (length fs)) as [K|K].
    + rewrite NF' in E |- * by exact K. cbn [fst snd cmain cfill] in *. assert (In (nth (j' - nb) fs zq) bl) by (apply FS, nth_In, K).
      apply i1_inj in E; [|now apply bat_in|assumption]. rewrite E. lia.
    + rewrite NZ' in E by lia. cbn [fst snd cmain czero] in *. exfalso. eapply CD; [|exact (bat_in j H2)|exact E]. apply nth_In. lia.
  - rewrite !NJ in E |- * by lia. destruct (Nat.lt_ge_cases (j' - nb) (length fs)) as [K|K].
    + rewrite !NF' in E by lia. cbn [fst snd cfill] in E. rewrite (NoDup_nth _ (qb_i1 zq)) in NF. rewrite map_length in NF. specialize (NF (j - nb) (j' - nb) ltac:(lia) K). rewrite !map_nth in NF. specialize (NF E). lia.
    + rewrite (NZ' (j' - nb)) in E by lia. cbn [fst snd czero] in E. destruct (Nat.lt_ge_cases (j - nb) (length fs)) as [K2|K2].
      * rewrite NF' in E by lia. cbn [fst snd cfill] in E. exfalso. eapply CD; [|apply FS, nth_In, K2|exact E]. apply nth_In. lia.
      * rewrite NZ' in E by lia. cbn [fst snd czero] in E. rewrite (NoDup_nth _ 0) in NZ. specialize (NZ (j - nb - length fs) (j' - nb - length fs) ltac:(lia) ltac:(lia) E). lia.
Qed.

(** The factors put together. *)
Definition Q2 (u x : nat) : R :=
  let c := nth (blk bsl x) cols (0, 0, 0) in onb bu (ci c) (fun i => cm (nth (ci c) bu 0) (base (ci c)) i (co c + pos bsl x)) u.
Definition R2 (x v : nat) : R :=
  if blk bsl x <? nb then let b := bat (blk bsl x) in onb bv (qb_i2 b) (fun q => cm (qb_k b) (qb_r b) (pos bsl x) q) v else r0.
Lemma bsl_len : length bsl = length cols.
Proof. apply map_length. Qed.
Lemma bsl_nth j : nth j bsl 0 = cs (nth j cols (0, 0, 0)).
Proof. unfold bsl. change 0 with ((fun c : nat * nat * nat => snd (fst c)) (0, 0, 0)) at 1. apply (map_nth (fun c : nat * nat * nat => snd (fst c))). Qed.
Lemma at_block x : x < list_sum bsl -> let j := blk bsl x in j < length cols /\ pos bsl x < cs (nth j cols (0, 0, 0)) /\ x = start bsl j + pos bsl x.
Proof.
  intros H j. destruct (blk_lt bsl x H) as [H1 H2]. rewrite bsl_len in H1. rewrite bsl_nth in H2. split; [exact H1|]. split; [exact H2|]. apply glue_blk.
Qed.
Lemma of_block j q : j < length cols -> q < cs (nth j cols (0, 0, 0)) -> blk bsl (start bsl j + q) = j /\ pos bsl (start bsl j + q) = q /\ start bsl j + q < list_sum bsl.
Proof. intros Hj Hq. apply blk_glue; [now rewrite bsl_len|now rewrite bsl_nth]. Qed.
Lemma base_ortho i r r' : i < length bu -> r < kk i -> r' < kk i -> inner (nth i bu 0) (fun a => cm (nth i bu 0) (base i) a r) (fun a => cm (nth i bu 0) (base i) a r') = kron r r'.
Proof.
  intros Hi Hr Hr'. unfold kk, base in *. destruct (find (fun b' => qb_i1 b' =? i) bl) as [b|] eqn:E.
  - apply find_some in E as [Hb E]. apply Nat.eqb_eq in E. subst i. destruct (HB b Hb) as (_ & _ & EM & _ & _ & _ & _ & (_ & _ & _ & HI & _) & _). rewrite <- EM. now apply HI.
  - unfold inner. set (m := nth i bu 0) in *. assert (EI : forall a b, a < m -> b < m -> cm m (ident m) a b = kron a b).
    { intros a b Ha Hb. unfold QrModel.ident. rewrite (cm_map r0) by auto. rewrite mod_cm, div_cm by exact Ha. unfold SvdSpec.kron. reflexivity. }
    transitivity (sum m (fun a => rmul (kron a r) (kron a r'))).
    + apply sum_ext. intros a Ha. rewrite !EI by auto. f_equal. unfold SvdSpec.kron. destruct (a =? r); [apply conj1|apply (conj0 r0 r1 radd rmul rsub ropp RT conj HC)].
    + rewrite (sum_one m r) by (auto; intros a Ha Hn; unfold SvdSpec.kron; apply Nat.eqb_neq in Hn; rewrite Hn; ring). unfold SvdSpec.kron. rewrite Nat.eqb_refl. ring.
Qed.

Lemma iso2 x x' : x < list_sum bsl -> x' < list_sum bsl -> sum (list_sum bu) (fun u => rmul (conj (Q2 u x)) (Q2 u x')) = kron x x'.
Proof.
  intros Hx Hx'. destruct (at_block x Hx) as (J1 & J2 & J3). destruct (at_block x' Hx') as (J1' & J2' & J3').
  set (j := blk bsl x) in *. set (j' := blk bsl x') in *. pose proof (cols_ok _ (nth_In cols (0, 0, 0) J1)) as (O1 & O2 & O3). pose proof (cols_ok _ (nth_In cols (0, 0, 0) J1')) as (O1' & O2' & O3').
  unfold Q2. fold j j'. set (c := nth j cols (0, 0, 0)) in *. set (c' := nth j' cols (0, 0, 0)) in *.
  destruct (Nat.eq_dec (ci c) (ci c')) as [E|E].
  - rewrite <- E in *. change (inner (list_sum bu) (onb bu (ci c) (fun i => cm (nth (ci c) bu 0) (base (ci c)) i (co c + pos bsl x))) (onb bu (ci c) (fun i => cm (nth (ci c) bu 0) (base (ci c)) i (co c' + pos bsl x'))) = kron x x').
    rewrite (inner_onb r0 r1 radd rmul rsub ropp RT conj _ (ci c)) by exact O1. rewrite base_ortho by (auto; lia). unfold SvdSpec.kron.
    destruct (Nat.lt_total j j') as [L|[L|L]].
    + pose proof (cols_disj j j' L J1' E) as K. fold c c' in K. destruct (Nat.eqb_spec (co c + pos bsl x) (co c' + pos bsl x')); [lia|]. destruct (Nat.eqb_spec x x') as [Q|]; [|reflexivity]. subst x'. unfold j, j' in L. lia.
    + assert (c = c') by (unfold c, c'; now rewrite L). rewrite <- H in *. destruct (Nat.eqb_spec (co c + pos bsl x) (co c + pos bsl x')) as [Q|Q]; destruct (Nat.eqb_spec x x') as [Q'|Q']; auto; exfalso; rewrite L in J3; lia.
    + pose proof (cols_disj j' j L J1 (eq_sym E)) as K. fold c c' in K. destruct (Nat.eqb_spec (co c + pos bsl x) (co c' + pos bsl x')); [lia|]. destruct (Nat.eqb_spec x x') as [Q|]; [|reflexivity]. subst x'. unfold j, j' in L. lia.
  - rewrite (sum_zero r0 r1 radd rmul rsub ropp RT).
    + unfold SvdSpec.kron. destruct (Nat.eqb_spec x x') as [Q|]; [|reflexivity]. subst x'. exfalso. apply E. reflexivity.
    + intros u Hu. unfold SvdQn.onb. destruct (Nat.eqb_spec (blk bu u) (ci c)) as [E1|E1]; destruct (Nat.eqb_spec (blk bu u) (ci c')) as [E2|E2]; try (now subst); rewrite ?(conj0 r0 r1 radd rmul rsub ropp RT conj HC); try ring. congruence.
Qed.

Lemma R2_block j q v : j < nb -> q < cs (nth j cols (0, 0, 0)) -> R2 (start bsl j + q) v = onb bv (qb_i2 (bat j)) (fun q' => cm (qb_k (bat j)) (qb_r (bat j)) q q') v.
Proof.
  intros Hj Hq. assert (HL : j < length cols) by (unfold cols; rewrite app_length, len_c1; lia). destruct (of_block j q HL Hq) as (E1 & E2 & _). unfold R2. rewrite E1, E2. destruct (Nat.ltb_spec j nb); [reflexivity|lia].
Qed.
Lemma Q2_block j q u : j < length cols -> q < cs (nth j cols (0, 0, 0)) -> let c := nth j cols (0, 0, 0) in
  Q2 u (start bsl j + q) = onb bu (ci c) (fun i => cm (nth (ci c) bu 0) (base (ci c)) i (co c + q)) u.
Proof. intros HL Hq. destruct (of_block j q HL Hq) as (E1 & E2 & _). unfold Q2. rewrite E1, E2. reflexivity. Qed.
Lemma base_b b : In b bl -> base (qb_i1 b) = qb_q b.
Proof. intros H. unfold base. now rewrite (find_b b H). Qed.

Lemma prod2 u v : u < list_sum bu -> v < list_sum bv -> A2 u v = sum (list_sum bsl) (fun x => rmul (Q2 u x) (R2 x v)).
Proof.
  intros Hu Hv. rewrite sum_blocks, bsl_len. assert (NC : nb <= length cols) by (unfold cols; rewrite app_length, len_c1; lia).
  assert (HJ : forall j, j < length cols -> nb <= j -> sum (nth j bsl 0) (fun q => rmul (Q2 u (start bsl j + q)) (R2 (start bsl j + q) v)) = r0).
  { intros j Hj Hn. apply (sum_zero r0 r1 radd rmul rsub ropp RT). intros q Hq. rewrite bsl_nth in Hq. destruct (of_block j q Hj Hq) as (E1 & E2 & _). unfold R2. rewrite E1. destruct (Nat.ltb_spec j nb); [lia|]. ring. }
  assert (HO : forall j, j < nb -> (qb_i1 (bat j) <> blk bu u \/ qb_i2 (bat j) <> blk bv v) -> sum (nth j bsl 0) (fun q => rmul (Q2 u (start bsl j + q)) (R2 (start bsl j + q) v)) = r0).
  { intros j Hj Hn. apply (sum_zero r0 r1 radd rmul rsub ropp RT). intros q Hq. rewrite bsl_nth in Hq. rewrite Q2_block, R2_block by (auto; lia). rewrite cols_main by exact Hj. cbn [fst snd cmain]. unfold SvdQn.onb.
    destruct (Nat.eqb_spec (blk bu u) (qb_i1 (bat j))); destruct (Nat.eqb_spec (blk bv v) (qb_i2 (bat j))); try ring. destruct Hn; congruence. }
  destruct (existsb (fun b => (qb_i1 b =? blk bu u) && (qb_i2 b =? blk bv v)) bl) eqn:EX.
  - apply existsb_exists in EX as (b & Hb & EX). apply andb_prop in EX as [E1 E2]. apply Nat.eqb_eq in E1, E2. destruct (bat_onto b Hb) as (j & Hj & Ej).
    rewrite (sum_one _ j); [|lia|].
    + rewrite bsl_nth, cols_main by exact Hj. cbn [fst snd cmain]. rewrite Ej. destruct (HB b Hb) as (K1 & K2 & EM & EN & P1 & P2 & EK & (_ & _ & HP & _ & _ & HU) & _). destruct (rr_min b (HB b Hb)) as (M1 & M2 & M3 & _ & M5).
      destruct (blk_lt bu u Hu) as [_ PU]. destruct (blk_lt bv v Hv) as [_ PV]. rewrite <- E1, <- EM in PU. rewrite <- E2, <- EN in PV.
      transitivity (A2 (start bu (qb_i1 b) + pos bu u) (start bv (qb_i2 b) + pos bv v)); [f_equal; [rewrite E1|rewrite E2]; apply glue_blk|].
      rewrite (HP (pos bu u) (pos bv v) PU PV). replace (qb_k b) with (qb_rr b + (qb_k b - qb_rr b)) at 1 by lia. rewrite sum_split.
      rewrite (sum_zero r0 r1 radd rmul rsub ropp RT (qb_k b - qb_rr b)) by (intros r Hr; rewrite HU by (try lia; pose proof (M5 (qb_rr b + r) ltac:(lia) ltac:(lia)); lia); ring).
      transitivity (sum (qb_rr b) (fun r => rmul (cm (qb_m b) (qb_q b) (pos bu u) r) (cm (qb_k b) (qb_r b) r (pos bv v)))); [ring|]. apply sum_ext. intros q Hq.
      assert (HQ : q < cs (nth j cols (0, 0, 0))) by (rewrite cols_main by exact Hj; cbn [fst snd cmain]; now rewrite Ej).
      rewrite Q2_block, R2_block by (auto; lia). rewrite cols_main by exact Hj. rewrite Ej. cbn [fst snd cmain]. unfold SvdQn.onb. rewrite E1, E2, !Nat.eqb_refl. rewrite <- E1, (base_b b Hb), <- EM. reflexivity.
    + intros j' Hj' Ne. destruct (Nat.lt_ge_cases j' nb) as [L|L]; [|now apply HJ]. apply HO; [exact L|]. left. intros K. apply Ne. apply bat_inj; auto. rewrite Ej. apply i1_inj; [now apply bat_in|exact Hb|]. congruence.
  - assert (NX : forall b, In b bl -> qb_i1 b <> blk bu u \/ qb_i2 b <> blk bv v).
    { intros b Hb. destruct (Nat.eq_dec (qb_i1 b) (blk bu u)) as [E1|E1]; [|now left]. right. intros E2. assert (K : existsb (fun b => (qb_i1 b =? blk bu u) && (qb_i2 b =? blk bv v)) bl = true) by (apply existsb_exists; exists b; split; [exact Hb|]; rewrite E1, E2, !Nat.eqb_refl; reflexivity). congruence. }
    rewrite (HZ u v Hu Hv NX). symmetry. apply (sum_zero r0 r1 radd rmul rsub ropp RT). intros j Hj. destruct (Nat.lt_ge_cases j nb) as [L|L]; [|now apply HJ]. apply HO; [exact L|]. apply NX, bat_in, L.
Qed.

Lemma start_bound j : j < nb -> start bsl j <= start bv (qb_i2 (bat j)).
Proof.
  assert (NC : nb <= length cols) by (unfold cols; rewrite app_length, len_c1; lia).
  induction j as [|j IH]; intros Hj; [unfold start; cbn; lia|]. specialize (IH ltac:(lia)). rewrite start_S by (rewrite bsl_len; lia). rewrite bsl_nth, cols_main by lia. cbn [fst snd cmain].
  pose proof (bat_in j ltac:(lia)) as Hb. destruct (HB _ Hb) as (_ & K2 & _ & EN & _). destruct (rr_min _ (HB _ Hb)) as (M1 & _).
  pose proof (Hinc j (S j) ltac:(lia) Hj) as L. destruct (HB _ (bat_in (S j) Hj)) as (_ & K2' & _).
  pose proof (start_le bv (S (qb_i2 (bat j))) (qb_i2 (bat (S j))) ltac:(lia) ltac:(lia)) as S1. rewrite start_S in S1 by exact K2. rewrite <- EN in S1. lia.
Qed.

Lemma upper2 x v : x < list_sum bsl -> v < list_sum bv -> v < x -> R2 x v = r0.
Proof.
  intros Hx Hv L. destruct (at_block x Hx) as (J1 & J2 & J3). unfold R2. set (j := blk bsl x) in *. destruct (Nat.ltb_spec j nb) as [Hj|]; [|reflexivity]. cbn zeta.
  unfold SvdQn.onb. destruct (Nat.eqb_spec (blk bv v) (qb_i2 (bat j))) as [E|]; [|reflexivity]. pose proof (start_bound j Hj) as SB. rewrite cols_main in J2 by exact Hj. cbn [fst snd cmain] in J2.
  pose proof (bat_in j Hj) as Hb. destruct (HB _ Hb) as (_ & _ & _ & EN & _ & _ & _ & (_ & _ & _ & _ & _ & HU) & _). destruct (rr_min _ (HB _ Hb)) as (_ & M2 & _).
  destruct (blk_lt bv v Hv) as [_ PV]. rewrite E, <- EN in PV. pose proof (glue_blk bv v) as G. rewrite E in G. apply HU; lia.
Qed.
Lemma neg0 : neg r0 = false.
Proof. destruct (neg r0) eqn:E; [|reflexivity]. pose proof (neg_opp r0 E) as K. replace (ropp r0) with r0 in K by ring. congruence. Qed.
Lemma pos2 v : positive = true -> v < list_sum bv -> v < list_sum bsl -> neg (R2 v v) = false.
Proof.
  intros HP Hv Hx. destruct (at_block v Hx) as (J1 & J2 & J3). unfold R2. set (j := blk bsl v) in *. destruct (Nat.ltb_spec j nb) as [Hj|]; [|apply neg0]. cbn zeta.
  unfold SvdQn.onb. destruct (Nat.eqb_spec (blk bv v) (qb_i2 (bat j))) as [E|]; [|apply neg0]. pose proof (start_bound j Hj) as SB. rewrite cols_main in J2 by exact Hj. cbn [fst snd cmain] in J2.
  pose proof (bat_in j Hj) as Hb. destruct (HB _ Hb) as (_ & _ & _ & EN & _ & _ & _ & (_ & _ & _ & _ & _ & HU) & HD). destruct (rr_min _ (HB _ Hb)) as (_ & M2 & _).
  destruct (blk_lt bv v Hv) as [_ PV]. rewrite E, <- EN in PV. pose proof (glue_blk bv v) as G. rewrite E in G. destruct (Nat.eq_dec (pos bv v) (pos bsl v)) as [EE|EE].
  - rewrite <- EE. apply HD; auto; lia.
  - rewrite HU by lia. apply neg0.
Qed.

(** Adding up something over the column blocks of a complete decomposition adds it up over all the row blocks. *)
Lemma regroup {M} (e : M) (op : M -> M -> M) (F : nat * nat * nat -> M) :
  (forall x y, op x y = op y x) -> (forall x y z, op x (op y z) = op (op x y) z) -> (forall x, op e x = x) ->
  (forall i a b, i < length bu -> a + b <= nth i bu 0 -> op (F (i, a, 0)) (F (i, b, a)) = F (i, a + b, 0)) -> (forall i o, F (i, 0, o) = e) ->
  complete = true -> fold_right op e (map F cols) = fold_right op e (map (fun i => F (czero i)) (seq 0 (length bu))).
Proof.
  intros OC OA OE HF H0 Hc.
  assert (AP : forall l l', fold_right op e (l ++ l') = op (fold_right op e l) (fold_right op e l')).
  { induction l as [|x l IH]; intros l'; cbn [app fold_right]; [now rewrite OE|]. rewrite IH. apply OA. }
  assert (PM : forall l l', Permutation l l' -> fold_right op e l = fold_right op e l').
  { intros l l' P. induction P; cbn [fold_right]; auto; [congruence| |congruence]. rewrite !OA. f_equal. apply OC. }
  transitivity (op (fold_right op e (map F (map cmain bl))) (op (fold_right op e (map F (map cfill bl))) (fold_right op e (map F (map czero zs))))).
  - unfold cols. rewrite Hc, !map_app, !AP. f_equal; [|f_equal].
    + apply PM. apply Permutation_map. rewrite <- (map_map (fun n => nth n bl zq) cmain). apply Permutation_map. etransitivity; [apply Permutation_map, Psrt|].
      replace (map (fun n => nth n bl zq) (seq 0 nb)) with bl; [reflexivity|]. apply nth_ext with (d := zq) (d' := zq); [now rewrite map_length, seq_length|]. intros n Hn.
      rewrite (nth_indep (map _ _) zq ((fun n => nth n bl zq) 0)) by (now rewrite map_length, seq_length). rewrite (map_nth (fun n => nth n bl zq)), seq_nth by exact Hn. reflexivity.
    + unfold fs. rewrite !map_map. clear -H0 OE. induction bl as [|b l IH]; [reflexivity|]. cbn [filter map fold_right]. destruct (Nat.ltb_spec 0 (qb_m b - qb_n b)) as [K|K]; cbn [map fold_right]; rewrite IH; [reflexivity|].
      unfold cfill at 2. replace (qb_m b - qb_n b) with 0 by lia. now rewrite H0, OE.
  - rewrite OA. transitivity (op (fold_right op e (map (fun i => F (czero i)) (map (@qb_i1 R) bl))) (fold_right op e (map (fun i => F (czero i)) zs))).
    + f_equal; [|now rewrite !map_map]. rewrite !map_map.
      cut (forall l, (forall b, In b l -> bok b) -> op (fold_right op e (map (fun x => F (cmain x)) l)) (fold_right op e (map (fun x => F (cfill x)) l)) = fold_right op e (map (fun x => F (czero (qb_i1 x))) l)); [intros G; apply G, HB|].
      induction l as [|b l IH]; intros HB'; cbn [map fold_right]; [now rewrite OE|].
      rewrite <- IH by (intros; apply HB'; now right). assert (E : op (F (cmain b)) (F (cfill b)) = F (czero (qb_i1 b))).
      { destruct (HB' b (or_introl eq_refl)) as (K1 & _ & EM & _). destruct (rr_min b (HB' b (or_introl eq_refl))) as (M1 & _). unfold cmain, cfill, czero. rewrite HF by (auto; lia). f_equal. f_equal. f_equal. lia. }
      rewrite <- E. set (a := fold_right op e (map (fun x => F (cmain x)) l)). set (c := fold_right op e (map (fun x => F (cfill x)) l)).
      rewrite <- !OA. f_equal. rewrite !OA. rewrite (OC a). rewrite <- !OA. reflexivity.
    + rewrite <- AP, <- map_app. apply PM, Permutation_map. symmetry. apply split_rows; [exact N1|]. intros b Hb. apply (HB b Hb).
Qed.

Lemma map_nth_seq (l : list nat) : map (fun i => nth i l 0) (seq 0 (length l)) = l.
Proof.
  apply nth_ext with (d := 0) (d' := 0); [now rewrite map_length, seq_length|]. intros n Hn. rewrite map_length, seq_length in Hn.
  rewrite (nth_indep _ 0 ((fun i => nth i l 0) 0)) by (now rewrite map_length, seq_length). rewrite (map_nth (fun i => nth i l 0)), seq_nth by exact Hn. reflexivity.
Qed.
Lemma total2 : complete = true -> list_sum bsl = list_sum bu.
Proof.
  intros Hc. unfold bsl, list_sum. rewrite (regroup 0 Nat.add (fun c => cs c)); auto; try (intros; cbn; lia). cbn [fst snd czero]. now rewrite map_nth_seq.
Qed.
Lemma co2 u u' : complete = true -> u < list_sum bu -> u' < list_sum bu -> sum (list_sum bsl) (fun x => rmul (Q2 u x) (conj (Q2 u' x))) = kron u u'.
Proof.
  intros Hc Hu Hu'. rewrite sum_blocks, bsl_len.
  set (F := fun c : nat * nat * nat => sum (cs c) (fun q => rmul (onb bu (ci c) (fun i => cm (nth (ci c) bu 0) (base (ci c)) i (co c + q)) u) (conj (onb bu (ci c) (fun i => cm (nth (ci c) bu 0) (base (ci c)) i (co c + q)) u')))).
  transitivity (sum (length cols) (fun j => F (nth j cols (0, 0, 0)))).
  { apply sum_ext. intros j Hj. rewrite bsl_nth. unfold F. apply sum_ext. intros q Hq. now rewrite !Q2_block. }
  rewrite sum_nth_list. rewrite (regroup r0 radd F); auto; try (intros; ring); try reflexivity.
  2:{ intros i a b Hi Hab. unfold F. cbn [fst snd]. now rewrite sum_split. }
  destruct (blk_lt bu u Hu) as [B1 B2]. destruct (blk_lt bu u' Hu') as [B1' B2'].
  transitivity (lsum (map (fun i => if i =? blk bu u then F (czero (blk bu u)) else r0) (seq 0 (length bu)))).
  { f_equal. apply map_ext. intros i. destruct (Nat.eqb_spec i (blk bu u)) as [->|Ne]; [reflexivity|]. unfold F. cbn [fst snd czero]. apply (sum_zero r0 r1 radd rmul rsub ropp RT). intros q _.
    unfold SvdQn.onb at 1. destruct (Nat.eqb_spec (blk bu u) i); [congruence|]. ring. }
  rewrite lsum_one by exact B1. unfold F. cbn [fst snd czero]. unfold SvdQn.onb. rewrite Nat.eqb_refl. destruct (Nat.eqb_spec (blk bu u') (blk bu u)) as [E|E].
  - rewrite E in B2'. assert (EK : kron u u' = kron (pos bu u) (pos bu u')).
    { unfold SvdSpec.kron. pose proof (glue_blk bu u) as G. pose proof (glue_blk bu u') as G'. rewrite E in G'. destruct (Nat.eqb_spec u u') as [EU|EU]; destruct (Nat.eqb_spec (pos bu u) (pos bu u')) as [EP|EP]; auto; [exfalso; apply EP; now rewrite EU|lia]. }
    rewrite EK. set (i := blk bu u) in *. unfold base. destruct (find (fun b' => qb_i1 b' =? i) bl) as [b|] eqn:EF.
    + apply find_some in EF as [Hb EF]. apply Nat.eqb_eq in EF. destruct (HB b Hb) as (_ & _ & EM & _ & _ & _ & _ & (_ & _ & _ & _ & HR & _) & _). destruct (rr_min b (HB b Hb)) as (_ & _ & _ & M4 & _).
      rewrite EF in EM. rewrite <- EM in *. now apply HR; [apply M4| |].
    + set (m := nth i bu 0) in *. assert (EI : forall a b, a < m -> b < m -> cm m (ident m) a b = kron a b).
      { intros a b Ha Hb. unfold QrModel.ident. rewrite (cm_map r0) by auto. rewrite mod_cm, div_cm by exact Ha. unfold SvdSpec.kron. reflexivity. }
      transitivity (sum m (fun r => rmul (kron (pos bu u) r) (kron (pos bu u') r))).
      * apply sum_ext. intros a Ha. rewrite !EI by (auto; lia). change (0 + a) with a. f_equal. unfold SvdSpec.kron. destruct (pos bu u' =? a); [apply conj1|apply (conj0 r0 r1 radd rmul rsub ropp RT conj HC)].
      * rewrite (sum_one m (pos bu u)); [|exact B2|intros a Ha Hn; unfold SvdSpec.kron; destruct (Nat.eqb_spec (pos bu u) a); [congruence|ring]]. unfold SvdSpec.kron. rewrite Nat.eqb_refl. rewrite (Nat.eqb_sym (pos bu u')). ring.
  - rewrite (sum_zero r0 r1 radd rmul rsub ropp RT) by (intros q _; rewrite (conj0 r0 r1 radd rmul rsub ropp RT conj HC); ring). unfold SvdSpec.kron. destruct (Nat.eqb_spec u u'); [congruence|reflexivity].
Qed.

Lemma blocks_qrm : qrm (list_sum bu) (list_sum bv) (list_sum bsl) complete positive A2 Q2 R2.
Proof.
  split; [exact prod2|]. split; [exact iso2|]. split.
  - intros Hc. split; [now apply total2|]. intros u u' Hu Hu'. now apply co2.
  - split; [exact upper2|]. intros HP v Hv Hx. now apply pos2.
Qed.
End Blocks.
