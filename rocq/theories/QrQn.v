(** qr of an order-2 tensor with quantum numbers: the result. *)
From Coq Require Import List ZArith Arith Lia Ring Bool Permutation Sorted.
From Verif Require Import Util RangeModel RangeSpec RangeProofs TensorModel TensorSpec TensorProofs SemProofs ContractModel DenseModel DenseProofs
  SmallStringModel QnModel QnSpec QnProofs QdModel QdSpec QdProofs QdFlux QdAdd QdSum CombinerModel QCombModel QCombProps
  SvdModel SvdSpec SvdRank SvdMat SvdFactor SvdDense SvdQn SvdFill SvdQ2 QrSpec QrModel QrMat QrFactor QrBlocks QrWrites.
Import ListNotations.
Open Scope outcome_scope.
Local Arguments Nat.sub : simpl never.
Local Arguments Nat.div : simpl never.
Local Arguments Nat.modulo : simpl never.
Local Arguments Z.add : simpl never.
Local Arguments Z.mul : simpl never.

Lemma traverse_in {A B} (f : A -> outcome B) l : forall l' b, traverse f l = Ok l' -> In b l' -> exists a, In a l /\ f a = Ok b.
Proof.
  induction l as [|x l IH]; intros l' b E H; cbn in E; [injection E as <-; destruct H|]. destruct (f x) as [y| |] eqn:Ex; cbn [obind] in E; try discriminate.
  destruct (traverse f l) as [t| |] eqn:Et; cbn [obind] in E; try discriminate. injection E as <-. destruct H as [<-|H]; [exists x; cbn; auto|]. destruct (IH t b eq_refl H) as (a & Ha & K). exists a. cbn. auto.
Qed.
Lemma nth_skip {A} (l : list A) d : forall a n, nth n (skipn a l) d = nth (a + n) l d.
Proof. induction l as [|x l IH]; intros [|a] n; cbn; auto. now destruct n. Qed.

Section QrQ.
Context {R : Type} (r0 r1 : R) (radd rmul rsub : R -> R -> R) (ropp : R -> R).
Context (RT : ring_theory r0 r1 radd rmul rsub ropp eq).
Add Ring RRqq : RT.
Context (conj : R -> R) (HC : conjugation radd rmul conj) (neg : R -> bool).
Hypothesis neg_opp : forall x, neg x = true -> neg (ropp x) = false.
Context (lap : nat -> nat -> nat -> list R -> option (list R * list R)).
Hypothesis Hlap : exact_qr r0 r1 radd rmul conj lap.
Context {I : Type} (ieq : I -> I -> bool) (ieq_spec : forall a b, ieq a b = true <-> a = b).
Context (bs : I -> list nat) (qns : I -> list QN) (M : SmallString -> Z) (Sx : list SmallString) (Sch : Scheme M Sx).
Context (mk : nat -> list (QN * nat) -> I).
Hypothesis mk_bs : forall n q, bs (mk n q) = map snd q.
Hypothesis mk_qns : forall n q, qns (mk n q) = map fst q.
Notation total := (total bs).
Notation proper := (proper bs).
Notation ranged := (ranged bs).
Notation qval := (qval r0 bs).
Notation stored := (stored bs).
Notation labelled := (labelled bs qns M Sx).
Notation nblocks := (nblocks bs).
Notation qtensor := (qtensor bs qns M Sx).
Notation sum := (sum_below r0 radd).
Notation cm := (cm r0).
Notation velt := (velt r0).
Notation mview := (@mview R).
Notation onb := (onb r0).
Notation sectors := (sectors qns).
Notation qblock := (@qblock R).
Notation qr_mat := (qr_mat r0 r1 radd rmul conj).
Notation qrm := (qrm r0 r1 radd rmul conj neg).
Notation qel := (qel r0 ieq bs).
Notation qqr2 := (qqr2 r0 r1 ropp neg lap ieq bs qns mk).
Notation ci c := (fst (fst c)).
Notation cs c := (snd (fst c)).
Notation co c := (snd c).

Lemma cm_columns m a b q i x : i < m -> x < b - a -> cm m (columns m a b q) i x = cm m q i (a + x).
Proof. intros Hi Hx. unfold columns. rewrite cm_firstn by assumption. unfold SvdSpec.cm. rewrite nth_skip. f_equal. lia. Qed.
Lemma cm_rows k n t r i j : i < t -> j < n -> cm t (rows r0 k n t r) i j = cm k r i j.
Proof. intros Hi Hj. unfold rows. rewrite (cm_map r0) by assumption. rewrite mod_cm, div_cm by exact Hi. reflexivity. Qed.
Lemma len_columns m a b k (q : list R) : length q = m * k -> a <= b -> b <= k -> length (columns m a b q) = m * (b - a).
Proof. intros L H1 H2. unfold columns. rewrite firstn_length, skipn_length, L. nia. Qed.

Lemma getBlocks_flux dir is (A : qd R) qI rI q (bl : list (nat * nat * mview)) : qI <> rI -> Permutation is [qI; rI] -> (forall b, has_block A b -> has_flux qns dir M is b q) -> getBlocks ieq bs is A rI = Ok bl ->
  forall b, In b bl -> forall n, residue (M n) (arrow_int (dir qI) * qn_val_of (nth (bi1 b) (qns qI) qn0) n + arrow_int (dir rI) * qn_val_of (nth (bi2 b) (qns rI) qn0) n)%Z = qn_val_of q n.
Proof.
  intros Hne PM HF E b Hb n.
  assert (Cx : is = [qI; rI] \/ is = [rI; qI]).
  { pose proof (Permutation_length PM) as L. destruct is as [|a [|a' [|]]]; try discriminate. apply Permutation_length_2_inv. now symmetry. }
  assert (RR : ieq rI rI = true) by now apply ieq_spec. assert (RQ : ieq rI qI = false) by (destruct (ieq rI qI) eqn:K; auto; apply ieq_spec in K; congruence).
  unfold getBlocks in E. destruct Cx as [-> | ->]; apply (traverse_in _ _ _ b E) in Hb as ([c o] & Ha & Eb); cbn [fst snd] in Eb; clear E; destruct c as [|c1 [|c2 [|]]]; try discriminate.
  - destruct (oget (bs qI) c1) as [n1| |]; cbn [obind] in Eb; try discriminate. destruct (oget (bs rI) c2) as [n2| |]; cbn [obind] in Eb; try discriminate. destruct (segment o (n1 * n2) (store A)); cbn [obind] in Eb; try discriminate.
    rewrite RQ in Eb. injection Eb as <-. unfold bi1, bi2. cbn [fst snd]. rewrite <- (HF [c1; c2]) by (apply in_map_iff; exists ([c1; c2], o); auto). cbn [flux_val]. f_equal. ring.
  - destruct (oget (bs rI) c1) as [n1| |]; cbn [obind] in Eb; try discriminate. destruct (oget (bs qI) c2) as [n2| |]; cbn [obind] in Eb; try discriminate. destruct (segment o (n1 * n2) (store A)); cbn [obind] in Eb; try discriminate.
    rewrite RR in Eb. injection Eb as <-. unfold bi1, bi2. cbn [fst snd]. rewrite <- (HF [c1; c2]) by (apply in_map_iff; exists ([c1; c2], o); auto). cbn [flux_val]. f_equal. ring.
Qed.

(** The blocks decomposed. *)
Definition qrb (complete positive : bool) (b : nat * nat * mview) (c : qblock) : Prop :=
  qb_i1 c = bi1 b /\ qb_i2 c = bi2 b /\ qb_m c = rn (bmat b) /\ qb_n c = cn (bmat b) /\ qb_k c = qr_rows complete (qb_m c) (qb_n c) /\
  qr_mat (qb_m c) (qb_n c) (qb_k c) (velt (bmat b)) (qb_q c) (qb_r c) /\ (positive = true -> forall i, i < qb_k c -> i < qb_n c -> neg (cm (qb_k c) (qb_r c) i i) = false).
Lemma qr_blocks_spec complete positive bl : (forall b, In b bl -> SvdMat.good (bmat b)) ->
  (exists cl, traverse (qr_block r0 ropp neg lap complete positive) bl = Ok cl /\ Forall2 (qrb complete positive) bl cl) \/
  (traverse (qr_block r0 ropp neg lap complete positive) bl = Err /\ qr_fails lap).
Proof.
  induction bl as [|b bl IH]; intros HG; [left; exists []; split; [reflexivity|constructor]|]. cbn [traverse]. destruct b as [[i1 i2] v]. unfold qr_block at 1 3.
  destruct (QR_spec r0 r1 radd rmul rsub ropp RT conj HC neg neg_opp lap Hlap complete positive v (HG _ (or_introl eq_refl))) as [(Q & Rm & E & HM & HP)|[E K]].
  - cbv zeta in E. rewrite E. cbn [obind]. destruct (IH (fun b Hb => HG b (or_intror Hb))) as [(cl & E' & F)|[E' K]]; rewrite E'; cbn [obind].
    + left. eexists. split; [reflexivity|]. constructor; [|exact F]. unfold qrb, bi1, bi2, bmat. cbn. repeat (split; [reflexivity|]). split; [exact HM|exact HP].
    + right. auto.
  - rewrite E. cbn [obind]. right. auto.
Qed.

Section Made.
Context (qI rI : I) (complete positive : bool) (bl : list qblock).
Notation nb := (length bl).
Notation srt := (sort_i2 bl).
Notation cl := (cols (bs qI) bl srt complete).
Notation bsl := (bsl (bs qI) bl srt complete).
Lemma sectors_made : (forall b, In b bl -> qb_i1 b < length (qns qI)) -> length (qns qI) = nblocks qI -> Permutation srt (seq 0 nb) ->
  qr_sectors bs qns true complete qI bl srt = Ok (map (fun c => (nth (ci c) (qns qI) qn0, cs c)) cl).
Proof.
  intros H1 HL PS. unfold qr_sectors, cols.
  rewrite (traverse_map _ (fun n => (nth (qb_i1 (nth n bl zq)) (qns qI) qn0, qb_rr (nth n bl zq)))).
  2:{ intros n Hn. apply (Permutation_in _ PS), in_seq in Hn. rewrite (oget_ok zq) by lia. cbn [obind]. rewrite (oget_ok qn0) by (apply H1, nth_In; lia). reflexivity. }
  cbn [obind andb]. rewrite map_app, map_map. destruct complete; cbn [andb].
  - rewrite (traverse_map _ (fun b => (nth (qb_i1 b) (qns qI) qn0, qb_m b - qb_n b))).
    2:{ intros b Hb. apply filter_In in Hb as [Hb _]. rewrite (oget_ok qn0) by (apply H1, Hb). reflexivity. }
    cbn [obind]. rewrite (traverse_map _ (fun i => (nth i (qns qI) qn0, nth i (bs qI) 0))).
    2:{ intros i Hi. unfold zerob in Hi. apply filter_In in Hi as [Hi _]. apply in_seq in Hi. rewrite (oget_ok qn0) by (rewrite HL; unfold QdSpec.nblocks; lia). cbn [obind]. rewrite (oget_ok 0) by lia. reflexivity. }
    cbn [obind]. rewrite map_app, !map_map. reflexivity.
  - cbn [obind map]. rewrite !app_nil_r. reflexivity.
Qed.

Context (dir : I -> Arrow) (is : list I) (A : qd R) (q : QN) (A2 : nat -> nat -> R).
Hypothesis Hne : qI <> rI.
Hypothesis LU : labelled [qI].
Hypothesis LV : labelled [rI].
Hypothesis PU : proper [qI].
Hypothesis PV : proper [rI].
Hypothesis SU : sectors qI.
Hypothesis SV : sectors rI.
Hypothesis DU : dir qI <> ArrNeither.
Hypothesis DV : dir rI <> ArrNeither.
Hypothesis Cq : Charges M Sx q.
Hypothesis HB : forall b, In b bl -> bok r0 r1 radd rmul conj neg (bs qI) (bs rI) complete positive A2 b.
Hypothesis HZ : forall u v, u < list_sum (bs qI) -> v < list_sum (bs rI) -> (forall b, In b bl -> qb_i1 b <> blk (bs qI) u \/ qb_i2 b <> blk (bs rI) v) -> A2 u v = r0.
Hypothesis N1 : NoDup (map (@qb_i1 R) bl).
Hypothesis N2 : NoDup (map (@qb_i2 R) bl).
Hypothesis HF : forall b, In b bl -> forall n, residue (M n) (arrow_int (dir qI) * qn_val_of (nth (qb_i1 b) (qns qI) qn0) n + arrow_int (dir rI) * qn_val_of (nth (qb_i2 b) (qns rI) qn0) n)%Z = qn_val_of q n.
Hypothesis Hbl : bl <> [].
Context (l : I).
Hypothesis Bl : bs l = bsl.
Hypothesis Ql : qns l = map (fun c => nth (ci c) (qns qI) qn0) cl.
Hypothesis NQ : qI <> l.
Hypothesis NR : l <> rI.

Let PS : Permutation srt (seq 0 nb).
Proof. exact (proj1 (sort_spec bl N2)). Qed.
Let Hbu : forall n, In n (bs qI) -> 0 < n.
Proof. intros n Hn. destruct (proj2 PU qI (or_introl eq_refl)) as [_ F]. rewrite Forall_forall in F. now apply F. Qed.
Let COK : forall c, In c cl -> ci c < length (bs qI) /\ 0 < cs c /\ co c + cs c <= kk (bs qI) bl (ci c).
Proof. exact (cols_ok r0 r1 radd rmul conj neg (bs qI) (bs rI) bl srt complete positive A2 HB N1 PS Hbu). Qed.
Lemma cols_len : nb <= length cl.
Proof. unfold cols. rewrite app_length, map_length, (Permutation_length PS), seq_length. lia. Qed.
Lemma nbl : nblocks l = length cl.
Proof. unfold QdSpec.nblocks. rewrite Bl. unfold QrBlocks.bsl. apply map_length. Qed.
Lemma ql_nth j : j < length cl -> nth j (qns l) qn0 = nth (ci (nth j cl (0, 0, 0))) (qns qI) qn0.
Proof.
  intros H. rewrite Ql. rewrite (nth_indep _ _ ((fun c : nat * nat * nat => nth (ci c) (qns qI) qn0) (0, 0, 0))) by (now rewrite map_length). apply (map_nth (fun c : nat * nat * nat => nth (ci c) (qns qI) qn0)).
Qed.
Lemma labelled_l : labelled [l].
Proof.
  intros y [<-|[]]. destruct (LU qI (or_introl eq_refl)) as [Lx Cx]. rewrite Forall_forall in Cx. rewrite Bl, Ql. unfold QrBlocks.bsl. rewrite !map_length. split; [reflexivity|].
  apply Forall_forall. intros z Hz. apply in_map_iff in Hz as (c & <- & Hc). apply Cx, nth_In. rewrite Lx. now apply COK.
Qed.
Lemma proper_l : bs l <> [] /\ Forall (fun n => 0 < n) (bs l).
Proof.
  rewrite Bl. unfold QrBlocks.bsl. split.
  - intros K. apply map_eq_nil in K. pose proof cols_len as L. rewrite K in L. apply Hbl. destruct bl; [reflexivity|cbn in L; lia].
  - apply Forall_forall. intros n Hn. apply in_map_iff in Hn as (c & <- & Hc). now apply COK.
Qed.
Lemma proper2 x y : x <> y -> (bs x <> [] /\ Forall (fun n => 0 < n) (bs x)) -> (bs y <> [] /\ Forall (fun n => 0 < n) (bs y)) -> proper [x; y].
Proof.
  intros H Hx Hy. split; [constructor; [cbn; intuition congruence|constructor; [cbn; auto|constructor]]|]. intros z [<-|[<-|[]]]; auto.
Qed.
Lemma labelled2 x y : labelled [x] -> labelled [y] -> labelled [x; y].
Proof. intros Hx Hy z [<-|[<-|[]]]; [apply Hx; now left|apply Hy; now left]. Qed.

Notation du := (dir qI).
Notation dv := (dir rI).
(** The empty Q and R. *)
Lemma makeQ : exists D, qmake r0 bs qns (arrows2 ieq qI l du (arrow_neg du)) [qI; l] qn0 = Ok (Some D) /\ qtensor (arrows2 ieq qI l du (arrow_neg du)) [qI; l] D qn0 /\
  (forall i j, i < nblocks qI -> j < length cl -> (has_block D [i; j] <-> i = ci (nth j cl (0, 0, 0)))) /\ forall s, qval [qI; l] D s = r0.
Proof.
  assert (LL : labelled [qI; l]) by (apply labelled2; [exact LU|exact labelled_l]). assert (PL : proper [qI; l]) by (apply proper2; [exact NQ|apply PU; now left|apply proper_l]).
  destruct (qmake_spec r0 bs qns (arrows2 ieq qI l du (arrow_neg du)) M Sx Sch [qI; l] qn0 LL) as (D & E & S & B & Z); [intros y Hy; now apply PL|constructor|discriminate|].
  exists D. split; [exact E|]. split; [|split].
  - split; [exact PL|]. split; [exact LL|]. split; [exact S|]. split; [constructor|]. intros b Hb. now apply B.
  - intros i j Hi Hj. assert (Q0 : forall nm, qn_val_of qn0 nm = 0%Z) by (intros nm; unfold qn0; cbn [qn_val_of qn_name qn_val qnum0]; destruct (ss_eqb _ _); reflexivity).
    assert (HCI : ci (nth j cl (0, 0, 0)) < nblocks qI) by (apply COK, nth_In, Hj). split.
    + intros K. apply B in K as [_ K]. apply (sector_eq bs qns M Sx Sch qI); auto. intros n. specialize (K n). cbn [flux_val] in K. rewrite (arrows_x ieq ieq_spec), (arrows_l ieq ieq_spec), arrow_neg_int in K by assumption.
      rewrite Q0, ql_nth, Z.add_0_r in K by exact Hj. apply (sign_eq (arrow_int du) _ (- arrow_int du * qn_val_of (nth (ci (nth j cl (0, 0, 0)%nat)) (qns qI) qn0) n)%Z); [apply arrow_sign, DU|].
      rewrite (Z.add_comm (- _ * _)%Z), K. match goal with |- _ = residue _ ?z => replace z with 0%Z by ring end. now rewrite residue_0.
    + intros ->. apply B. split; [apply valid2; [exact HCI|rewrite nbl; exact Hj]|]. intros nm. cbn [flux_val]. rewrite (arrows_x ieq ieq_spec), (arrows_l ieq ieq_spec), arrow_neg_int by assumption.
      rewrite ql_nth by exact Hj. match goal with |- residue _ ?z = _ => replace z with 0%Z by ring end. rewrite residue_0. now rewrite Q0.
  - intros s. destruct D as [o st]. cbn in Z. rewrite Z. apply qval_zeros.
Qed.
Lemma makeR q' : Charges M Sx q' -> qn_eqb q' q = true -> exists D, qmake r0 bs qns (arrows2 ieq l rI du dv) [l; rI] q' = Ok (Some D) /\ qtensor (arrows2 ieq l rI du dv) [l; rI] D q' /\
  (forall j b, j < length cl -> In b bl -> (has_block D [j; qb_i2 b] <-> qb_i1 b = ci (nth j cl (0, 0, 0)))) /\ forall s, qval [l; rI] D s = r0.
Proof.
  intros Cq' EQ. assert (LL : labelled [l; rI]) by (apply labelled2; [exact labelled_l|exact LV]). assert (PL : proper [l; rI]) by (apply proper2; [exact NR|apply proper_l|apply PV; now left]).
  destruct (qmake_spec r0 bs qns (arrows2 ieq l rI du dv) M Sx Sch [l; rI] q' LL) as (D & E & S & B & Z); [intros y Hy; now apply PL|exact Cq'|discriminate|].
  exists D. split; [exact E|]. split; [|split].
  - split; [exact PL|]. split; [exact LL|]. split; [exact S|]. split; [exact Cq'|]. intros b Hb. now apply B.
  - intros j b Hj Hb. assert (HCI : ci (nth j cl (0, 0, 0)) < nblocks qI) by (apply COK, nth_In, Hj). destruct (HB b Hb) as (K1 & K2 & _).
    assert (EV : forall n, qn_val_of q' n = qn_val_of q n) by now apply (qn_eqb_iff M Sx). split.
    + intros K. apply B in K as [_ K]. apply (sector_eq bs qns M Sx Sch qI); auto. intros n. specialize (K n). cbn [flux_val] in K. rewrite (arrows_x ieq ieq_spec), (arrows_l ieq ieq_spec) in K by assumption.
      rewrite EV, <- (HF b Hb n), ql_nth, Z.add_0_r in K by exact Hj. apply (sign_eq (arrow_int du) _ (arrow_int dv * qn_val_of (nth (qb_i2 b) (qns rI) qn0) n)%Z); [apply arrow_sign, DU|].
      rewrite (Z.add_comm (arrow_int dv * _)%Z), <- K. f_equal. ring.
    + intros E1. apply B. split; [apply valid2; [rewrite nbl; exact Hj|exact K2]|]. intros nm. cbn [flux_val]. rewrite (arrows_x ieq ieq_spec), (arrows_l ieq ieq_spec) by assumption.
      rewrite ql_nth by exact Hj. rewrite EV, <- (HF b Hb nm), E1. f_equal. ring.
  - intros s. destruct D as [o st]. cbn in Z. rewrite Z. apply qval_zeros.
Qed.

Notation TQ := (Q2 r0 r1 (bs qI) bl srt complete).
Notation TR := (R2 r0 (bs qI) (bs rI) bl srt complete).
Notation bat := (bat bl srt).
Notation allw ws := (fst (loop_writes r0 true complete srt nb bl 0 0) ++ ws).
Context (Q0 R0 : qd R).
Hypothesis BQ : forall i j, i < nblocks qI -> j < length cl -> (has_block Q0 [i; j] <-> i = ci (nth j cl (0, 0, 0))).
Hypothesis BR : forall j b, j < length cl -> In b bl -> (has_block R0 [j; qb_i2 b] <-> qb_i1 b = ci (nth j cl (0, 0, 0))).
Notation goodw := (QrWrites.good r0 bs qI l rI TQ TR Q0 R0).
Notation badw := (bad bs qI l rI Q0 R0).
Definition selfinv (p : nat) : Prop := nth (nth p srt 0) srt 0 = p.

Lemma Tq_at i j p x : i = ci (nth j cl (0, 0, 0)) -> j < length cl -> p < nth i (bs qI) 0 -> x < cs (nth j cl (0, 0, 0)) ->
  TQ (start (bs qI) i + p) (start (bs l) j + x) = cm (nth i (bs qI) 0) (base r0 r1 (bs qI) bl i) p (co (nth j cl (0, 0, 0)) + x).
Proof.
  intros Ei Hj Hp Hx. rewrite Bl. rewrite (Q2_block r0 r1 (bs qI) bl srt complete j x) by assumption. rewrite <- Ei. unfold SvdQn.onb.
  destruct (blk_glue (bs qI) i p) as (E1 & E2 & _); [rewrite Ei; apply COK, nth_In, Hj|exact Hp|]. rewrite E1, E2, Nat.eqb_refl. reflexivity.
Qed.
Lemma goodQ j w : j < length cl -> w_toR w = false -> w_i w = ci (nth j cl (0, 0, 0)) -> w_j w = j -> w_nr w = nth (w_i w) (bs qI) 0 -> w_nc w = cs (nth j cl (0, 0, 0)) ->
  w_nr w * w_nc w <= length (w_c w) -> (forall p x, p < w_nr w -> x < w_nc w -> cm (w_nr w) (w_c w) p x = cm (w_nr w) (base r0 r1 (bs qI) bl (w_i w)) p (co (nth j cl (0, 0, 0)) + x)) -> goodw w.
Proof.
  intros Hj ET Ei Ej En Ec Le HT. unfold QrWrites.good. rewrite ET. assert (HCI : ci (nth j cl (0, 0, 0)) < nblocks qI) by (apply COK, nth_In, Hj).
  unfold good_w. rewrite Ej. split; [rewrite Ei; exact HCI|]. split; [rewrite nbl; exact Hj|]. split; [apply BQ; [rewrite Ei; exact HCI|exact Hj|exact Ei]|]. split; [exact En|].
  split; [rewrite Ec, Bl; symmetry; apply bsl_nth|]. split; [exact Le|]. intros p x Hp Hx. rewrite HT by assumption. rewrite Tq_at; auto; [now rewrite <- En|now rewrite <- En|now rewrite <- Ec].
Qed.

Lemma wQ_good p : p < nb -> selfinv p -> goodw (wQ (nth p bl zq) (nth p srt 0)).
Proof.
  intros Hp HS. pose proof (srt_lt bl srt PS p Hp) as Hn. assert (EB : bat (nth p srt 0) = nth p bl zq) by (unfold QrBlocks.bat; now rewrite HS). set (b := nth p bl zq) in *.
  assert (Hb : In b bl) by (apply nth_In, Hp). destruct (HB b Hb) as (_ & _ & EM & _ & _ & _ & _ & (LQ & _) & _). destruct (rr_min r0 r1 radd rmul conj neg (bs qI) (bs rI) complete positive A2 b (HB b Hb)) as (M1 & M2 & _).
  pose proof cols_len. apply (goodQ (nth p srt 0)); unfold wQ; cbn [w_toR w_i w_j w_nr w_nc w_c]; rewrite ?(cols_main (bs qI) bl srt complete PS) by exact Hn; rewrite ?EB; cbn [cmain fst snd]; auto; [lia| |].
  - rewrite (len_columns _ _ _ (qb_k b)) by (auto; lia). nia.
  - intros p' x Hp' Hx. rewrite cm_columns by (auto; lia). unfold base. now rewrite (find_b bl N1 b Hb).
Qed.
Lemma wR_good p : p < nb -> selfinv p -> goodw (wR r0 (nth p bl zq) (nth p srt 0)).
Proof.
  intros Hp HS. pose proof (srt_lt bl srt PS p Hp) as Hn. assert (EB : bat (nth p srt 0) = nth p bl zq) by (unfold QrBlocks.bat; now rewrite HS). set (b := nth p bl zq) in *.
  assert (Hb : In b bl) by (apply nth_In, Hp). destruct (HB b Hb) as (_ & K2 & _ & EN & _). pose proof cols_len as CL.
  unfold QrWrites.good, wR, good_w. cbn [w_toR w_i w_j w_nr w_nc w_c].
  assert (EC : nth (nth p srt 0) cl (0, 0, 0) = cmain b) by (rewrite (cols_main (bs qI) bl srt complete PS) by exact Hn; now rewrite EB).
  split; [rewrite nbl; lia|]. split; [exact K2|]. split; [apply BR; [lia|exact Hb|]; rewrite EC; reflexivity|].
  split; [rewrite Bl, bsl_nth, EC; reflexivity|]. split; [exact EN|]. split; [unfold rows; rewrite map_length, seq_length; lia|].
  intros i j Hi Hj. rewrite cm_rows by assumption. rewrite Bl. rewrite (R2_block r0 (bs qI) (bs rI) bl srt complete PS) by (try exact Hn; rewrite EC; exact Hi). rewrite EB.
  unfold SvdQn.onb. destruct (blk_glue (bs rI) (qb_i2 b) j K2) as (E1 & E2 & _); [now rewrite <- EN|]. rewrite E1, E2, Nat.eqb_refl. reflexivity.
Qed.
Lemma not_self p : p < nb -> ~ selfinv p -> qb_i1 (nth p bl zq) <> ci (nth (nth p srt 0) cl (0, 0, 0)).
Proof.
  intros Hp HS E. pose proof (srt_lt bl srt PS p Hp) as Hn. rewrite (cols_main (bs qI) bl srt complete PS) in E by exact Hn. cbn [cmain fst] in E. unfold QrBlocks.bat in E. apply HS. unfold selfinv.
  rewrite (NoDup_nth _ (qb_i1 (@zq R))) in N1. rewrite map_length in N1. symmetry. apply N1; [exact Hp|now apply srt_lt|]. now rewrite !map_nth.
Qed.
Lemma wQ_bad p : p < nb -> ~ selfinv p -> badw (wQ (nth p bl zq) (nth p srt 0)).
Proof.
  intros Hp HS. pose proof (srt_lt bl srt PS p Hp) as Hn. pose proof cols_len. assert (Hb : In (nth p bl zq) bl) by (apply nth_In, Hp). destruct (HB _ Hb) as (K1 & _).
  unfold bad, wQ, bad_w. cbn [w_toR w_i w_j]. split; [exact K1|]. split; [rewrite nbl; lia|]. rewrite BQ by (auto; lia). now apply not_self.
Qed.
Lemma wR_bad p : p < nb -> ~ selfinv p -> badw (wR r0 (nth p bl zq) (nth p srt 0)).
Proof.
  intros Hp HS. pose proof (srt_lt bl srt PS p Hp) as Hn. pose proof cols_len. assert (Hb : In (nth p bl zq) bl) by (apply nth_In, Hp). destruct (HB _ Hb) as (_ & K2 & _).
  unfold bad, wR, bad_w. cbn [w_toR w_i w_j]. split; [rewrite nbl; lia|]. split; [exact K2|]. rewrite BR by (auto; lia). now apply not_self.
Qed.
Lemma fills_fs : fills bl = fs bl.
Proof.
  unfold fills, fs. apply filter_ext_in. intros b Hb. destruct (rr_min r0 r1 radd rmul conj neg (bs qI) (bs rI) complete positive A2 b (HB b Hb)) as (M1 & _). rewrite M1. destruct (Nat.ltb_spec 0 (qb_m b - qb_n b)); destruct (Nat.ltb_spec 0 (qb_m b - Nat.min (qb_m b) (qb_n b))); auto; lia.
Qed.
Lemma nth_fill p : complete = true -> p < length (fs bl) -> nb + p < length cl /\ nth (nb + p) cl (0, 0, 0) = cfill (nth p (fs bl) zq).
Proof.
  intros Hc Hp. unfold cols. rewrite Hc. rewrite !app_length, !map_length, (Permutation_length PS), seq_length. split; [lia|].
  rewrite app_nth2; rewrite map_length, (Permutation_length PS), seq_length; [|lia]. replace (nb + p - nb) with p by lia. rewrite app_nth1 by (now rewrite map_length).
  rewrite (nth_indep _ _ (cfill (@zq R))) by (now rewrite map_length). apply (map_nth (@cfill R)).
Qed.
Lemma nth_zero p : complete = true -> p < length (zs (bs qI) bl) -> nb + length (fs bl) + p < length cl /\ nth (nb + length (fs bl) + p) cl (0, 0, 0) = czero (bs qI) (nth p (zs (bs qI) bl) 0).
Proof.
  intros Hc Hp. unfold cols. rewrite Hc. rewrite !app_length, !map_length, (Permutation_length PS), seq_length. split; [lia|].
  rewrite app_nth2; rewrite map_length, (Permutation_length PS), seq_length; [|lia]. rewrite app_nth2 by (rewrite map_length; lia). rewrite map_length.
  replace (nb + length (fs bl) + p - nb - length (fs bl)) with p by lia.
  rewrite (nth_indep _ _ (czero (bs qI) 0)) by (now rewrite map_length). apply map_nth.
Qed.
Lemma cols_cases j : j < length cl -> j < nb \/ (complete = true /\ exists p, p < length (fs bl) /\ j = nb + p) \/ (complete = true /\ exists p, p < length (zs (bs qI) bl) /\ j = nb + length (fs bl) + p).
Proof.
  unfold cols. rewrite app_length, map_length, (Permutation_length PS), seq_length. intros H. destruct (Nat.lt_ge_cases j nb); [now left|]. right. destruct complete; [|cbn in H; lia]. rewrite app_length, !map_length in H.
  destruct (Nat.lt_ge_cases (j - nb) (length (fs bl))); [left; split; [reflexivity|]; exists (j - nb); lia|right; split; [reflexivity|]; exists (j - nb - length (fs bl)); lia].
Qed.
Lemma wF_good p : complete = true -> p < length (fs bl) -> goodw (wF (nth p (fs bl) zq) (p + nb)).
Proof.
  intros Hc Hp. destruct (nth_fill p Hc Hp) as [L E]. set (b := nth p (fs bl) zq) in *. assert (Hb : In b bl) by (assert (K : In b (fs bl)) by (apply nth_In, Hp); unfold fs in K; now apply filter_In in K).
  destruct (HB b Hb) as (_ & _ & EM & _ & _ & _ & _ & (LQ & _) & _). destruct (rr_min r0 r1 radd rmul conj neg (bs qI) (bs rI) complete positive A2 b (HB b Hb)) as (M1 & M2 & M3 & M4 & _). specialize (M4 Hc).
  apply (goodQ (nb + p)); unfold wF; cbn [w_toR w_i w_j w_nr w_nc w_c]; rewrite ?E; cbn [cfill fst snd]; auto; [lia|lia| |].
  - rewrite (len_columns _ _ _ (qb_k b)) by (auto; lia). apply Nat.mul_le_mono_l. lia.
  - intros p' x Hp' Hx. rewrite cm_columns by (auto; lia). unfold base. now rewrite (find_b bl N1 b Hb).
Qed.
Lemma wZ_good p : complete = true -> p < length (zs (bs qI) bl) -> let i := nth p (zs (bs qI) bl) 0 in let m := nth i (bs qI) 0 in goodw (WR false i (length (fs bl) + p + nb) m m (ident r0 r1 m)).
Proof.
  intros Hc Hp i m. destruct (nth_zero p Hc Hp) as [L E]. fold i in E. apply (goodQ (nb + length (fs bl) + p)); cbn [w_toR w_i w_j w_nr w_nc w_c]; rewrite ?E; cbn [czero fst snd]; auto; [lia| |].
  - unfold ident. rewrite map_length, seq_length. fold m. lia.
  - intros p' x Hp' Hx. unfold base. rewrite (find_z (bs qI) bl i) by (apply nth_In, Hp). fold m. reflexivity.
Qed.

Lemma all_writes ws e : e = (if complete then length (fs bl) else 0) -> (complete = true -> zero_writes r0 r1 bs qI (zerob bs qI bl) nb e = Ok ws) -> (complete = false -> ws = []) ->
  (forall w, In w (allw ws) -> goodw w \/ badw w) /\ ((forall p, p < nb -> selfinv p) -> forall w, In w (allw ws) -> goodw w) /\
  (forall p, p < nb -> In (wQ (nth p bl zq) (nth p srt 0)) (allw ws) /\ In (wR r0 (nth p bl zq) (nth p srt 0)) (allw ws)) /\
  (forall j, j < length cl -> (forall p, p < nb -> selfinv p) -> exists w, In w (allw ws) /\ w_toR w = false /\ w_i w = ci (nth j cl (0, 0, 0)) /\ w_j w = j).
Proof.
  intros Ee HZ1 HZ2. destruct (loop_spec r0 complete srt nb bl 0 0) as [_ LW].
  assert (ZW : forall w, In w ws <-> complete = true /\ exists p, p < length (zs (bs qI) bl) /\ let i := nth p (zs (bs qI) bl) 0 in let m := nth i (bs qI) 0 in w = WR false i (length (fs bl) + p + nb) m m (ident r0 r1 m)).
  { destruct complete eqn:Hc; [|rewrite HZ2 by reflexivity; intros w; split; [intros []|intros [K _]; discriminate]].
    destruct (zero_spec r0 r1 bs qI nb (zs (bs qI) bl)) with (e := e) as (ws' & E & HW); [intros i Hi; now apply zs_in in Hi|]. specialize (HZ1 eq_refl). change (zerob bs qI bl) with (zs (bs qI) bl) in HZ1. rewrite E in HZ1. injection HZ1 as <-.
    intros w. rewrite HW, Ee. cbv zeta. split; [intros K; split; [reflexivity|exact K]|intros [_ K]; exact K]. }
  assert (CS : forall w, In w (allw ws) -> (exists p, p < nb /\ (w = wQ (nth p bl zq) (nth p srt 0) \/ w = wR r0 (nth p bl zq) (nth p srt 0))) \/ goodw w).
  { intros w Hw. apply in_app_or in Hw as [Hw|Hw].
    - apply LW in Hw as [(p & Hp & K)|(Hc & p & Hp & K)]; [left; eauto|right]. rewrite fills_fs in Hp, K. rewrite K. now apply wF_good.
    - apply ZW in Hw as (Hc & p & Hp & ->). right. now apply wZ_good. }
  split; [|split; [|split]].
  - intros w Hw. apply CS in Hw as [(p & Hp & K)|K]; [|now left]. destruct (Nat.eq_dec (nth (nth p srt 0) srt 0) p) as [HS|HS].
    + left. destruct K as [-> | ->]; [now apply wQ_good|now apply wR_good].
    + right. destruct K as [-> | ->]; [now apply wQ_bad|now apply wR_bad].
  - intros HS w Hw. apply CS in Hw as [(p & Hp & K)|K]; [|exact K]. specialize (HS p Hp). destruct K as [-> | ->]; [now apply wQ_good|now apply wR_good].
  - intros p Hp. split; apply in_or_app; left; apply LW; left; exists p; auto.
  - intros j Hj HS. apply cols_cases in Hj as [Hj|[(Hc & p & Hp & ->)|(Hc & p & Hp & ->)]].
    + pose proof (srt_lt bl srt PS j Hj) as Hn. exists (wQ (nth (nth j srt 0) bl zq) (nth (nth j srt 0) srt 0)). split; [apply in_or_app; left; apply LW; left; exists (nth j srt 0); auto|].
      unfold wQ. cbn [w_toR w_i w_j]. rewrite (cols_main (bs qI) bl srt complete PS) by exact Hj. repeat split. now apply HS.
    + exists (wF (nth p (fs bl) zq) (p + nb)). split; [apply in_or_app; left; apply LW; right; split; [exact Hc|]; exists p; rewrite fills_fs; auto|]. destruct (nth_fill p Hc Hp) as [_ E]. rewrite E. unfold wF. cbn. repeat split. lia.
    + eexists. split; [apply in_or_app; right; apply ZW; split; [exact Hc|]; exists p; split; [exact Hp|]; reflexivity|]. destruct (nth_zero p Hc Hp) as [_ E]. rewrite E. cbn. repeat split. lia.
Qed.
End Made.

(** UB is only possible with three blocks; three blocks of rI have three different charges. *)
Lemma qqr2_spec complete positive dir is A qI rI q : qI <> rI -> qtensor dir is A q -> Permutation is [qI; rI] -> sectors qI -> sectors rI -> dir qI <> ArrNeither -> dir rI <> ArrNeither ->
  (forall ql, mk 0 ql <> qI /\ mk 0 ql <> rI) ->
  let A2 := fun u v => qval is A (fun y => if ieq qI y then u else v) in
  (exists l Q Rm q', qqr2 true complete positive dir is A qI rI (dir qI) (dir rI) = Ok ([qI; l], Q, ([l; rI], Rm)) /\ (exists ql, l = mk 0 ql) /\
     qtensor (arrows2 ieq qI l (dir qI) (arrow_neg (dir qI))) [qI; l] Q qn0 /\ qtensor (arrows2 ieq l rI (dir qI) (dir rI)) [l; rI] Rm q' /\ qn_eqb q' q = true /\
     offs Q <> [] /\ offs Rm <> [] /\ 0 < total l /\
     qrm (total qI) (total rI) (total l) complete positive A2 (qel qI l Q) (qel l rI Rm)) \/
  (qqr2 true complete positive dir is A qI rI (dir qI) (dir rI) = Err /\ (offs A = [] \/ qr_fails lap)) \/
  (qqr2 true complete positive dir is A qI rI (dir qI) (dir rI) = UB /\ 2 < nblocks rI).
Proof.
  intros Hne HQ PM SU SV DU DV HN A2.
  destruct (getBlocks_spec r0 ieq ieq_spec bs qns M Sx Sch dir is A qI rI q Hne HQ PM SU SV DU DV) as (bl0 & EB & LB & HB0 & HZ0 & N10 & N20).
  unfold QrModel.qqr2. cbn [negb]. rewrite andb_false_r. rewrite EB. cbn [obind].
  destruct HQ as (HP & HL & HS & Cq & HFl).
  pose proof (getBlocks_flux dir is A qI rI q bl0 Hne PM HFl EB) as HFx.
  assert (E0 : bl0 = [] \/ bl0 <> []) by (destruct bl0; [now left|right; discriminate]). destruct E0 as [->|NE0].
  { right. left. split; [reflexivity|]. left. destruct (offs A); [reflexivity|discriminate]. }
  replace (match bl0 with [] => Err | _ :: _ => _ end) with
    (let! bl := traverse (qr_block r0 ropp neg lap complete positive) bl0 in
     let srt := sort_i2 bl in
     let! Liq := qr_sectors bs qns true complete qI bl srt in
     let l := mk 0 Liq in
     let! Q0 := qmake r0 bs qns (arrows2 ieq qI l (dir qI) (arrow_neg (dir qI))) [qI; l] qn0 in
     let! dv' := calcDiv qns dir is A in
     let! R0 := qmake r0 bs qns (arrows2 ieq l rI (dir qI) (dir rI)) [l; rI] dv' in
     match Q0, R0 with
     | Some Q0, Some R0 =>
        let '(ws, e) := loop_writes r0 true complete srt (length bl) bl 0 0 in
        let! zs := if complete then zero_writes r0 r1 bs qI (zerob bs qI bl) (length bl) e else Ok [] in
        let! (Q, Rm) := run_writes bs qI l rI (ws ++ zs) Q0 R0 in
        Ok (([qI; l], Q), ([l; rI], Rm))
     | _, _ => UB
     end) by (destruct bl0; [congruence|reflexivity]).
  assert (INu : In qI is) by (eapply Permutation_in; [symmetry; exact PM|cbn; auto]). assert (INv : In rI is) by (eapply Permutation_in; [symmetry; exact PM|cbn; auto]).
  assert (LU : labelled [qI]) by (intros x [<-|[]]; now apply HL). assert (LV : labelled [rI]) by (intros x [<-|[]]; now apply HL).
  pose proof (proper1 bs qI is HP INu) as PU. pose proof (proper1 bs rI is HP INv) as PV.
  destruct (qr_blocks_spec complete positive bl0) as [(bl & ES & F)|(ES & K)]; [intros b Hb; now apply HB0| |rewrite ES; cbn [obind]; right; left; auto].
  rewrite ES. cbn [obind]. pose proof (F2_len _ _ _ F) as LS.
  assert (ORD : forall s, ranged is s <-> s qI < total qI /\ s rI < total rI).
  { intros s. unfold QdSpec.ranged. split; [intros H; auto|]. intros [H1 H2] x Hx. eapply Permutation_in in Hx; [|exact PM]. destruct Hx as [<-|[<-|[]]]; auto. }
  assert (UV : ieq qI rI = false) by (destruct (ieq qI rI) eqn:E; auto; apply ieq_spec in E; contradiction).
  assert (UU : ieq qI qI = true) by now apply ieq_spec.
  assert (HB : forall b, In b bl -> bok r0 r1 radd rmul conj neg (bs qI) (bs rI) complete positive A2 b).
  { intros b Hb. destruct (F2_in _ _ _ b F Hb) as (b' & Hb' & E1 & E2 & E3 & E4 & E5 & HM & HD). destruct (HB0 b' Hb') as (K1 & K2 & (_ & _ & G1 & G2) & K3 & K4 & K5).
    unfold bok. rewrite E1, E2. split; [exact K1|]. split; [exact K2|]. split; [congruence|]. split; [congruence|]. split; [rewrite E3; exact G1|]. split; [rewrite E4; exact G2|]. split; [exact E5|]. split; [|exact HD].
    destruct HM as (M1 & M2 & M3 & M4). split; [exact M1|]. split; [exact M2|]. split; [|exact M4]. intros i j Hi Hj. rewrite <- M3 by assumption.
    destruct (blk_glue (bs qI) (bi1 b') i K1) as (B1 & B2 & B3); [rewrite <- K3, <- E3; exact Hi|]. destruct (blk_glue (bs rI) (bi2 b') j K2) as (C1 & C2 & C3); [rewrite <- K4, <- E4; exact Hj|].
    unfold A2. rewrite K5; rewrite ?UU, ?UV; [now rewrite B2, C2| |exact B1|exact C1]. apply ORD. rewrite UU, UV. auto. }
  assert (MI1 : map (@qb_i1 R) bl = map bi1 bl0) by (apply (F2_map _ _ _ _ _ F); intros a b K; apply K). assert (MI2 : map (@qb_i2 R) bl = map bi2 bl0) by (apply (F2_map _ _ _ _ _ F); intros a b K; apply K).
  assert (N1 : NoDup (map (@qb_i1 R) bl)) by (rewrite MI1; exact N10). assert (N2 : NoDup (map (@qb_i2 R) bl)) by (rewrite MI2; exact N20).
  assert (HZ : forall u v, u < list_sum (bs qI) -> v < list_sum (bs rI) -> (forall b, In b bl -> qb_i1 b <> blk (bs qI) u \/ qb_i2 b <> blk (bs rI) v) -> A2 u v = r0).
  { intros u v Hu Hv Hb. unfold A2. apply HZ0; [apply ORD; rewrite UU, UV; auto|]. rewrite UU, UV. intros b' Hb'.
    assert (K : exists b, In b bl /\ qb_i1 b = bi1 b' /\ qb_i2 b = bi2 b').
    { clear -F Hb'. induction F as [|x y l l' H F IH]; [destruct Hb'|]. destruct Hb' as [<-|Hb']; [exists y; split; [now left|]; split; apply H|]. destruct (IH Hb') as (b & K & E). exists b. cbn. auto. }
    destruct K as (b & K & E1 & E2). rewrite <- E1, <- E2. now apply Hb. }
  assert (HF : forall b, In b bl -> forall n, residue (M n) (arrow_int (dir qI) * qn_val_of (nth (qb_i1 b) (qns qI) qn0) n + arrow_int (dir rI) * qn_val_of (nth (qb_i2 b) (qns rI) qn0) n)%Z = qn_val_of q n).
  { intros b Hb n. destruct (F2_in _ _ _ b F Hb) as (b' & Hb' & E1 & E2 & _). rewrite E1, E2. now apply HFx. }
  assert (Hbl : bl <> []) by (destruct bl; [destruct bl0; [congruence|discriminate]|discriminate]).
  destruct (sort_spec bl N2) as [PS HI]. set (srt := sort_i2 bl) in *. cbv zeta.
  destruct (LU qI (or_introl eq_refl)) as [LQ _].
  assert (SMD : qr_sectors bs qns true complete qI bl srt = Ok (map (fun c => (nth (ci c) (qns qI) qn0, cs c)) (cols (bs qI) bl srt complete))) by (apply (sectors_made qI complete bl); auto; intros b Hb; rewrite LQ; now apply HB).
  rewrite SMD. cbn [obind].
  set (cl := cols (bs qI) bl srt complete). set (Liq := map (fun c => (nth (ci c) (qns qI) qn0, cs c)) cl). set (l := mk 0 Liq).
  destruct (HN Liq) as [NL1 NL2]. fold l in NL1, NL2. assert (NQ : qI <> l) by congruence.
  assert (Bl : bs l = bsl (bs qI) bl srt complete) by (unfold l; rewrite mk_bs; unfold Liq, bsl; rewrite map_map; reflexivity).
  assert (Ql : qns l = map (fun c => nth (ci c) (qns qI) qn0) cl) by (unfold l; rewrite mk_qns; unfold Liq; rewrite map_map; reflexivity).
  destruct (makeQ qI rI complete positive bl dir q A2 LU PU SU DU HB HZ N1 N2 HF Hbl l Bl Ql NQ) as (Q0 & EQ & TQ & BQ & ZQ). rewrite EQ. cbn [obind].
  assert (NEA : offs A <> []) by (intros K; rewrite K in LB; destruct bl0; [congruence|discriminate]).
  assert (exists q', calcDiv qns dir is A = Ok q' /\ Charges M Sx q' /\ qn_eqb q' q = true) as (q' & ED & Cq' & EQq).
  { unfold calcDiv. assert (NEi : is <> []) by (intros ->; apply Permutation_nil in PM; discriminate). destruct is as [|x is'] eqn:Eis; [congruence|]. destruct (offs A) as [|[b o] lo] eqn:E; [congruence|]. cbn [fst].
    assert (V : valid (map nblocks (x :: is')) b) by (pose proof (stored_valid bs _ A HS) as SV'; rewrite E in SV'; inversion SV'; subst; auto).
    destruct (block_qn_flux bs qns dir M Sx Sch (x :: is') b q HL V Cq) as (q' & E' & C' & _ & K). exists q'. split; [exact E'|]. split; [exact C'|]. apply K. apply HFl. unfold has_block. rewrite E. left. reflexivity. }
  rewrite ED. cbn [obind].
  destruct (makeR qI rI complete positive bl dir q A2 LU LV PU PV SU DU Cq HB HZ N1 N2 HF Hbl l Bl Ql NL2 q' Cq' EQq) as (R0 & ER & TR & BR & ZR). rewrite ER. cbn [obind].
  destruct (loop_spec r0 complete srt (length bl) bl 0 0) as [LE _].
  destruct (loop_writes r0 true complete srt (length bl) bl 0 0) as [ws e] eqn:EW. cbn [fst snd] in *.
  assert (FF : fills bl = fs bl) by exact (fills_fs qI rI complete positive bl A2 HB).
  assert (Ee : e = (if complete then length (fs bl) else 0)) by (rewrite LE, FF; destruct complete; reflexivity).
  assert (exists zw, (if complete then zero_writes r0 r1 bs qI (zerob bs qI bl) (length bl) e else Ok []) = Ok zw /\ (complete = true -> zero_writes r0 r1 bs qI (zerob bs qI bl) (length bl) e = Ok zw) /\ (complete = false -> zw = [])) as (zw & EZ & EZ1 & EZ2).
  { destruct complete; [|exists []; repeat split; auto; discriminate]. destruct (zero_spec r0 r1 bs qI (length bl) (zerob bs qI bl)) with (e := e) as (zw & E & _); [|exists zw; repeat split; auto; discriminate].
    intros i Hi. unfold zerob in Hi. apply filter_In in Hi as [Hi _]. apply in_seq in Hi. lia. }
  rewrite EZ. cbn [obind].
  destruct (all_writes qI rI complete positive bl A2 PU HB N1 N2 l Bl Ql Q0 R0 BQ BR zw e Ee EZ1 EZ2) as (AW & AG & WI & WC). fold srt in AW, AG, WI, WC. rewrite EW in AW, AG, WI, WC. cbn [fst] in AW, AG, WI, WC.
  assert (SQ0 : stored [qI; l] Q0) by apply TQ. assert (SR0 : stored [l; rI] R0) by apply TR.
  assert (DEC : (forall p, p < length bl -> selfinv bl p) \/ exists p, p < length bl /\ ~ selfinv bl p).
  { assert (G : forall n, (forall p, p < n -> selfinv bl p) \/ exists p, p < n /\ ~ selfinv bl p).
    { induction n as [|n [IH|(p & Hp & K)]]; [left; lia| |right; exists p; split; [lia|exact K]]. unfold selfinv at 1. destruct (Nat.eq_dec (nth (nth n (sort_i2 bl) 0) (sort_i2 bl) 0) n) as [E|E]; [left|right; exists n; split; [lia|exact E]].
      intros p Hp. destruct (Nat.eq_dec p n) as [->|]; [exact E|apply IH; lia]. }
    apply G. }
  destruct DEC as [INV|(p & Hp & NINV)].
  2:{ right. right. rewrite (run_ub r0 ieq ieq_spec bs qI l rI NQ NL2 _ _ (ws ++ zw) Q0 R0 SQ0 SR0 AW); [split; [reflexivity|]|].
      - assert (3 <= length bl).
        { destruct (Nat.le_gt_cases 3 (length bl)) as [|LT]; [assumption|]. exfalso. apply NINV. unfold selfinv. assert (LSr : length (sort_i2 bl) = length bl) by (fold srt; rewrite (Permutation_length PS), seq_length; reflexivity).
          apply perm_inv; rewrite LSr; auto. }
        assert (INC : incl (map (@qb_i2 R) bl) (seq 0 (nblocks rI))) by (intros i Hi; apply in_map_iff in Hi as (b & <- & Hb); apply in_seq; destruct (HB b Hb) as (_ & K2 & _); unfold QdSpec.nblocks; lia).
        pose proof (NoDup_incl_length N2 INC) as L. rewrite map_length, seq_length in L. lia.
      - exists (wQ (nth p bl zq) (nth p srt 0)). split; [now apply WI|]. apply (wQ_bad qI rI complete positive bl A2 HB N1 N2 l Bl Q0 R0 BQ p Hp NINV). }
  left.
  destruct (run_ok r0 ieq ieq_spec bs qI l rI NQ NL2 _ _ (ws ++ zw) Q0 R0 SQ0 SR0 (AG INV)) as (Q & Rm & EX & SQ & SR & OQ & OR & VQ & VR). rewrite EX. cbn [obind].
  exists l, Q, Rm, q'. split; [reflexivity|]. split; [exists Liq; reflexivity|].
  split. { destruct TQ as (P1 & P2 & _ & P4 & P5). split; [exact P1|]. split; [exact P2|]. split; [exact SQ|]. split; [exact P4|]. intros b. unfold has_block. rewrite OQ. apply P5. }
  split. { destruct TR as (P1 & P2 & _ & P4 & P5). split; [exact P1|]. split; [exact P2|]. split; [exact SR|]. split; [exact P4|]. intros b. unfold has_block. rewrite OR. apply P5. }
  split; [exact EQq|].
  assert (P0 : 0 < length bl) by (destruct bl; [congruence|cbn; lia]).
  assert (LC : length bl <= length cl) by exact (cols_len qI complete bl N2).
  assert (NBl : nblocks l = length cl) by (unfold QdSpec.nblocks; rewrite Bl; apply map_length).
  assert (CK : forall j, j < length cl -> ci (nth j cl (0, 0, 0)) < nblocks qI /\ 0 < cs (nth j cl (0, 0, 0))).
  { intros j Hj. destruct (cols_ok r0 r1 radd rmul conj neg (bs qI) (bs rI) bl srt complete positive A2 HB N1 PS) with (c := nth j cl (0, 0, 0)) as (K1 & K2 & _); [|apply nth_In, Hj|split; [exact K1|exact K2]].
    intros n Hn. destruct (proj2 PU qI (or_introl eq_refl)) as [_ FP]. rewrite Forall_forall in FP. now apply FP. }
  split. { rewrite OQ. intros K. assert (HB1 : has_block Q0 [ci (nth 0 cl (0, 0, 0)); 0]) by (apply BQ; [apply CK; lia|exact (Nat.lt_le_trans _ _ _ P0 LC)|reflexivity]). unfold has_block in HB1. rewrite K in HB1. destruct HB1. }
  split. { rewrite OR. intros K. assert (HB1 : has_block R0 [0; qb_i2 (bat bl srt 0)]).
    { apply BR; [exact (Nat.lt_le_trans _ _ _ P0 LC)|exact (bat_in bl srt PS 0 P0)|]. fold srt. fold cl. unfold cl. rewrite (cols_main (bs qI) bl srt complete PS 0 P0). reflexivity. } unfold has_block in HB1. rewrite K in HB1. destruct HB1. }
  assert (TL : total l = list_sum (bsl (bs qI) bl srt complete)) by (unfold QdSpec.total; now rewrite Bl).
  split. { apply (total_pos bs l [qI; l]); [apply TQ|cbn; auto]. }
  assert (VQ' : forall u x, u < total qI -> x < total l -> qel qI l Q u x = Q2 r0 r1 (bs qI) bl srt complete u x).
  { intros u x Hu Hx. unfold SvdQ2.qel. assert (EL : ieq qI l = false) by (destruct (ieq qI l) eqn:E; auto; apply ieq_spec in E; contradiction). rewrite VQ by (apply ranged2; rewrite UU, EL; auto). rewrite UU, EL.
    destruct (existsb _ (ws ++ zw)) eqn:E; [reflexivity|]. rewrite ZQ. unfold Q2. fold cl. rewrite <- Bl. set (j := blk (bs l) x) in *. assert (Hj : j < length cl) by (rewrite <- NBl; apply blk_lt; exact Hx).
    unfold SvdQn.onb. destruct (Nat.eqb_spec (blk (bs qI) u) (ci (nth j cl (0, 0, 0)))) as [EE|]; [|reflexivity]. exfalso.
    destruct (WC j Hj INV) as (w & Hw & W1 & W2 & W3). assert (K : existsb (fun w => negb (w_toR w) && hit bs qI l (fun y => if ieq qI y then u else x) w) (ws ++ zw) = true).
    { apply existsb_exists. exists w. split; [exact Hw|]. rewrite W1. unfold hit. rewrite UU, EL. fold cl in W2. rewrite W2, W3, EE. fold j. rewrite !Nat.eqb_refl. reflexivity. }
    rewrite K in E. discriminate. }
  assert (VR' : forall x v, x < total l -> v < total rI -> qel l rI Rm x v = R2 r0 (bs qI) (bs rI) bl srt complete x v).
  { intros x v Hx Hv. unfold SvdQ2.qel. assert (EL : ieq l rI = false) by (destruct (ieq l rI) eqn:E; auto; apply ieq_spec in E; contradiction). assert (LL : ieq l l = true) by now apply ieq_spec. rewrite VR by (apply ranged2; rewrite LL, EL; auto). rewrite LL, EL.
    destruct (existsb _ (ws ++ zw)) eqn:E; [reflexivity|]. rewrite ZR. unfold R2. rewrite <- Bl. set (j := blk (bs l) x) in *. destruct (Nat.ltb_spec j (length bl)) as [Hj|]; [|reflexivity]. cbv zeta.
    unfold SvdQn.onb. destruct (Nat.eqb_spec (blk (bs rI) v) (qb_i2 (bat bl srt j))) as [EE|]; [|reflexivity]. exfalso.
    pose proof (srt_lt bl srt PS j Hj) as Hn. destruct (WI (nth j srt 0) Hn) as [_ Hw]. assert (K : existsb (fun w => w_toR w && hit bs l rI (fun y => if ieq l y then x else v) w) (ws ++ zw) = true).
    { apply existsb_exists. eexists. split; [exact Hw|]. unfold wR, hit. cbn [w_toR w_i w_j]. rewrite LL, EL. fold j. rewrite EE. pose proof (INV j Hj) as IJ. unfold selfinv in IJ. fold srt in IJ. unfold bat. rewrite IJ. rewrite !Nat.eqb_refl. reflexivity. }
    rewrite K in E. discriminate. }
  pose proof (blocks_qrm r0 r1 radd rmul rsub ropp RT conj HC neg neg_opp (bs qI) (bs rI) bl srt complete positive A2 HB HZ N1 PS HI) as BQR.
  destruct BQR as (Q1 & Q2' & Q3 & Q4 & Q5).
  { intros n Hn. destruct (proj2 PU qI (or_introl eq_refl)) as [_ FP]. rewrite Forall_forall in FP. now apply FP. }
  rewrite <- TL in *. split; [|split; [|split; [|split]]].
  - intros u v Hu Hv. rewrite Q1 by assumption. apply sum_ext. intros x Hx. now rewrite VQ', VR'.
  - intros x x' Hx Hx'. rewrite <- Q2' by assumption. apply sum_ext. intros u Hu. now rewrite !VQ'.
  - intros Hc. destruct (Q3 Hc) as [K1 K2]. split; [exact K1|]. intros u u' Hu Hu'. rewrite <- K2 by assumption. apply sum_ext. intros x Hx. now rewrite !VQ'.
  - intros x v Hx Hv Hl. rewrite VR' by assumption. now apply Q4.
  - intros HPo v Hv Hx. rewrite VR' by assumption. now apply Q5.
Qed.
End QrQ.
