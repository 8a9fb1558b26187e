(** The Davidson loop keeps an orthonormal basis and returns Ritz pairs. *)
From Coq Require Import List Arith Lia Bool Ring Field.
From Verif Require Import Util DavSpec DavModel DavProofs.
Import ListNotations.
Local Open Scope outcome_scope.
Local Arguments Nat.sub : simpl never.
Local Arguments upd : simpl never.

Section Loop.
Context {F : Type} (f0 f1 : F) (fadd fmul fsub : F -> F -> F) (fopp : F -> F)
  (fdiv : F -> F -> F) (finv : F -> F) (fltb : F -> F -> bool) (fsqrt : F -> outcome F)
  (OF : ordered_field f0 f1 fadd fmul fsub fopp fdiv finv fltb)
  (SQ : sqrt_ok f0 fmul fltb fsqrt).
Let FT := of_field _ _ _ _ _ _ _ _ _ OF.
Add Field FFdl : FT.
Notation le x y := (fltb y x = false).
Notation lt x y := (fltb x y = true).
Notation K := (@cplx F).
Notation c0 := (c0 f0). Notation c1 := (c1 f0 f1). Notation cof := (cof f0).
Notation cadd := (cadd fadd). Notation cmul := (cmul fadd fmul fsub). Notation copp := (copp fopp).
Notation csub := (csub fsub). Notation cconj := (cconj fopp).
Notation csum := (csum f0 fadd).
Let CR := cring f0 f1 fadd fmul fsub fopp fdiv finv fltb OF.
Add Ring CRdl : CR.

Context {V : Type} (inV : V -> Prop) (vadd : V -> V -> V) (vscale : K -> V -> V) (dot : V -> V -> K)
  (IS : inner_space f0 fadd fmul fsub fopp fltb inV vadd vscale dot)
  (A : V -> V) (HA : hermitian fadd fmul fsub inV vadd vscale dot A)
  (size : nat)
  (heev : nat -> (nat -> nat -> K) -> outcome ((nat -> nat -> K) * (nat -> F)))
  (HEEV : heev_ok f0 f1 fadd fmul fsub fopp fltb heev)
  (rnd0 rnd : nat -> nat -> V) (R0 : forall j k, inV (rnd0 j k)) (R1 : forall j k, inV (rnd j k))
  (c1em20 c1em10 Approx0 c1em3 thousand : F) (Hc : lt f0 c1em10).

Notation ritz := (ritz f0 f1 inV dot A).
Notation norm := (norm fsqrt dot).

Ltac g L := apply (L F f0 f1 fadd fmul fsub fopp fdiv finv fltb OF).
Ltac rw L := rewrite (L F f0 f1 fadd fmul fsub fopp fdiv finv fltb OF).

Lemma conj_dot u v : inV u -> inV v -> dot v u = cconj (dot u v).
Proof. apply (is_conj _ _ _ _ _ _ _ _ _ _ IS). Qed.

Lemma dot_add u v w : inV u -> inV v -> inV w -> dot u (vadd v w) = cadd (dot u v) (dot u w).
Proof. apply (is_add _ _ _ _ _ _ _ _ _ _ IS). Qed.

Lemma dot_scale c u v : inV u -> inV v -> dot u (vscale c v) = cmul c (dot u v).
Proof. apply (is_scale _ _ _ _ _ _ _ _ _ _ IS). Qed.

Lemma in_add v w : inV v -> inV w -> inV (vadd v w).
Proof. apply (is_add_in _ _ _ _ _ _ _ _ _ _ IS). Qed.

Lemma in_scale c v : inV v -> inV (vscale c v).
Proof. apply (is_scale_in _ _ _ _ _ _ _ _ _ _ IS). Qed.

Lemma in_A v : inV v -> inV (A v).
Proof. apply (h_in _ _ _ _ _ _ _ _ HA). Qed.

Lemma dot_scale_l c u v : inV u -> inV v -> dot (vscale c u) v = cmul (cconj c) (dot u v).
Proof.
  intros Hu Hv. rewrite conj_dot by (first [assumption|now apply in_scale]).
  rewrite dot_scale by assumption. rw (@conj_mul). f_equal. symmetry. now apply conj_dot.
Qed.

(** Numbers equal to their conjugate are real. *)
Lemma self_conj z : z = cconj z -> z = cof (fst z).
Proof.
  destruct z as [a b]. unfold DavSpec.cconj, DavSpec.cof. cbn [fst snd]. intros [= H]. f_equal.
  assert (E : fadd b b = f0) by (rewrite H at 2; ring).
  apply (of_total _ _ _ _ _ _ _ _ _ OF).
  - destruct (fltb b f0) eqn:L; [|reflexivity]. exfalso.
    pose proof (of_add _ _ _ _ _ _ _ _ _ OF _ _ b L) as L2. rewrite E in L2. replace (fadd f0 b) with b in L2 by ring.
    pose proof (of_trans _ _ _ _ _ _ _ _ _ OF _ _ _ L L2) as L3. rewrite (of_irrefl _ _ _ _ _ _ _ _ _ OF) in L3. discriminate.
  - destruct (fltb f0 b) eqn:L; [|reflexivity]. exfalso.
    pose proof (of_add _ _ _ _ _ _ _ _ _ OF _ _ b L) as L2. rewrite E in L2. replace (fadd f0 b) with b in L2 by ring.
    pose proof (of_trans _ _ _ _ _ _ _ _ _ OF _ _ _ L L2) as L3. rewrite (of_irrefl _ _ _ _ _ _ _ _ _ OF) in L3. discriminate.
Qed.

Lemma dot_self v : inV v -> dot v v = cof (fst (dot v v)).
Proof. intros H. apply self_conj. now apply conj_dot. Qed.

Lemma dot_herm v : inV v -> dot v (A v) = cof (fst (dot v (A v))).
Proof.
  intros H. apply self_conj. rewrite (h_herm _ _ _ _ _ _ _ _ HA) at 1 by assumption.
  apply conj_dot; [assumption|now apply in_A].
Qed.

(** Scaling to norm one. *)
Lemma normalized v r : inV v -> norm v = Ok r -> r <> f0 ->
  dot (vscale (cof (finv r)) v) (vscale (cof (finv r)) v) = c1.
Proof.
  intros Hv Hn Hr. unfold DavModel.norm in Hn. apply SQ in Hn as [Hn _].
  rewrite dot_scale, dot_scale_l by (first [assumption|now apply in_scale]).
  rewrite (dot_self v) by assumption. rewrite <- Hn. rw (@conj_of).
  rewrite <- !(of_mul' f0 f1 fadd fmul fsub fopp fdiv finv fltb OF).
  rewrite <- (of_1 f0 f1). f_equal. field. assumption.
Qed.

(** Linear combinations. *)
Lemma csum_S_l n h : csum (S n) h = cadd (h 0) (csum n (fun m => h (S m))).
Proof.
  induction n as [|n IHn]; [cbn [DavSpec.csum]; ring|].
  change (csum (S (S n)) h) with (cadd (csum (S n) h) (h (S n))). rewrite IHn.
  change (csum (S n) (fun m => h (S m))) with (cadd (csum n (fun m => h (S m))) (h (S n))). ring.
Qed.

Lemma comb_in U t k acc X : inV acc -> Forall inV X -> inV (comb vadd vscale U t k acc X).
Proof.
  revert k acc. induction X as [|x X IH]; intros k acc Ha HX; cbn [comb]; [assumption|].
  apply Forall_cons_iff in HX as [Hx HX]. apply IH; [|assumption]. now apply in_add; [|apply in_scale].
Qed.

Lemma comb_dot (f : V -> K) U t k acc X d :
  (forall v w, inV v -> inV w -> f (vadd v w) = cadd (f v) (f w)) ->
  (forall c v, inV v -> f (vscale c v) = cmul c (f v)) ->
  inV acc -> Forall inV X ->
  f (comb vadd vscale U t k acc X) = cadd (f acc) (csum (length X) (fun m => cmul (U (k + m) t) (f (nth m X d)))).
Proof.
  intros Fa Fs. revert k acc. induction X as [|x X IH]; intros k acc Ha HX; cbn [comb length].
  - cbn [DavSpec.csum]. ring.
  - apply Forall_cons_iff in HX as [Hx HX].
    rewrite IH by (first [assumption | now apply in_add; [|apply in_scale]]).
    rewrite Fa, Fs by (first [assumption|now apply in_scale]).
    rewrite csum_S_l. cbn [nth]. rewrite Nat.add_0_r.
    rewrite (csum_ext f0 fadd (length X) (fun m => cmul (U (k + S m) t) (f (nth m X d)))
      (fun m => cmul (U (S k + m) t) (f (nth m X d)))) by (intros; now rewrite Nat.add_succ_r).
    ring.
Qed.

Lemma combine_len U t n X p : combine_cols vadd vscale U t n X = Ok p -> 0 < n /\ n <= length X.
Proof.
  unfold combine_cols. destruct n; cbn [firstn]; [discriminate|]. destruct X as [|x X]; [discriminate|].
  destruct (length (x :: X) <? S n) eqn:E; [discriminate|]. apply Nat.ltb_ge in E. lia.
Qed.

Lemma combine_in U t n X p : combine_cols vadd vscale U t n X = Ok p -> Forall inV X -> inV p.
Proof.
  unfold combine_cols. intros H HX. destruct (firstn n X) as [|x X'] eqn:E; [discriminate|].
  destruct (length X <? n); [discriminate|]. injection H as <-.
  assert (HX' : Forall inV (x :: X')).
  { rewrite <- E. apply Forall_forall. intros y Hy. rewrite Forall_forall in HX. apply HX.
    rewrite <- (firstn_skipn n X). apply in_or_app. now left. }
  apply Forall_cons_iff in HX' as [Hx HX']. apply comb_in; [now apply in_scale|assumption].
Qed.

Lemma combine_dot (f : V -> K) U t n X p d :
  combine_cols vadd vscale U t n X = Ok p ->
  (forall v w, inV v -> inV w -> f (vadd v w) = cadd (f v) (f w)) ->
  (forall c v, inV v -> f (vscale c v) = cmul c (f v)) ->
  Forall inV X ->
  f p = csum n (fun k => cmul (U k t) (f (nth k X d))).
Proof.
  intros H Fa Fs HX. pose proof (combine_len _ _ _ _ _ H) as [Hn Hl].
  unfold combine_cols in H. destruct n as [|n]; [lia|]. destruct X as [|x X]; [cbn in Hl; lia|].
  cbn [firstn] in H. destruct (length (x :: X) <? S n); [discriminate|]. injection H as <-.
  apply Forall_cons_iff in HX as [Hx HX]. cbn [length] in Hl.
  rewrite (comb_dot f _ _ _ _ _ d Fa Fs).
  - rewrite Fs by assumption. rewrite firstn_length_le by lia.
    rewrite csum_S_l. cbn [nth]. f_equal. apply (csum_ext f0 fadd). intros k Hk. cbn [Nat.add]. do 2 f_equal.
    clear -Hk Hl. revert n k Hk Hl. induction X as [|y X IH]; intros [|n] k Hk Hl; cbn [length] in *; try lia.
    cbn [firstn]. destruct k; cbn [nth]; [reflexivity|]. apply IH; lia.
  - now apply in_scale.
  - apply Forall_forall. intros y Hy. rewrite Forall_forall in HX. apply HX.
    rewrite <- (firstn_skipn n X). apply in_or_app. now left.
Qed.

(** An orthonormal list. *)
Definition ortho (Vs : list V) (d : V) : Prop :=
  Forall inV Vs /\ forall i j, i < length Vs -> j < length Vs ->
    dot (nth i Vs d) (nth j Vs d) = if i =? j then c1 else c0.

Lemma nth_in Vs d i : Forall inV Vs -> i < length Vs -> inV (nth i Vs d).
Proof. intros H Hi. rewrite Forall_forall in H. apply H. now apply nth_In. Qed.

(** Columns of a unitary matrix that diagonalises the projected operator give Ritz pairs. *)
Lemma ritz_comb Vs d n M U w t p :
  ortho Vs d -> n <= length Vs ->
  (forall i j, i < n -> j < n -> M i j = dot (nth i Vs d) (A (nth j Vs d))) ->
  (forall i j, i < n -> j < n -> csum n (fun k => cmul (cconj (U k i)) (U k j)) = if i =? j then c1 else c0) ->
  (forall i j, i < n -> j < n -> csum n (fun k => cmul (M i k) (U k j)) = cmul (U i j) (cof (w j))) ->
  t < n -> combine_cols vadd vscale U t n Vs = Ok p -> ritz (w t) p.
Proof.
  intros [HV HO] Hn HM UU MU Ht Hp.
  pose proof (combine_in _ _ _ _ _ Hp HV) as Ip.
  assert (D1 : forall u, inV u -> dot u p = csum n (fun k => cmul (U k t) (dot u (nth k Vs d)))).
  { intros u Hu. apply (combine_dot (fun x => dot u x) _ _ _ _ _ d Hp); try assumption.
    - intros; now apply dot_add.
    - intros; now apply dot_scale. }
  assert (D2 : forall u, inV u -> dot p u = csum n (fun k => cmul (cconj (U k t)) (dot (nth k Vs d) u))).
  { intros u Hu. rewrite (conj_dot u p) by assumption. rewrite D1 by assumption. rw (@csum_conj).
    apply (csum_ext f0 fadd). intros k Hk. rw (@conj_mul). f_equal. symmetry. apply conj_dot; [assumption|apply nth_in; [assumption|lia]]. }
  split; [assumption|]. split.
  - rewrite D2 by assumption.
    transitivity (if t =? t then c1 else c0); [|now rewrite Nat.eqb_refl].
    rewrite <- (UU t t Ht Ht). apply (csum_ext f0 fadd). intros k Hk. f_equal.
    rewrite D1 by (apply nth_in; [assumption|lia]).
    rewrite (csum_ext f0 fadd _ _ (fun l => cmul (if k =? l then c1 else c0) (U l t))).
    + now rw (@csum_delta).
    + intros l Hl. rewrite HO by lia. ring.
  - rewrite D2 by now apply in_A.
    rewrite <- (column_energy f0 f1 fadd fmul fsub fopp fdiv finv fltb OF n M U w t Ht UU MU).
    apply (csum_ext f0 fadd). intros i Hi. f_equal.
    assert (Ii : inV (nth i Vs d)) by (apply nth_in; [assumption|lia]).
    rewrite (combine_dot (fun x => dot (nth i Vs d) (A x)) _ _ _ _ _ d Hp).
    + apply (csum_ext f0 fadd). intros k Hk. rewrite HM by lia. ring.
    + intros; now apply (h_add _ _ _ _ _ _ _ _ HA).
    + intros; now apply (h_scale _ _ _ _ _ _ _ _ HA).
    + assumption.
Qed.

(** Changing the sign keeps a Ritz pair. *)
Lemma ritz_neg e v : ritz e v -> ritz e (vscale (cof (fopp f1)) v).
Proof.
  intros (I & N & E). split; [now apply in_scale|].
  assert (CC : cmul (cof (fopp f1)) (cconj (cof (fopp f1))) = c1).
  { rw (@conj_of). rewrite <- (of_mul' f0 f1 fadd fmul fsub fopp fdiv finv fltb OF).
    replace (fmul (fopp f1) (fopp f1)) with f1 by ring. apply (of_1 f0 f1). }
  split.
  - rewrite dot_scale, dot_scale_l by (first [assumption|now apply in_scale]). rewrite N.
    transitivity (cmul (cof (fopp f1)) (cconj (cof (fopp f1)))); [ring|exact CC].
  - rewrite (h_scale _ _ _ _ _ _ _ _ HA) by (first [assumption|now apply in_scale]).
    rewrite dot_scale_l by (first [assumption|now apply in_A]). rewrite E.
    transitivity (cmul (cmul (cof (fopp f1)) (cconj (cof (fopp f1)))) (cof e)); [ring|]. rewrite CC. ring.
Qed.

(** Gram-Schmidt. *)
Lemma subtract_in Vs : forall Vq q, Forall inV Vs -> inV q -> inV (subtract fopp vadd vscale Vs Vq q).
Proof.
  induction Vs as [|v Vs IH]; intros [|c Vq] q HV Hq; cbn [subtract]; try assumption.
  apply Forall_cons_iff in HV as [Hv HV]. apply IH; [assumption|]. now apply in_add; [|apply in_scale].
Qed.

Lemma subtract_dot u d : inV u -> forall Vs Vq q, Forall inV Vs -> inV q -> length Vq = length Vs ->
  dot u (subtract fopp vadd vscale Vs Vq q)
  = csub (dot u q) (csum (length Vs) (fun k => cmul (nth k Vq c0) (dot u (nth k Vs d)))).
Proof.
  intros Hu. induction Vs as [|v Vs IH]; intros [|c Vq] q HV Hq Hl; cbn [length] in Hl; try lia; cbn [subtract length].
  - cbn [DavSpec.csum]. ring.
  - apply Forall_cons_iff in HV as [Hv HV].
    rewrite IH by (first [assumption|lia|now apply in_add; [|apply in_scale]]).
    rewrite dot_add, dot_scale by (first [assumption|now apply in_scale]).
    rewrite csum_S_l. cbn [nth]. ring.
Qed.

Lemma orthogonalized Vs d q i : ortho Vs d -> inV q -> i < length Vs ->
  dot (nth i Vs d) (subtract fopp vadd vscale Vs (overlaps dot Vs q) q) = c0.
Proof.
  intros [HV HO] Hq Hi. assert (Ii : inV (nth i Vs d)) by now apply nth_in.
  rewrite (subtract_dot _ d) by (first [assumption|unfold overlaps; now rewrite map_length]).
  rewrite (csum_ext f0 fadd _ _ (fun k => cmul (if i =? k then c1 else c0) (dot (nth k Vs d) q))).
  - rw (@csum_delta); [|assumption]. ring.
  - intros k Hk. rewrite HO by assumption. unfold overlaps.
    rewrite (nth_indep _ c0 (dot d q)) by now rewrite map_length.
    rewrite (map_nth (fun v => dot v q)). ring.
Qed.

Lemma gs_ok Vs d ni : forall fuel tot q v, ortho Vs d -> inV q ->
  gramSchmidt f0 fopp finv fltb fsqrt vadd vscale dot size rnd c1em10 fuel tot ni Vs q = Ok (Some v) ->
  inV v /\ dot v v = c1 /\ forall i, i < length Vs -> dot (nth i Vs d) v = c0.
Proof.
  induction fuel as [|fuel IH]; intros tot q v HO Hq; cbn [gramSchmidt]; [discriminate|].
  set (q1 := subtract _ _ _ _ _ _).
  assert (I1 : inV q1) by (apply subtract_in; [apply HO|assumption]).
  destruct (norm q1) as [r| |] eqn:En; cbn [obind]; try discriminate.
  destruct (fltb r c1em10) eqn:Er.
  - destruct (norm (rnd ni tot)) as [r'| |] eqn:En'; cbn [obind]; try discriminate.
    destruct (size <=? ni); [discriminate|]. destruct (3 <? tot); [discriminate|].
    apply IH; [assumption|]. apply in_scale, R1.
  - intros [= <-]. split; [now apply in_scale|]. split.
    + apply normalized; try assumption. intros ->. rewrite Hc in Er. discriminate.
    + intros i Hi. rewrite dot_scale; [|apply nth_in; [apply HO|assumption]|assumption].
      unfold q1. rewrite orthogonalized by assumption. ring.
Qed.

(** Extending an orthonormal list. *)
Lemma ortho_app Vs d v : ortho Vs d -> inV v -> dot v v = c1 ->
  (forall i, i < length Vs -> dot (nth i Vs d) v = c0) -> ortho (Vs ++ [v]) d.
Proof.
  intros [HV HO] Hv Hn Ho. split; [apply Forall_app; split; [assumption|now constructor]|].
  rewrite app_length. cbn [length]. intros i j Hi Hj.
  destruct (Nat.eq_dec i (length Vs)) as [->|Ni]; destruct (Nat.eq_dec j (length Vs)) as [->|Nj].
  - rewrite Nat.eqb_refl. rewrite app_nth2 by lia. rewrite Nat.sub_diag. exact Hn.
  - rewrite (app_nth2 Vs) by lia. rewrite Nat.sub_diag. cbn [nth]. rewrite app_nth1 by lia.
    destruct (Nat.eqb_spec (length Vs) j); [lia|].
    rewrite conj_dot; [|apply nth_in; [assumption|lia]|assumption]. rewrite Ho by lia. rw (@conj_0). reflexivity.
  - rewrite app_nth1 by lia. rewrite (app_nth2 Vs) by lia. rewrite Nat.sub_diag. cbn [nth].
    destruct (Nat.eqb_spec i (length Vs)); [lia|]. apply Ho. lia.
  - rewrite !app_nth1 by lia. apply HO; lia.
Qed.

(** What holds at the start of iteration ii, [x] being the initial energy. *)
Definition pairs_ok (x : F) (s : @dstate F V) : Prop :=
  forall j e v, nth_error (seigs s) j = Some (Some e) -> nth_error (sphi s) j = Some v ->
    ritz e v /\ (j = 0 -> le e x).

Definition spectrum_ok (s : @dstate F V) : Prop :=
  sn s <= length (sV s) /\
  forall j p, j < sn s -> combine_cols vadd vscale (sU s) j (sn s) (sV s) = Ok p -> ritz (sD s j) p.

Definition Inv (d : V) (nget : nat) (x : F) (ii : nat) (s : @dstate F V) : Prop :=
  length (sV s) = S ii /\ length (sAV s) = S ii /\ ortho (sV s) d /\ Forall inV (sAV s) /\
  (forall i j, i < S ii -> j < S ii -> sM s i j = dot (nth i (sV s) d) (A (nth j (sV s) d))) /\
  sM s 0 0 = cof x /\
  st s <= ii /\ st s < nget /\ length (sphi s) = nget /\ length (seigs s) = nget /\
  pairs_ok x s /\ spectrum_ok s /\
  (ii = 0 -> exists v, nth_error (sphi s) 0 = Some v /\ nth_error (sV s) 0 = Some v) /\
  (0 < ii -> nth_error (seigs s) 0 <> Some None).

Definition Post (nget : nat) (x : F) (s : @dstate F V) : Prop :=
  st s < nget /\ length (sphi s) = nget /\ length (seigs s) = nget /\
  pairs_ok x s /\ spectrum_ok s /\ nth_error (seigs s) 0 <> Some None.

Lemma nth_error_upd {B} (l : list B) t x j : t < length l ->
  nth_error (upd t x l) j = if t =? j then Some x else nth_error l j.
Proof.
  intros Ht. destruct (Nat.eqb_spec t j) as [<-|N]; [now apply nth_error_upd_eq|now apply nth_error_upd_neq].
Qed.

Lemma ritzStep_ok d nget x ii s s1 lambda q : Inv d nget x ii s ->
  ritzStep f0 f1 fopp fltb vadd vscale heev x ii s = Ok (s1, lambda, q) ->
  Inv d nget x ii s1 /\ inV q /\ nth_error (seigs s1) 0 <> Some None.
Proof.
  intros (LV & LA & HO & HAV & HM & M0 & T1 & T2 & Lp & Le & HP & HS & HZ & HE). unfold ritzStep.
  destruct ((length (seigs s) <=? st s) || (length (sphi s) <=? st s)) eqn:EB; [discriminate|].
  destruct (Nat.eqb_spec ii 0) as [->|Nii].
  - assert (St : st s = 0) by lia. rewrite St in *.
    destruct (HZ eq_refl) as (v & Hp & Hv). unfold oget. rewrite Hv. cbn [obind].
    destruct (sAV s) as [|av [|? ?]] eqn:EA; cbn [length] in LA; try lia. cbn [nth_error obind].
    intros HH. apply (f_equal (fun o => match o with Ok y => y | _ => (s1, lambda, q) end)) in HH. cbn beta iota in HH.
    apply pair_equal_spec in HH as [HH <-]. apply pair_equal_spec in HH as [<- <-]. cbn [sV sAV sM sn sU sD st slast sphi seigs].
    assert (Iv : inV v).
    { destruct HO as [HV _]. rewrite Forall_forall in HV. apply HV. now apply nth_error_In with 0. }
    assert (Ev : nth 0 (sV s) d = v) by now apply nth_error_nth.
    split; [|split].
    + unfold Inv. cbn [sV sAV sM sn sU sD st slast sphi seigs].
      repeat (match goal with |- _ /\ _ => split end); try assumption; try lia; try reflexivity; try (rewrite upd_length; lia).
      * intros i j Hi Hj. rewrite <- M0. assert (i = 0) as -> by lia. assert (j = 0) as -> by lia. apply HM; lia.
      * intros j e w. cbn [seigs sphi]. rewrite nth_error_upd by lia.
        destruct (Nat.eqb_spec 0 j) as [<-|Nj]; [|apply HP].
        intros [= <-] Hw. assert (w = v) as -> by congruence. split; [|intros _; apply (le_refl f0 f1 fadd fmul fsub fopp fdiv finv fltb OF)].
        split; [assumption|]. split.
        -- destruct HO as [_ HO]. rewrite LV in HO. specialize (HO 0 0 ltac:(lia) ltac:(lia)). rewrite Ev in HO. exact HO.
        -- rewrite <- M0, HM by lia. now rewrite Ev.
    + apply Forall_cons_iff in HAV as [Hav _]. apply in_add; [assumption|now apply in_scale].
    + change (nth_error (upd 0 (Some x) (seigs s)) 0 <> Some None). rewrite nth_error_upd by lia. discriminate.
  - destruct (diagHermitian fopp heev (S ii) _) as [[U D]| |] eqn:ED; cbn [obind]; try discriminate.
    apply (diag_facts f0 f1 fadd fmul fsub fopp fdiv finv fltb OF heev HEEV) in ED.
    2:{ intros i j Hi Hj. rewrite !HM by assumption.
        assert (Ii : inV (nth i (sV s) d)) by (apply nth_in; [apply HO|lia]).
        assert (Ij : inV (nth j (sV s) d)) by (apply nth_in; [apply HO|lia]).
        rewrite (h_herm _ _ _ _ _ _ _ _ HA) by assumption.
        apply conj_dot; [assumption|now apply in_A]. }
    cbn zeta in ED. destruct ED as (So & UU & UU' & MU).
    destruct (S ii <=? st s) eqn:Et; [discriminate|]. apply Nat.leb_gt in Et.
    destruct (combine_cols vadd vscale U (st s) (S ii) (sV s)) as [p| |] eqn:Ep; cbn [obind]; try discriminate.
    destruct (combine_cols vadd vscale U (st s) (S ii) (sAV s)) as [q'| |] eqn:Eq; cbn [obind]; try discriminate.
    assert (Sp : forall j p, j < S ii -> combine_cols vadd vscale U j (S ii) (sV s) = Ok p -> ritz (fopp (D j)) p).
    { intros j p' Hj Hp'. eapply (ritz_comb _ d (S ii) (sM s) U (fun i => fopp (D i))); try eassumption. lia. }
    pose proof (Sp _ _ Et Ep) as Rp. pose proof (combine_in _ _ _ _ _ Eq HAV) as Iq.
    assert (Ip : inV p) by apply Rp.
    intros [= <- <- <-]. cbn [sV sAV sM sn sU sD st slast sphi seigs].
    split; [|split].
    + unfold Inv. cbn [sV sAV sM sn sU sD st slast sphi seigs].
      repeat (match goal with |- _ /\ _ => split end); try assumption; try lia; try (now rewrite upd_length).
      * intros j e w. cbn [seigs sphi]. rewrite !nth_error_upd by lia.
        destruct (Nat.eqb_spec (st s) j) as [<-|Nj]; [|apply HP].
        intros [= <-] [= <-]. split.
        -- destruct (fltb (fst (U 0 (st s))) f0); [now apply ritz_neg|assumption].
        -- intros E0. rewrite E0.
           apply (lowest_le f0 f1 fadd fmul fsub fopp fdiv finv fltb OF (S ii) (sM s) U (fun i => fopp (D i))); try assumption. lia.
      * split; cbn [sV sn sU sD]; [lia|]. exact Sp.
      * intros _. rewrite nth_error_upd by lia. destruct (st s =? 0); [discriminate|]. apply HE. lia.
    + destruct (fltb (fst (U 0 (st s))) f0); try apply in_scale; (apply in_add; [assumption|now apply in_scale]).
    + rewrite nth_error_upd by lia. destruct (st s =? 0); [discriminate|]. apply HE. lia.
Qed.

Lemma combine_app U j n Vs v : n <= length Vs ->
  combine_cols vadd vscale U j n (Vs ++ [v]) = combine_cols vadd vscale U j n Vs.
Proof.
  intros H. unfold combine_cols. rewrite firstn_app. replace (n - length Vs) with 0 by lia. cbn [firstn]. rewrite app_nil_r.
  destruct (firstn n Vs); [reflexivity|]. rewrite app_length.
  destruct (Nat.ltb_spec (length Vs + length [v]) n); destruct (Nat.ltb_spec (length Vs) n); try lia; reflexivity.
Qed.

Lemma expand_ok d nget x ii s v : Inv d nget x ii s -> nth_error (seigs s) 0 <> Some None ->
  inV v -> dot v v = c1 -> (forall i, i < length (sV s) -> dot (nth i (sV s) d) v = c0) ->
  Inv d nget x (S ii) (expand fopp dot A (S ii) v s).
Proof.
  intros (LV & LA & HO & HAV & HM & M0 & T1 & T2 & Lp & Le & HP & HS & HZ & HE) HE0 Iv Nv Ov.
  unfold Inv, expand. cbn [sV sAV sM sn sU sD st slast sphi seigs]. rewrite !app_length. cbn [length].
  assert (Nd : forall k, k < S (S ii) -> nth k (sV s ++ [v]) v = nth k (sV s ++ [v]) d).
  { intros k Hk. apply nth_indep. rewrite app_length. cbn [length]. lia. }
  assert (Nl : nth (S ii) (sV s ++ [v]) d = v) by (rewrite app_nth2 by lia; replace (S ii - length (sV s)) with 0 by lia; reflexivity).
  pose proof (ortho_app _ _ _ HO Iv Nv Ov) as HO'.
  assert (In' : forall k, k < S (S ii) -> inV (nth k (sV s ++ [v]) d)).
  { intros k Hk. apply nth_in; [apply HO'|]. rewrite app_length. cbn [length]. lia. }
  repeat (match goal with |- _ /\ _ => split end); try assumption; try lia.
  - apply Forall_app. split; [assumption|]. constructor; [now apply in_A|constructor].
  - intros i j Hi Hj. destruct (Nat.eqb_spec i (S ii)) as [->|Ni].
    + rewrite Nl, Nd by assumption. rewrite (h_herm _ _ _ _ _ _ _ _ HA) by (first [assumption|now apply In']).
      symmetry. apply conj_dot; [now apply in_A, In'|assumption].
    + destruct (Nat.eqb_spec j (S ii)) as [->|Nj].
      * rewrite Nl, Nd by assumption. reflexivity.
      * rewrite !app_nth1 by lia. apply HM; lia.
  - destruct HS as [HS1 HS2]. split; cbn [sV sn sU sD]; [rewrite app_length; lia|].
    intros j p Hj. rewrite combine_app by assumption. now apply HS2.
  - intros _. exact HE0.
Qed.

Lemma mainLoop_ok d nget x miniter errgoal : forall left ii s s', Inv d nget x ii s ->
  mainLoop f0 f1 fmul fsub fopp finv fltb fsqrt vadd vscale dot A size heev rnd c1em20 c1em10 Approx0 c1em3 thousand
    left ii nget miniter errgoal x s = Ok s' -> Post nget x s'.
Proof.
  assert (IP : forall ii s l, Inv d nget x ii s -> nth_error (seigs s) 0 <> Some None ->
    Post nget x (DS (sV s) (sAV s) (sM s) (sn s) (sU s) (sD s) (st s) l (sphi s) (seigs s))).
  { intros ii s l (LV & LA & HO & HAV & HM & M0 & T1 & T2 & Lp & Le & HP & HS & HZ & HE) E.
    unfold Post. cbn [sV sAV sM sn sU sD st slast sphi seigs]. tauto. }
  induction left as [|left IH]; intros ii s s' HI; cbn [mainLoop];
    (destruct (ritzStep _ _ _ _ _ _ _ _ _ _) as [[[s1 lambda] q]| |] eqn:ER; cbn [obind]; try discriminate);
    destruct (ritzStep_ok _ _ _ _ _ _ _ _ HI ER) as (HI1 & Iq & E0);
    (destruct (norm q) as [qn| |] eqn:En; cbn [obind]; try discriminate).
  - replace (0 =? 0) with true by reflexivity. rewrite !orb_true_r, !andb_false_r. cbn [negb andb st].
    intros [= <-]. apply (IP ii); assumption.
  - replace (S left =? 0) with false by reflexivity. rewrite !orb_false_r, !andb_true_r. cbn [st sV].
    match goal with |- context [if ?b && _ then _ else _] => destruct b end; cbn [andb].
    + destruct (S (st s1) <? nget) eqn:Eg; cbn [negb].
      * apply Nat.ltb_lt in Eg. cbn [sV].
        assert (HI2 : ii = st s1 \/ st s1 < ii) by (destruct HI1 as (_ & _ & _ & _ & _ & _ & T1 & _); lia).
        destruct (gramSchmidt _ _ _ _ _ _ _ _ _ _ _ _ _ _ _ _) as [[v|]| |] eqn:EG; cbn [obind]; try discriminate.
        -- apply (gs_ok _ d) in EG; [|apply HI1|assumption]. destruct EG as (Iv & Nv & Ov).
           apply IH.
           (* the target moves on *)
           set (s1' := DS (sV s1) (sAV s1) (sM s1) (sn s1) (sU s1) (sD s1) (st s1) thousand (sphi s1) (seigs s1)).
           pose proof (expand_ok d nget x ii s1 v HI1 E0 Iv Nv Ov) as HX.
           unfold expand in HX |- *. unfold Inv in HX |- *. cbn [sV sAV sM sn sU sD st slast sphi seigs] in HX |- *.
           assert (T1 : st s1 <= ii) by (destruct HI1 as (_ & _ & _ & _ & _ & _ & T1 & _); assumption).
           unfold pairs_ok, spectrum_ok in HX |- *. cbn [sV sAV sM sn sU sD st slast sphi seigs] in HX |- *.
           assert (T3 : S (st s1) <= S ii) by lia. tauto.
        -- intros [= <-]. pose proof (IP ii s1 thousand HI1 E0) as HPo.
           unfold Post, pairs_ok, spectrum_ok in HPo |- *. cbn [sV sAV sM sn sU sD st slast sphi seigs] in HPo |- *. tauto.
      * intros [= <-]. apply (IP ii); assumption.
    + cbn [sV]. destruct (gramSchmidt _ _ _ _ _ _ _ _ _ _ _ _ _ _ _ _) as [[v|]| |] eqn:EG; cbn [obind]; try discriminate.
      * apply (gs_ok _ d) in EG; [|apply HI1|assumption]. destruct EG as (Iv & Nv & Ov).
        apply IH. apply expand_ok; try assumption.
      * intros [= <-]. apply (IP ii); assumption.
Qed.

Lemma remaining_ok nget x : forall count j s s', Post nget x s -> 0 < j -> j + count <= nget ->
  remaining vadd vscale count j s = Ok s' -> Post nget x s'.
Proof.
  induction count as [|count IH]; intros j s s' HP Hj Hc'; cbn [remaining].
  - now intros [= <-].
  - destruct (Nat.leb_spec (sn s) j); [discriminate|].
    destruct (combine_cols _ _ _ _ _ _) as [p| |] eqn:Ep; cbn [obind]; try discriminate.
    apply IH; [|lia|lia]. destruct HP as (T & Lp & Le & HP & HS & HE).
    unfold Post. cbn [sV sAV sM sn sU sD st slast sphi seigs]. rewrite !upd_length.
    repeat (match goal with |- _ /\ _ => split end); try assumption.
    + intros k e v. cbn [seigs sphi]. rewrite !nth_error_upd by lia.
      destruct (Nat.eqb_spec j k) as [<-|Nk]; [|apply HP].
      intros [= <-] [= <-]. split; [|lia]. now apply HS.
    + rewrite nth_error_upd by lia. destruct (Nat.eqb_spec j 0); [lia|assumption].
Qed.

Lemma nonzero_ok j : forall fuel k v w r, inV v -> nonzero f0 fltb fsqrt dot rnd0 fuel j k v = Ok (w, r) ->
  inV w /\ norm w = Ok r /\ r <> f0.
Proof.
  induction fuel as [|fuel IH]; intros k v w r Hv; cbn [nonzero]; [discriminate|].
  destruct (norm v) as [n| |] eqn:En; cbn [obind]; try discriminate.
  destruct (feqb fltb n f0) eqn:Ef; [apply IH, R0|]. intros [= -> ->]. repeat split; try assumption.
  intros ->. unfold feqb in Ef. rewrite (of_irrefl _ _ _ _ _ _ _ _ _ OF) in Ef. discriminate.
Qed.

Lemma normalizeAll_ok fuel : forall phi j l, Forall inV phi ->
  normalizeAll f0 finv fltb fsqrt vscale dot rnd0 fuel j phi = Ok l ->
  length l = length phi /\ Forall (fun v => inV v /\ dot v v = c1) l.
Proof.
  induction phi as [|v phi IH]; intros j l HV; cbn [normalizeAll]; [now intros [= <-]|].
  apply Forall_cons_iff in HV as [Hv HV].
  destruct (nonzero _ _ _ _ _ _ _ _ _) as [[w r]| |] eqn:En; cbn [obind]; try discriminate.
  destruct (normalizeAll _ _ _ _ _ _ _ _ _ _) as [l'| |] eqn:El; cbn [obind]; try discriminate.
  intros [= <-]. apply nonzero_ok in En as (Iw & Nw & Nr); [|assumption]. apply IH in El as [Ll Hl]; [|assumption].
  split; [cbn [length]; lia|]. constructor; [|assumption]. split; [now apply in_scale|now apply normalized].
Qed.

(** Every eigenvalue returned belongs to the vector returned with it; the first one is
    present and not above the energy of the first initial vector. *)
Lemma davidson_ok fuel maxiter miniter errgoal phi eigs phi' : Forall inV phi ->
  davidson f0 f1 fmul fsub fopp finv fltb fsqrt vadd vscale dot A size heev rnd0 rnd c1em20 c1em10 Approx0 c1em3 thousand
    fuel maxiter miniter errgoal phi = Ok (eigs, phi') ->
  exists p0 l0 x, normalizeAll f0 finv fltb fsqrt vscale dot rnd0 fuel 0 phi = Ok (p0 :: l0) /\
    dot p0 (A p0) = cof x /\
    length eigs = length phi /\ length phi' = length phi /\
    (forall j e v, nth_error eigs j = Some (Some e) -> nth_error phi' j = Some v -> ritz e v /\ (j = 0 -> le e x)) /\
    nth_error eigs 0 <> Some None.
Proof.
  intros HV. unfold davidson. destruct (length phi =? 0) eqn:E0; [discriminate|]. apply Nat.eqb_neq in E0.
  destruct (normalizeAll _ _ _ _ _ _ _ _ _ _) as [l| |] eqn:El; cbn [obind]; try discriminate.
  destruct (normalizeAll_ok _ _ _ _ HV El) as [Ll Hl].
  destruct l as [|p0 l0]; [cbn in Ll; lia|]. unfold oget. cbn [nth_error obind].
  pose proof Hl as Hl0. apply Forall_cons_iff in Hl0 as [[I0 N0] Hl0].
  set (x := fst (dot p0 (A p0))).
  destruct (mainLoop _ _ _ _ _ _ _ _ _ _ _ _ _ _ _ _ _ _ _ _ _ _ _ _ _ _ _) as [s| |] eqn:EM; cbn [obind]; try discriminate.
  apply (mainLoop_ok p0) in EM.
  - destruct (remaining _ _ _ _ _) as [s'| |] eqn:ER; cbn [obind]; try discriminate.
    intros [= <- <-]. apply (remaining_ok (length phi) x) in ER; [|assumption|lia|destruct EM; lia].
    destruct ER as (T & Lp & Le & HP & HS & HE).
    exists p0, l0, x. repeat (match goal with |- _ /\ _ => split end); try assumption; try reflexivity.
    now apply dot_herm.
  - unfold Inv. cbn [sV sAV sM sn sU sD st slast sphi seigs length].
    repeat (match goal with |- _ /\ _ => split end); try lia; try reflexivity; try assumption.
    + split; [now constructor|]. cbn [length]. intros i j Hi Hj. assert (i = 0) as -> by lia. assert (j = 0) as -> by lia. exact N0.
    + constructor; [now apply in_A|constructor].
    + intros i j Hi Hj. assert (i = 0) as -> by lia. assert (j = 0) as -> by lia. cbn [nth]. symmetry. now apply dot_herm.
    + now rewrite repeat_length.
    + intros j e v. cbn [seigs]. intros H. apply nth_error_In in H. apply repeat_spec in H. discriminate.
    + split; cbn [sn sV]; lia.
    + intros _. exists p0. split; reflexivity.
Qed.

(** The number of targets and the size of the last diagonalisation are bounded by the
    number of iterations. *)
Lemma ritzStep_small x ii s s1 lambda q :
  ritzStep f0 f1 fopp fltb vadd vscale heev x ii s = Ok (s1, lambda, q) ->
  st s1 = st s /\ (sn s1 = sn s \/ sn s1 = S ii) /\ length (seigs s1) = length (seigs s) .
Proof.
  unfold ritzStep. destruct (_ || _); [discriminate|]. destruct (ii =? 0).
  - destruct (oget (sV s) 0) as [v0| |]; cbn [obind]; try discriminate.
    destruct (oget (sAV s) 0) as [a0| |]; cbn [obind]; try discriminate.
    intros [= <- _ _]. cbn [st sn seigs]. rewrite upd_length. auto.
  - destruct (diagHermitian _ _ _ _) as [[U D]| |]; cbn [obind]; try discriminate.
    destruct (S ii <=? st s); [discriminate|].
    destruct (combine_cols _ _ _ _ _ (sV s)) as [p| |]; cbn [obind]; try discriminate.
    destruct (combine_cols _ _ _ _ _ (sAV s)) as [q'| |]; cbn [obind]; try discriminate.
    intros [= <- _ _]. cbn [st sn seigs]. rewrite upd_length. auto.
Qed.

Lemma mainLoop_small nget x miniter errgoal : forall left ii s s',
  st s <= ii -> sn s <= S ii ->
  mainLoop f0 f1 fmul fsub fopp finv fltb fsqrt vadd vscale dot A size heev rnd c1em20 c1em10 Approx0 c1em3 thousand
    left ii nget miniter errgoal x s = Ok s' -> st s' <= ii + left /\ sn s' <= S (ii + left).
Proof.
  induction left as [|left IH]; intros ii s s' H1 H2; cbn [mainLoop];
    (destruct (ritzStep _ _ _ _ _ _ _ _ _ _) as [[[s1 lambda] q]| |] eqn:ER; cbn [obind]; try discriminate);
    destruct (ritzStep_small _ _ _ _ _ _ ER) as (T1 & N1 & _);
    (destruct (norm q) as [qn| |] eqn:En; cbn [obind]; try discriminate).
  - replace (0 =? 0) with true by reflexivity. rewrite !orb_true_r, !andb_false_r. cbn [negb andb].
    intros [= <-]. cbn [st sn]. lia.
  - cbn [st sV]. match goal with |- context [if ?b then Ok _ else _] => destruct b end.
    + intros [= <-]. cbn [st sn]. lia.
    + destruct (gramSchmidt _ _ _ _ _ _ _ _ _ _ _ _ _ _ _ _) as [[v|]| |] eqn:EG; cbn [obind]; try discriminate.
      * intros HM. apply IH in HM; [lia| |]; unfold expand; cbn [st sn];
          match goal with |- context [if ?b then _ else _] => destruct b end; cbn [st sn]; lia.
      * intros [= <-]. match goal with |- context [if ?b then _ else _] => destruct b end; cbn [st sn]; lia.
Qed.

Lemma remaining_small : forall count j s s', remaining vadd vscale count j s = Ok s' -> 0 < count -> j + count <= sn s.
Proof.
  induction count as [|count IH]; intros j s s'; cbn [remaining]; [lia|].
  destruct (Nat.leb_spec (sn s) j) as [L|L]; [discriminate|].
  destruct (combine_cols _ _ _ _ _ _) as [p| |]; cbn [obind]; try discriminate.
  intros HR _. destruct count as [|count]; [lia|]. apply IH in HR; [|lia]. cbn [sn] in HR. lia.
Qed.

Lemma davidson_small fuel maxiter miniter errgoal phi r : S maxiter < length phi ->
  davidson f0 f1 fmul fsub fopp finv fltb fsqrt vadd vscale dot A size heev rnd0 rnd c1em20 c1em10 Approx0 c1em3 thousand
    fuel maxiter miniter errgoal phi <> Ok r.
Proof.
  intros Hl. unfold davidson. destruct (length phi =? 0); [discriminate|].
  destruct (normalizeAll _ _ _ _ _ _ _ _ _ _) as [l| |]; cbn [obind]; try discriminate.
  destruct (oget l 0) as [v0| |]; cbn [obind]; try discriminate.
  destruct (mainLoop _ _ _ _ _ _ _ _ _ _ _ _ _ _ _ _ _ _ _ _ _ _ _ _ _ _ _) as [s| |] eqn:EM; cbn [obind]; try discriminate.
  apply mainLoop_small in EM; cbn [st sn]; [|lia|lia]. destruct EM as [E1 E2].
  destruct (remaining _ _ _ _ _) as [s'| |] eqn:ER; cbn [obind]; try discriminate.
  apply remaining_small in ER; lia.
Qed.

(** Success: every square root of a nonnegative number and every diagonalisation exists. *)
Section Total.
Context (SQT : forall x, le f0 x -> exists r, fsqrt x = Ok r)
  (HT : forall n M, 0 < n -> (forall i j, i < n -> j < n -> M j i = cconj (M i j)) -> exists U w, heev n M = Ok (U, w)).

Lemma norm_total v : inV v -> exists r, norm v = Ok r.
Proof. intros H. apply SQT. now apply (is_pos _ _ _ _ _ _ _ _ _ _ IS). Qed.

Lemma gs_total Vs ni : forall fuel tot q, Forall inV Vs -> inV q -> 5 <= fuel + tot -> 0 < fuel ->
  exists o, gramSchmidt f0 fopp finv fltb fsqrt vadd vscale dot size rnd c1em10 fuel tot ni Vs q = Ok o.
Proof.
  induction fuel as [|fuel IH]; intros tot q HV Hq Hf Hp; [lia|]. cbn [gramSchmidt].
  destruct (norm_total (subtract fopp vadd vscale Vs (overlaps dot Vs q) q)) as [r Hr]; [now apply subtract_in|].
  rewrite Hr. cbn [obind]. destruct (fltb r c1em10); [|eauto].
  destruct (norm_total (rnd ni tot)) as [r' Hr']; [apply R1|]. rewrite Hr'. cbn [obind].
  destruct (size <=? ni); [eauto|]. destruct (Nat.ltb_spec 3 tot); [eauto|].
  apply IH; [assumption|apply in_scale, R1|lia|lia].
Qed.

Lemma combine_total U t n X : 0 < n -> n <= length X -> exists p, combine_cols vadd vscale U t n X = Ok p.
Proof.
  intros H1 H2. unfold combine_cols. destruct n; [lia|]. destruct X as [|x X]; [cbn in H2; lia|]. cbn [firstn].
  destruct (Nat.ltb_spec (length (x :: X)) (S n)); [lia|]. eauto.
Qed.

Lemma ritzStep_total d nget x ii s : Inv d nget x ii s ->
  exists r, ritzStep f0 f1 fopp fltb vadd vscale heev x ii s = Ok r.
Proof.
  intros (LV & LA & HO & HAV & HM & M0 & T1 & T2 & Lp & Le & HP & HS & HZ & HE). unfold ritzStep.
  destruct (Nat.leb_spec (length (seigs s)) (st s)); [lia|]. destruct (Nat.leb_spec (length (sphi s)) (st s)); [lia|]. cbn [orb].
  destruct (Nat.eqb_spec ii 0) as [->|Nii].
  - unfold oget. destruct (sV s); [cbn in LV; lia|]. destruct (sAV s); [cbn in LA; lia|]. cbn [nth_error obind]. eauto.
  - destruct (HT (S ii) (fun i j => copp (copp (sM s i j)))) as (U & w & EH); [lia| |].
    + intros i j Hi Hj. rewrite !(opp_opp f0 f1 fadd fmul fsub fopp fdiv finv fltb OF). rewrite !HM by assumption.
      assert (Ii : inV (nth i (sV s) d)) by (apply nth_in; [apply HO|lia]).
      assert (Ij : inV (nth j (sV s) d)) by (apply nth_in; [apply HO|lia]).
      rewrite (h_herm _ _ _ _ _ _ _ _ HA) by assumption.
      apply conj_dot; [assumption|now apply in_A].
    + unfold diagHermitian. replace (S ii =? 0) with false by reflexivity. rewrite EH. cbn [obind].
      destruct (Nat.leb_spec (S ii) (st s)); [lia|].
      destruct (combine_total U (st s) (S ii) (sV s)) as [p ->]; [lia|lia|].
      destruct (combine_total U (st s) (S ii) (sAV s)) as [q ->]; [lia|lia|]. cbn [obind]. eauto.
Qed.

(** With one vector asked for, the target never moves. *)
Lemma mainLoop_total d x miniter errgoal : forall left ii s, Inv d 1 x ii s ->
  exists s', mainLoop f0 f1 fmul fsub fopp finv fltb fsqrt vadd vscale dot A size heev rnd c1em20 c1em10 Approx0 c1em3 thousand
    left ii 1 miniter errgoal x s = Ok s'.
Proof.
  induction left as [|left IH]; intros ii s HI; cbn [mainLoop];
    destruct (ritzStep_total _ _ _ _ _ HI) as [[[s1 lambda] q] ER]; rewrite ER; cbn [obind];
    destruct (ritzStep_ok _ _ _ _ _ _ _ _ HI ER) as (HI1 & Iq & E0);
    destruct (norm_total q Iq) as [qn Hn]; rewrite Hn; cbn [obind].
  - replace (0 =? 0) with true by reflexivity. rewrite !orb_true_r, !andb_false_r. cbn [negb andb st]. eauto.
  - replace (S left =? 0) with false by reflexivity. rewrite !orb_false_r, !andb_true_r. cbn [st sV].
    match goal with |- context [if ?b then Ok _ else _] => destruct b end; [eauto|]. cbn [sV].
    destruct (gs_total (sV s1) (S ii) 5 1 q) as [o Ho]; [apply HI1|assumption|lia|lia|]. rewrite Ho. cbn [obind].
    destruct o as [v|]; [|eauto].
    apply (gs_ok _ d) in Ho; [|apply HI1|assumption]. destruct Ho as (Iv & Nv & Ov).
    apply IH. apply expand_ok; try assumption.
Qed.

End Total.
End Loop.
