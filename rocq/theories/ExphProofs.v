(** Proofs about ExphModel.v: the chain of site tensors sums over the sets of terms that are apart. *)
From Coq Require Import List Arith Bool String Lia Permutation Ring Setoid.
From Verif Require Import Util AutoMpoModel AutoMpoSpec AutoMpoProofs AutoMpoChain ExphSpec ExphModel.
Import ListNotations.

Lemma sublists_incl : forall {X} (l S : list X), In S (sublists l) -> forall x, In x S -> In x l.
Proof.
  induction l as [|y l IH]; intros S H x Hx; cbn in H.
  - destruct H as [<-|[]]. destruct Hx.
  - apply in_app_iff in H. destruct H as [H|H]; [right; now apply (IH S)|].
    apply in_map_iff in H. destruct H as [T [<- H]]. destruct Hx as [->|Hx]; [now left|right; now apply (IH T)].
Qed.

Section Exph.
Context {R : Type} (r0 r1 : R) (radd rmul rsub : R -> R -> R) (ropp : R -> R).
Context (RT : ring_theory r0 r1 radd rmul rsub ropp eq).
Add Ring RRexph : RT.
Notation hterm := (@hterm R).
Notation rsum := (rsum r0 radd).
Notation "x + y" := (radd x y). Notation "x * y" := (rmul x y).
Let rs_cons := rsum_cons r0 radd.
Let rs_ext := fun X => @rsum_ext R r0 radd X.
Let rs_zero := fun X => @rsum_zero R r0 r1 radd rmul rsub ropp RT X.
Let rs_add := fun X => @rsum_add R r0 r1 radd rmul rsub ropp RT X.
Let rs_mul_l := fun X => @rsum_mul_l R r0 r1 radd rmul rsub ropp RT X.
Let rs_mul_r := fun X => @rsum_mul_r R r0 r1 radd rmul rsub ropp RT X.
Let rs_app := rsum_app r0 r1 radd rmul rsub ropp RT.
Let rs_swap := fun X Y => @rsum_swap R r0 r1 radd rmul rsub ropp RT X Y.
Let rs_delta := rsum_delta r0 r1 radd rmul rsub ropp RT.
Let rs_delta0 := rsum_delta0 r0 r1 radd rmul rsub ropp RT.

Lemma order_ring : forall i t h c, i + ropp t * h + ropp t * ropp t * c = rsub i (t * h) + t * t * c.
Proof. intros. ring. Qed.
Lemma order_ring0 : forall i h c, i + ropp r0 * h + ropp r0 * ropp r0 * c = i.
Proof. intros. ring. Qed.

(** ** Sums over sublists *)
Definition ssum {X} (l : list X) (F : list X -> R) : R := rsum (map F (sublists l)).
Lemma ssum_nil : forall {X} (F : list X -> R), ssum [] F = F [].
Proof. intros. unfold ssum. cbn. ring. Qed.
Lemma ssum_cons : forall {X} (x : X) l F, ssum (x :: l) F = ssum l F + ssum l (fun S => F (x :: S)).
Proof. intros. unfold ssum. cbn [sublists]. rewrite map_app, rs_app, map_map. reflexivity. Qed.
Lemma ssum_ext : forall {X} (l : list X) F G, (forall S, In S (sublists l) -> F S = G S) -> ssum l F = ssum l G.
Proof. intros. unfold ssum. now apply rs_ext. Qed.
Lemma ssum_mul : forall {X} (l : list X) c F, ssum l (fun S => c * F S) = c * ssum l F.
Proof. intros. unfold ssum. apply rs_mul_l. Qed.
Lemma ssum_zero : forall {X} (l : list X) F, (forall S, In S (sublists l) -> F S = r0) -> ssum l F = r0.
Proof. intros. unfold ssum. now apply rs_zero. Qed.
Definition pinv {X} (F : list X -> R) : Prop := forall S T, Permutation S T -> F S = F T.
Lemma pinv_cons : forall {X} (x : X) F, pinv F -> pinv (fun S => F (x :: S)).
Proof. intros X x F H S T P. apply H. now constructor. Qed.

Lemma ssum_vanish : forall {X} (P : X -> bool) l F, pinv F ->
  (forall x S, In x l -> P x = true -> F (x :: S) = r0) -> ssum l F = ssum (filter (fun x => negb (P x)) l) F.
Proof.
  intros X P. induction l as [|x l IH]; intros F PI VN; [reflexivity|]. rewrite ssum_cons. cbn [filter].
  rewrite IH; [|exact PI|intros; apply VN; [now right|assumption]].
  destruct (P x) eqn:E; cbn [negb].
  - rewrite (ssum_zero l); [ring|]. intros; apply VN; [now left|exact E].
  - rewrite ssum_cons. f_equal. apply IH; [now apply pinv_cons|].
    intros y S Hy Py. rewrite (PI (x :: y :: S) (y :: x :: S)) by constructor. apply VN; [now right|exact Py].
Qed.
Lemma ssum_pick : forall {X} (P : X -> bool) l F, pinv F ->
  (forall x y S, P x = true -> P y = true -> F (x :: y :: S) = r0) ->
  ssum l F = ssum (filter (fun x => negb (P x)) l) F +
    rsum (map (fun h => if P h then ssum (filter (fun x => negb (P x)) l) (fun S => F (h :: S)) else r0) l).
Proof.
  intros X P. induction l as [|x l IH]; intros F PI VN; [cbn; ring|]. rewrite ssum_cons. cbn [filter map].
  rewrite rs_cons, IH by assumption. destruct (P x) eqn:E; cbn [negb].
  - rewrite (ssum_vanish P l (fun S => F (x :: S))); [ring|now apply pinv_cons|].
    intros y S _ Py. now apply VN.
  - rewrite (IH (fun S => F (x :: S))).
    + rewrite ssum_cons.
      rewrite (rs_ext _ (fun h => if P h then ssum (x :: filter (fun x => negb (P x)) l) (fun S => F (h :: S)) else r0)
        (fun h => (if P h then ssum (filter (fun x => negb (P x)) l) (fun S => F (h :: S)) else r0) +
                  (if P h then ssum (filter (fun x => negb (P x)) l) (fun S => F (x :: h :: S)) else r0))).
      * rewrite rs_add. ring.
      * intros h _. destruct (P h); [|ring]. rewrite ssum_cons. f_equal. apply ssum_ext. intros S _. apply PI. constructor.
    + now apply pinv_cons.
    + intros a b S Pa Pb. rewrite (PI (x :: a :: b :: S) (a :: b :: x :: S)); [now apply VN|].
      transitivity (a :: x :: b :: S); constructor. constructor.
Qed.
Lemma ssum_len0 : forall {X} (l : list X) F, ssum l (fun S => if List.length S =? 0 then F S else r0) = F [].
Proof.
  intros X. induction l as [|x l IH]; intros F; [now rewrite ssum_nil|]. rewrite ssum_cons, IH.
  rewrite ssum_zero; [ring|]. reflexivity.
Qed.
Lemma ssum_len1 : forall {X} (l : list X) F,
  ssum l (fun S => if List.length S =? 1 then F S else r0) = rsum (map (fun h => F [h]) l).
Proof.
  intros X. induction l as [|x l IH]; intros F; [now rewrite ssum_nil|]. rewrite ssum_cons, IH. cbn [map].
  rewrite rs_cons. rewrite (ssum_ext l _ (fun S => if List.length S =? 0 then F (x :: S) else r0)) by reflexivity.
  rewrite ssum_len0. ring.
Qed.

(** ** Permutations of terms that are apart *)
Lemma forallb_perm : forall {X} (p : X -> bool) S T, Permutation S T -> forallb p S = forallb p T.
Proof. intros X p S T H. induction H; cbn; try congruence. now rewrite !andb_assoc, (andb_comm (p x)). Qed.
Lemma apart_sym : forall g h : hterm, apart g h = apart h g.
Proof. intros. unfold apart. apply orb_comm. Qed.
Lemma all_apart_perm : forall S T : list hterm, Permutation S T -> all_apart S = all_apart T.
Proof.
  intros S T H. induction H; cbn; try congruence.
  - now rewrite IHPermutation, (forallb_perm _ _ _ H).
  - rewrite (apart_sym y x). destruct (apart x y), (forallb (apart x) l), (forallb (apart y) l), (all_apart l); reflexivity.
Qed.
Lemma layer_perm : forall S T : list hterm, Permutation S T -> all_apart S = true -> forall n, layer S n = layer T n.
Proof.
  intros S T H. induction H; intros A n.
  - reflexivity.
  - cbn in A. apply andb_prop in A. destruct A as [_ A]. unfold layer in *. cbn [find].
    destruct (_ && _); [reflexivity|]. now apply IHPermutation.
  - unfold layer. cbn [find]. cbn in A.
    destruct (Nat.leb_spec (first_site y) n), (Nat.leb_spec n (last_site y)), (Nat.leb_spec (first_site x) n),
      (Nat.leb_spec n (last_site x)); cbn [andb]; try reflexivity.
    exfalso. apply andb_prop in A. destruct A as [A _]. apply andb_prop in A. destruct A as [A _].
    unfold apart in A. apply orb_prop in A. destruct A as [A|A]; apply Nat.ltb_lt in A; lia.
  - rewrite IHPermutation1 by exact A. apply IHPermutation2. now rewrite <- (all_apart_perm _ _ H).
Qed.

Context (N : nat) (terms : list hterm) (val : nat -> string -> R) (tau : R).
Context (WF : forall h, In h terms -> wfterm N h).
Let bounds := wf_bounds N terms WF.

Fixpoint lprod (k n : nat) (S : list hterm) : R :=
  match k with O => r1 | Datatypes.S k' => val n (layer S n) * lprod k' (Datatypes.S n) S end.
Lemma lprod_value : forall k n S, lprod k n S = fold_right rmul r1 (map (fun n => val n (layer S n)) (seq n k)).
Proof. induction k as [|k IH]; intros n S; [reflexivity|]. cbn. now rewrite IH. Qed.
Lemma lprod_ext : forall k n S T, (forall j, n <= j < n + k -> layer S j = layer T j) -> lprod k n S = lprod k n T.
Proof.
  induction k as [|k IH]; intros n S T H; [reflexivity|]. cbn. rewrite H by lia. f_equal. apply IH.
  intros; apply H; lia.
Qed.
Lemma lprod_split : forall a b n S, lprod (a + b) n S = lprod a n S * lprod b (n + a) S.
Proof.
  induction a as [|a IH]; intros b n S; [rewrite Nat.add_0_r; cbn [lprod Nat.add]; ring|].
  cbn [lprod Nat.add]. rewrite IH. replace (Datatypes.S n + a)%nat with (n + Datatypes.S a)%nat by lia. ring.
Qed.
Notation vtail := (vtail r1 rmul val).
Lemma lprod_single : forall k n h S, fi h <= n -> (n + k <= Datatypes.S (li h))%nat -> lprod k n (h :: S) = vtail k n (ht_ops h).
Proof.
  induction k as [|k IH]; intros n h S H1 H2; [reflexivity|]. cbn [lprod AutoMpoChain.vtail]. rewrite IH by lia. f_equal.
  f_equal. unfold layer. cbn [find]. change (first_site h) with (fi h). change (last_site h) with (li h).
  destruct (Nat.leb_spec (fi h) n), (Nat.leb_spec n (li h)); try lia. reflexivity.
Qed.

Definition wt (S : list hterm) : R := fold_right (fun h w => ropp tau * ht_coef h * w) r1 S.
Lemma wt_perm : forall S T, Permutation S T -> wt S = wt T.
Proof. intros S T H. induction H; cbn; [reflexivity| |ring|congruence]. f_equal. exact IHPermutation. Qed.
Definition from (n : nat) (S : list hterm) : bool := forallb (fun h => (n <=? fi h) && (fi h <=? li h)) S.
Definition Fn (n : nat) (S : list hterm) : R :=
  if from n S && all_apart S then wt S * lprod (Datatypes.S N - n) n S else r0.
Lemma Fn_pinv : forall n, pinv (Fn n).
Proof.
  intros n S T P. unfold Fn. rewrite <- (all_apart_perm _ _ P).
  unfold from. rewrite <- (forallb_perm _ _ _ P). destruct (forallb _ S); [|reflexivity]. cbn [andb].
  destruct (all_apart S) eqn:A; [|reflexivity]. rewrite (wt_perm _ _ P). f_equal. apply lprod_ext.
  intros; now apply layer_perm.
Qed.
Definition Zs (n : nat) : R := ssum terms (Fn n).
Definition seg (n : nat) (h : hterm) : R := vtail (Datatypes.S (li h) - n) n (ht_ops h).

Lemma Zs_end : forall n, N < n -> Zs n = r1.
Proof.
  intros n H. unfold Zs. rewrite (ssum_vanish (fun _ => true)); [|apply Fn_pinv|].
  - cut (filter (fun x : hterm => negb true) terms = []).
    { intros ->. rewrite ssum_nil. unfold Fn. cbn [from forallb all_apart andb wt fold_right].
      replace (S N - n) with 0 by lia. cbn. ring. }
    clear. induction terms as [|h l IH]; [reflexivity|exact IH].
  - intros h S Hh _. unfold Fn. cbn [from forallb]. destruct (bounds h Hh) as [B1 [B2 B3]].
    destruct (Nat.leb_spec n (fi h)); [lia|reflexivity].
Qed.
Lemma Fn_skip : forall n S, n <= N -> (forall h, In h S -> fi h <> n) -> Fn n S = val n "Id"%string * Fn (Datatypes.S n) S.
Proof.
  intros n S Hn HS. unfold Fn.
  assert (E : from n S = from (Datatypes.S n) S).
  { unfold from. clear - HS. induction S as [|h S IH]; [reflexivity|]. cbn [forallb].
    rewrite IH by (intros; apply HS; now right). f_equal. f_equal. specialize (HS h (or_introl eq_refl)).
    destruct (Nat.leb_spec n (fi h)), (Nat.leb_spec (Datatypes.S n) (fi h)); try lia; reflexivity. }
  rewrite <- E. destruct (from n S) eqn:C; cbn [andb]; [|ring]. destruct (all_apart S); [|ring].
  replace (Datatypes.S N - n) with (Datatypes.S (Datatypes.S N - Datatypes.S n)) by lia. cbn [lprod].
  replace (layer S n) with "Id"%string; [ring|]. unfold layer.
  replace (find _ S) with (@None hterm); [reflexivity|]. symmetry.
  clear - HS C. induction S as [|h S IH]; [reflexivity|]. cbn [find]. cbn [from forallb] in C.
  apply andb_prop in C. destruct C as [C1 C2]. specialize (HS h (or_introl eq_refl)) as Q.
  change (first_site h) with (fi h). apply andb_prop in C1. destruct C1 as [C1 _]. apply Nat.leb_le in C1.
  destruct (Nat.leb_spec (fi h) n); [lia|]. apply IH; [intros; apply HS; now right|exact C2].
Qed.
Lemma Fn_take : forall n h S, In h terms -> fi h = n ->
  Fn n (h :: S) = ropp tau * ht_coef h * seg n h * Fn (Datatypes.S (li h)) S.
Proof.
  intros n h S Hh E. destruct (bounds h Hh) as [B1 [B2 B3]]. unfold Fn.
  replace (from n (h :: S) && all_apart (h :: S)) with (from (Datatypes.S (li h)) S && all_apart S).
  2:{ cbn [from forallb all_apart]. rewrite E, Nat.leb_refl. destruct (Nat.leb_spec n (li h)); [|lia]. cbn [andb].
      rewrite andb_assoc. f_equal. unfold from. clear - B2 E. induction S as [|g S IH]; [reflexivity|].
      cbn [forallb]. rewrite IH. unfold apart. change (last_site h) with (li h). change (first_site h) with (fi h).
      change (last_site g) with (li g). change (first_site g) with (fi g).
      destruct (Nat.leb_spec (Datatypes.S (li h)) (fi g)), (Nat.leb_spec (fi g) (li g)), (Nat.leb_spec n (fi g)),
        (Nat.ltb_spec (li h) (fi g)), (Nat.ltb_spec (li g) (fi h)); cbn [andb orb]; try lia;
        destruct (forallb _ S), (forallb (apart h) S); reflexivity. }
  destruct (from (Datatypes.S (li h)) S && all_apart S); [|ring]. cbn [wt fold_right]. fold (wt S).
  replace (Datatypes.S N - n) with ((Datatypes.S (li h) - n) + (Datatypes.S N - Datatypes.S (li h)))%nat by lia.
  rewrite lprod_split. rewrite lprod_single by lia. fold (seg n h).
  replace (n + (Datatypes.S (li h) - n))%nat with (Datatypes.S (li h)) by lia.
  rewrite (lprod_ext _ _ (h :: S) S); [ring|]. intros j Hj. unfold layer. cbn [find].
  change (last_site h) with (li h). destruct (Nat.leb_spec j (li h)); [lia|]. now rewrite andb_false_r.
Qed.
Lemma Zs_rec : forall n, n <= N -> Zs n = val n "Id"%string * Zs (Datatypes.S n) +
  rsum (map (fun h => if fi h =? n then ropp tau * ht_coef h * seg n h * Zs (Datatypes.S (li h)) else r0) terms).
Proof.
  intros n Hn. unfold Zs at 1. rewrite (ssum_pick (fun h => fi h =? n)).
  - f_equal.
    + unfold Zs. rewrite (ssum_vanish (fun h => fi h =? n) terms (Fn (S n))); [|apply Fn_pinv|].
      * rewrite <- ssum_mul. apply ssum_ext. intros S HS. apply Fn_skip; [exact Hn|]. intros h Hh E.
        apply (sublists_incl _ _ HS) in Hh. apply filter_In in Hh. destruct Hh as [_ Hh].
        rewrite E, Nat.eqb_refl in Hh. discriminate.
      * intros h S _ E. apply Nat.eqb_eq in E. unfold Fn. cbn [from forallb].
        destruct (Nat.leb_spec (Datatypes.S n) (fi h)); [lia|reflexivity].
    + apply rs_ext. intros h Hh. destruct (Nat.eqb_spec (fi h) n) as [E|E]; [|reflexivity].
      unfold Zs. rewrite (ssum_vanish (fun h => fi h =? n) terms (Fn (S (li h)))); [|apply Fn_pinv|].
      * rewrite <- ssum_mul. apply ssum_ext. intros S HS. now apply Fn_take.
      * intros g S _ E'. apply Nat.eqb_eq in E'. unfold Fn. cbn [from forallb].
        destruct (bounds h Hh) as [B1 [B2 B3]].
        destruct (Nat.leb_spec (Datatypes.S (li h)) (fi g)); [lia|reflexivity].
  - apply Fn_pinv.
  - intros x y S Ex Ey. apply Nat.eqb_eq in Ex, Ey. unfold Fn. cbn [from forallb all_apart].
    unfold apart. change (last_site x) with (li x). change (first_site x) with (fi x).
    change (last_site y) with (li y). change (first_site y) with (fi y).
    destruct (Nat.leb_spec (fi x) (li x)), (Nat.leb_spec (fi y) (li y)), (Nat.ltb_spec (li x) (fi y)),
      (Nat.ltb_spec (li y) (fi x)); try lia; cbn [andb orb]; rewrite ?andb_false_r, ?andb_false_l; reflexivity.
Qed.

(** ** The link bases *)
Notation ebasis := (@ebasis R).
Definition estep n (bn : list sterm) (h : hterm) :=
       if Nat.leb (st_i (ht_first h)) n && Nat.ltb n (st_i (ht_last h))
       then (if existsb (fun s => st_eqb s (ht_first h)) bn then bn else (bn ++ [ht_first h])%list)
       else bn.
Lemma estep_In : forall n bn h s, In s (estep n bn h) <-> In s bn \/ (s = ht_first h /\ fi h <= n < li h).
Proof.
  intros n bn h s. unfold estep, fi, li.
  destruct (Nat.leb_spec (st_i (ht_first h)) n), (Nat.ltb_spec n (st_i (ht_last h))); cbn [andb]; try (split; [tauto|intros [?|[_ ?]]; [assumption|lia]]).
  destruct (existsb _ bn) eqn:E.
  - split; [tauto|]. intros [?|[-> _]]; [assumption|]. apply existsb_exists in E. destruct E as [x [Hx E]].
    apply st_eqb_eq in E. now subst x.
  - rewrite in_app_iff. cbn. split; intros [?|?]; intuition (subst; intuition lia).
Qed.
Lemma estep_nodup : forall n bn h, NoDup bn -> NoDup (estep n bn h).
Proof.
  intros n bn h ND. unfold estep. destruct (_ && _); [|exact ND]. destruct (existsb _ bn) eqn:E; [exact ND|].
  apply Permutation_NoDup with (ht_first h :: bn); [apply Permutation_cons_append|]. constructor; [|exact ND].
  intros H. assert (existsb (fun s => st_eqb s (ht_first h)) bn = true).
  { apply existsb_exists. exists (ht_first h). split; [exact H|apply st_eqb_refl]. }
  congruence.
Qed.
Lemma efold_In : forall n l bn s, In s (fold_left (estep n) l bn) <->
  In s bn \/ exists h, In h l /\ s = ht_first h /\ fi h <= n < li h.
Proof.
  induction l as [|h l IH]; intros bn s; cbn.
  - split; [tauto|]. intros [?|[h [[] _]]]. assumption.
  - rewrite IH, estep_In. split.
    + intros [[?|[? ?]]|[g [? ?]]]; [now left|right; exists h; tauto|right; exists g; tauto].
    + intros [?|[g [[<-|?] ?]]]; [tauto|tauto|right; exists g; tauto].
Qed.
Lemma ebasis_In : forall n s, In s (ebasis terms n) <->
  s = IL \/ exists h, In h terms /\ s = ht_first h /\ fi h <= n < li h.
Proof.
  intros n s. change (ebasis terms n) with (fold_left (estep n) terms [IL]). rewrite efold_In. cbn [In].
  intuition congruence.
Qed.
Lemma ebasis_nodup : forall n, NoDup (ebasis terms n).
Proof.
  intros n. change (ebasis terms n) with (fold_left (estep n) terms [IL]).
  cut (forall l bn, NoDup bn -> NoDup (fold_left (estep n) l bn)).
  { intros G. apply G. repeat constructor. intros []. }
  induction l as [|h l IH]; intros bn ND; cbn; [exact ND|]. apply IH, estep_nodup, ND.
Qed.
Lemma ebasis_end : forall n, n = 0 \/ n = N -> ebasis terms n = [IL].
Proof.
  intros n Hn. change (ebasis terms n) with (fold_left (estep n) terms [IL]).
  cut (forall l, (forall h, In h l -> In h terms) -> fold_left (estep n) l [IL] = [IL]).
  { intros G. now apply G. }
  induction l as [|h l IH]; intros HH; [reflexivity|]. cbn [fold_left].
  replace (estep n [IL] h) with [IL]; [apply IH; intros; apply HH; now right|].
  destruct (bounds h (HH h (or_introl eq_refl))) as [B1 [B2 B3]]. unfold estep, fi, li in *.
  destruct (Nat.leb_spec (st_i (ht_first h)) n), (Nat.ltb_spec n (st_i (ht_last h))); cbn [andb]; try reflexivity. lia.
Qed.

(** ** One site *)
Definition Ve (n : nat) (r : sterm) : R :=
  if st_eqb r IL then Zs n
  else rsum (map (fun h => if st_eqb r (ht_first h) && Nat.leb n (li h)
                           then ht_coef h * seg n h * Zs (Datatypes.S (li h)) else r0) terms).
Notation eentry := (eentry r0 radd rmul ropp tau val terms).
Let first_IL : forall h, In h terms -> st_eqb IL (ht_first h) = false.
Proof. intros h Hh. exact (proj1 (first_not N terms WF h Hh)). Qed.

Lemma eon_sum : forall n,
  rsum (map (fun h => if Nat.eqb (st_i (ht_first h)) (st_i (ht_last h))
                      then ropp tau * (ht_coef h * val n (st_op (ht_first h))) else r0) (ht_by_n terms n)) =
  rsum (map (fun h => if Nat.eqb (fi h) (li h) && Nat.eqb (fi h) n
                      then ropp tau * (ht_coef h * val n (st_op (ht_first h))) else r0) terms).
Proof.
  intros n. rewrite (by_n_sum r0 r1 radd rmul rsub ropp RT N terms WF). apply rs_ext. intros h Hh. unfold li, fi.
  destruct (Nat.eqb_spec (st_i (ht_first h)) (st_i (ht_last h))) as [<-|_]; [|now destruct (_ || _)].
  now rewrite orb_diag.
Qed.
Lemma seg_step : forall n h, n <= li h -> seg n h = val n (placed (ht_ops h) n) * seg (S n) h.
Proof.
  intros n h H. unfold seg. replace (S (li h) - n) with (S (S (li h) - S n)) by lia. reflexivity.
Qed.
Lemma seg_last : forall h, seg (S (li h)) h = r1.
Proof. intros h. unfold seg. now rewrite Nat.sub_diag. Qed.

Lemma esite_step : forall (bas : list sterm) n r, NoDup bas ->
  1 <= n <= N -> st_i r < n ->
  (forall c, In c bas <-> In c (ebasis terms n)) ->
  rsum (map (fun c => eentry n r c * Ve (S n) c) bas) = Ve n r.
Proof.
  intros bas n r ND Hn Hr HB.
  assert (InIL : In IL bas) by (apply HB, ebasis_In; now left).
  assert (VIL : Ve (S n) IL = Zs (S n)) by reflexivity.
  assert (VST : forall c, c <> IL -> Ve (S n) c =
     rsum (map (fun h => if st_eqb c (ht_first h) && Nat.leb (S n) (li h) then ht_coef h * seg (S n) h * Zs (S (li h)) else r0) terms)).
  { intros c H1. unfold Ve. apply st_eqb_neq in H1. now rewrite H1. }
  rewrite (rs_ext _ _ (fun c =>
     ((if Nat.eqb (st_i c) n && st_eqb r IL then ropp tau * val n (startTerm (st_op c)) * Ve (S n) c else r0) +
      (if st_eqb c r then val n (if isF c then "F" else "Id")%string * Ve (S n) c else r0)) +
     ((if st_eqb c IL then (fun c => rsum (map (fun h => if st_eqb r (ht_first h) && Nat.eqb (li h) n
                      then ht_coef h * val n (endTerm (st_op (ht_last h))) else r0) terms) * Ve (S n) c) c else r0) +
      (if st_eqb c IL then (fun c => (if st_eqb r IL then rsum (map (fun h => if Nat.eqb (fi h) (li h) && Nat.eqb (fi h) n
                      then ropp tau * (ht_coef h * val n (st_op (ht_first h))) else r0) terms) else r0) * Ve (S n) c) c else r0)))).
  2:{ intros c Hc. unfold ExphModel.eentry. rewrite (end_sum r0 r1 radd rmul rsub ropp RT N terms val WF), eon_sum.
      destruct (Nat.eqb (st_i c) n), (st_eqb r IL), (st_eqb c r), (st_eqb c IL); cbn [andb]; ring. }
  rewrite !rs_add. rewrite !(fun f => rs_delta f IL bas ND InIL). rewrite VIL.
  destruct (st_eqb r IL) eqn:ER.
  - apply st_eqb_eq in ER. subst r.
    rewrite (rs_zero _ (fun h => if st_eqb IL (ht_first h) && _ then _ else _)).
    2:{ intros h Hh. rewrite (first_IL h Hh). reflexivity. }
    rewrite (rs_delta (fun c => val n (if isF c then "F" else "Id")%string * Ve (S n) c) IL bas ND InIL).
    rewrite VIL. change (if isF IL then "F"%string else "Id"%string) with "Id"%string.
    rewrite (rs_ext _ _ (fun c => rsum (map (fun h =>
       if st_eqb c (ht_first h) then (if Nat.eqb (fi h) n && Nat.leb (S n) (li h)
          then ropp tau * val n (startTerm (st_op (ht_first h))) * (ht_coef h * seg (S n) h * Zs (S (li h))) else r0) else r0) terms))).
    2:{ intros c Hc. destruct (Nat.eqb_spec (st_i c) n) as [E|E]; cbn [andb].
        - rewrite VST; [|intros ->; cbn in E; lia].
          rewrite <- rs_mul_l. apply rs_ext. intros h Hh. destruct (st_eqb c (ht_first h)) eqn:E2; cbn [andb]; [|ring].
          apply st_eqb_eq in E2. subst c. unfold fi at 1. rewrite E, Nat.eqb_refl. cbn [andb].
          destruct (Nat.leb (S n) (li h)); ring.
        - symmetry. apply rs_zero. intros h Hh. destruct (st_eqb c (ht_first h)) eqn:E2; [|reflexivity].
          apply st_eqb_eq in E2. subst c. unfold fi. destruct (Nat.eqb_spec (st_i (ht_first h)) n); [contradiction|reflexivity]. }
    rewrite rs_swap.
    rewrite (rs_ext _ (fun h => rsum (map _ bas)) (fun h => if Nat.eqb (fi h) n && Nat.leb (S n) (li h)
          then ropp tau * val n (startTerm (st_op (ht_first h))) * (ht_coef h * seg (S n) h * Zs (S (li h))) else r0)).
    2:{ intros h Hh. apply (rs_delta0 (fun _ => if Nat.eqb (fi h) n && Nat.leb (S n) (li h)
          then ropp tau * val n (startTerm (st_op (ht_first h))) * (ht_coef h * seg (S n) h * Zs (S (li h))) else r0) (ht_first h) bas ND).
        intros NI. destruct (Nat.eqb_spec (fi h) n) as [E|E]; [|reflexivity]. cbn [andb].
        destruct (Nat.leb_spec (S n) (li h)) as [L|L]; [|reflexivity].
        exfalso. apply NI, HB, ebasis_In. right. exists h. split; [exact Hh|]. split; [reflexivity|lia]. }
    unfold Ve. change (st_eqb IL IL) with true. cbn match. rewrite (Zs_rec n) by lia.
    match goal with |- ?a + ?b + (r0 * ?c + ?d) = ?b + ?e => replace (a + b + (r0 * c + d)) with (b + (a + d)) by ring end.
    f_equal. rewrite <- rs_mul_r, <- rs_add. apply rs_ext. intros h Hh.
    destruct (bounds h Hh) as [B1 [B2 B3]].
    destruct (Nat.eqb_spec (fi h) n) as [E|E]; cbn [andb]; [|rewrite andb_false_r; ring].
    subst n. rewrite (seg_step (fi h)) by lia. destruct (Nat.leb_spec (S (fi h)) (li h)) as [L|L].
    + destruct (Nat.eqb_spec (fi h) (li h)); [lia|]. cbn [andb].
      rewrite (placed_start N terms WF) by (assumption || lia). ring.
    + assert (Q : fi h = li h) by lia. rewrite (placed_single N terms WF) by assumption.
      rewrite <- Q, Nat.eqb_refl. cbn [andb].
      replace (seg (S (fi h)) h) with r1 by (rewrite Q; symmetry; apply seg_last). ring.
  - assert (VN : Ve n r = rsum (map (fun h => if st_eqb r (ht_first h) && Nat.leb n (li h)
                           then ht_coef h * seg n h * Zs (Datatypes.S (li h)) else r0) terms)) by (unfold Ve; now rewrite ER).
    rewrite VN. apply st_eqb_neq in ER.
    rewrite (rs_zero _ (fun c => if Nat.eqb (st_i c) n && false then _ else _)) by (intros; now rewrite andb_false_r).
    rewrite (rs_delta0 (fun c => val n (if isF c then "F" else "Id")%string * Ve (S n) c) r bas ND).
    2:{ intros NI. rewrite VST by assumption. rewrite rs_zero; [ring|]. intros h Hh.
        destruct (st_eqb r (ht_first h)) eqn:E; [|reflexivity]. cbn [andb]. apply st_eqb_eq in E.
        destruct (Nat.leb_spec (S n) (li h)); [|reflexivity]. exfalso. apply NI, HB, ebasis_In.
        right. exists h. split; [exact Hh|]. split; [exact E|]. unfold fi. rewrite <- E. lia. }
    rewrite VST by assumption.
    match goal with |- r0 + ?x + (?y + r0 * ?z) = _ => replace (r0 + x + (y + r0 * z)) with (x + y) by ring end.
    rewrite <- rs_mul_l, <- rs_mul_r, <- rs_add. apply rs_ext. intros h Hh.
    destruct (st_eqb r (ht_first h)) eqn:E; cbn [andb]; [|ring].
    apply st_eqb_eq in E. assert (FI : fi h < n) by (unfold fi; rewrite <- E; exact Hr).
    destruct (Nat.eqb_spec (li h) n) as [L|L].
    + destruct (Nat.leb_spec (S n) (li h)); [lia|]. destruct (Nat.leb_spec n (li h)); [|lia].
      rewrite (seg_step n) by lia. subst n.
      rewrite (placed_end N terms WF) by (assumption || lia). rewrite seg_last. ring.
    + destruct (Nat.leb_spec (S n) (li h)), (Nat.leb_spec n (li h)); try lia; try ring.
      rewrite (seg_step n) by lia.
      rewrite (placed_mid N terms WF) by (assumption || lia). rewrite E. ring.
Qed.

Context (srt : nat -> list sterm -> list sterm) (SP : forall n l, Permutation (srt n l) l) (HN : 1 <= N).
Notation echain := (echain r0 radd rmul ropp srt tau val N terms).
Lemma ebasis_site : forall n c, 1 <= n -> In c (ebasis terms n) -> st_i c < S n.
Proof.
  intros n c Hn H. apply ebasis_In in H. destruct H as [->|[h [_ [-> H]]]]; [cbn; lia|unfold fi in H; lia].
Qed.
Lemma echain_Ve : forall k n r, 1 <= n -> (n + k)%nat = N -> st_i r < n -> echain k n r = Ve n r.
Proof.
  induction k as [|k IH]; intros n r Hn HK Hr; cbn [ExphModel.echain].
  - replace n with N in * by lia.
    rewrite (hd_perm_single _ IL) by (rewrite <- (ebasis_end N) by (now right); apply SP).
    rewrite <- (esite_step [IL] N r); [|repeat constructor; intros []|lia|exact Hr|].
    + cbn. unfold Ve. change (st_eqb IL IL) with true. cbn match. rewrite Zs_end by lia. ring.
    + intros c. rewrite (ebasis_end N) by (now right). reflexivity.
  - rewrite <- (esite_step (srt n (ebasis terms n)) n r); [| |lia|exact Hr|].
    + apply rs_ext. intros c Hc. f_equal. apply IH; [lia|lia|]. apply ebasis_site; [exact Hn|].
      eapply Permutation_in; [apply SP|exact Hc].
    + apply Permutation_NoDup with (ebasis terms n); [apply Permutation_sym, SP|apply ebasis_nodup].
    + intros c. split; intros H; [eapply Permutation_in; [apply SP|exact H]|eapply Permutation_in; [apply Permutation_sym, SP|exact H]].
Qed.

Lemma wt_value : forall S, wt S = rpow r1 rmul (ropp tau) (List.length S) * coefs r1 rmul S.
Proof.
  induction S as [|h S IH]; [cbn; ring|]. cbn [wt fold_right List.length coefs map]. fold (wt S). rewrite IH.
  change (rpow r1 rmul (ropp tau) (Datatypes.S (List.length S))) with (ropp tau * rpow r1 rmul (ropp tau) (List.length S)).
  fold (coefs r1 rmul S). ring.
Qed.
Notation clusters := (cluster_sum r0 r1 radd rmul).
Lemma Zs_one : Zs 1 = clusters 0 (ropp tau) val N terms.
Proof.
  unfold Zs, ssum, cluster_sum. apply rs_ext. intros S HS. unfold Fn.
  replace (from 1 S) with true.
  - cbn [andb Nat.leb]. rewrite andb_true_r, Nat.sub_0_r. destruct (all_apart S); [|reflexivity].
    rewrite wt_value. replace (Datatypes.S N - 1) with N by lia. rewrite lprod_value. reflexivity.
  - symmetry. apply forallb_forall. intros h Hh. apply (sublists_incl _ _ HS) in Hh.
    destruct (bounds h Hh) as [B1 [B2 B3]]. destruct (Nat.leb_spec 1 (fi h)), (Nat.leb_spec (fi h) (li h)); lia.
Qed.

Lemma toExpH_clusters : toExpH_ZW1 r0 radd rmul ropp srt tau val N terms = Ok (clusters 0 (ropp tau) val N terms).
Proof.
  unfold toExpH_ZW1.
  assert (E1 : existsb (fun h => Nat.ltb 2 (List.length (ht_ops h))) terms = false).
  { apply not_true_is_false. intros E. apply existsb_exists in E. destruct E as [h [Hh E]]. apply Nat.ltb_lt in E.
    destruct (WF h Hh) as [[a [Q _]]|[a [b [Q _]]]]; rewrite Q in E; cbn in E; lia. }
  assert (E2 : existsb (fun h => existsb (fun s => Nat.ltb N (st_i s)) (ht_ops h)) terms = false).
  { apply not_true_is_false. intros E. apply existsb_exists in E. destruct E as [h [Hh E]].
    apply existsb_exists in E. destruct E as [s [Hs E]]. apply Nat.ltb_lt in E.
    destruct (WF h Hh) as [[a [Q B]]|[a [b [Q B]]]]; rewrite Q in Hs; cbn in Hs; intuition (subst; lia). }
  assert (E3 : existsb (fun h => match ht_ops h with [] => true | _ => false end) terms = false).
  { apply not_true_is_false. intros E. apply existsb_exists in E. destruct E as [h [Hh E]].
    destruct (WF h Hh) as [[a [Q B]]|[a [b [Q B]]]]; rewrite Q in E; discriminate. }
  rewrite E1, E2, E3. f_equal.
  rewrite (hd_perm_single _ IL) by (rewrite <- (ebasis_end 0) by (now left); apply SP).
  rewrite echain_Ve; [|lia|lia|cbn; lia]. apply Zs_one.
Qed.

(** ** The first two orders *)
Lemma layer_one : forall h n, In h terms -> layer [h] n = placed (ht_ops h) n.
Proof.
  intros h n Hh. unfold layer. cbn [find]. change (first_site h) with (fi h). change (last_site h) with (li h).
  destruct (Nat.leb_spec (fi h) n) as [L1|L1]; cbn [andb].
  - destruct (Nat.leb_spec n (li h)) as [L2|L2]; [reflexivity|]. symmetry.
    revert L1 L2. unfold fi, li, ht_first, ht_last. destruct (WF h Hh) as [[a [-> Ha]]|[a [b [-> Ha]]]]; cbn [hd last placed]; intros L1 L2.
    + destruct (Nat.eqb_spec n (st_i a)); [lia|reflexivity].
    + destruct (Nat.eqb_spec n (st_i a)), (Nat.eqb_spec n (st_i b)), (Nat.ltb_spec (st_i a) n), (Nat.ltb_spec n (st_i b)); try lia; reflexivity.
  - symmetry. now apply (placed_before N terms WF).
Qed.
Lemma clusters_orders : forall x, clusters 0 x val N terms =
  identity_value r1 rmul val N + x * total_value r0 r1 radd rmul val N terms + x * x * clusters 2 x val N terms.
Proof.
  intros x.
  change (clusters 0 x val N terms) with (ssum terms (fun S => if all_apart S && Nat.leb 0 (List.length S)
    then rpow r1 rmul x (List.length S - 0) * coefs r1 rmul S * together r1 rmul val N S else r0)).
  change (clusters 2 x val N terms) with (ssum terms (fun S => if all_apart S && Nat.leb 2 (List.length S)
    then rpow r1 rmul x (List.length S - 2) * coefs r1 rmul S * together r1 rmul val N S else r0)).
  rewrite (ssum_ext terms _ (fun S =>
    (if List.length S =? 0 then together r1 rmul val N S else r0) +
    (if List.length S =? 1 then x * (coefs r1 rmul S * together r1 rmul val N S) else r0) +
    x * x * (if all_apart S && Nat.leb 2 (List.length S)
     then rpow r1 rmul x (List.length S - 2) * coefs r1 rmul S * together r1 rmul val N S else r0))).
  - unfold ssum. rewrite !rs_add, rs_mul_l. f_equal. f_equal.
    + fold (ssum terms (fun S => if List.length S =? 0 then together r1 rmul val N S else r0)). rewrite ssum_len0.
      unfold together, identity_value. f_equal.
    + fold (ssum terms (fun S => if List.length S =? 1 then x * (coefs r1 rmul S * together r1 rmul val N S) else r0)).
      rewrite ssum_len1, rs_mul_l. f_equal. unfold total_value. apply rs_ext. intros h Hh.
      unfold coefs. cbn [map fold_right].
      replace (together r1 rmul val N [h]) with (placed_value r1 rmul val N (ht_ops h)); [ring|].
      unfold placed_value, together. f_equal. apply map_ext. intros n. now rewrite layer_one.
  - intros S _. destruct S as [|h [|g S]].
    + cbn. ring.
    + cbn. ring.
    + cbn [List.length Nat.eqb Nat.leb Nat.sub]. destruct (all_apart (h :: g :: S)); cbn [andb]; [|ring].
      rewrite ?Nat.sub_0_r.
      change (rpow r1 rmul x (Datatypes.S (Datatypes.S (List.length S)))) with (x * (x * rpow r1 rmul x (List.length S))). ring.
Qed.
End Exph.
