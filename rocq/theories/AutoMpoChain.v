From Coq Require Import List Arith Bool String Lia Permutation Ring Setoid.
From Verif Require Import Util AutoMpoModel AutoMpoSpec AutoMpoProofs.
Import ListNotations.

Lemma hd_perm_single : forall (srt : list sterm) x d, Permutation srt [x] -> hd d srt = x.
Proof. intros srt x d P. apply Permutation_sym, Permutation_length_1_inv in P. now subst. Qed.

Section Chain.
Context {R : Type} (r0 r1 : R) (radd rmul rsub : R -> R -> R) (ropp : R -> R).
Context (RT : ring_theory r0 r1 radd rmul rsub ropp eq).
Add Ring RRch : RT.
Notation hterm := (@hterm R).
Notation rsum := (rsum r0 radd).
Notation "x + y" := (radd x y). Notation "x * y" := (rmul x y).

Lemma rsum_cons : forall x l, rsum (x :: l) = x + rsum l.
Proof. reflexivity. Qed.
Lemma rsum_ext : forall {X} (f g : X -> R) l, (forall x, In x l -> f x = g x) -> rsum (map f l) = rsum (map g l).
Proof.
  intros X f g l. induction l as [|x l IH]; intros H; [reflexivity|]. cbn [map]. rewrite !rsum_cons.
  rewrite H by (now left). f_equal. apply IH. intros; apply H; now right.
Qed.
Lemma rsum_zero : forall {X} (f : X -> R) l, (forall x, In x l -> f x = r0) -> rsum (map f l) = r0.
Proof.
  intros X f l. induction l as [|x l IH]; intros H; [reflexivity|]. cbn [map]. rewrite rsum_cons.
  rewrite H by (now left). rewrite IH by (intros; apply H; now right). ring.
Qed.
Lemma rsum_add : forall {X} (f g : X -> R) l, rsum (map (fun x => f x + g x) l) = rsum (map f l) + rsum (map g l).
Proof.
  intros X f g l. induction l as [|x l IH]; [cbn; ring|]. cbn [map]. rewrite !rsum_cons, IH. ring.
Qed.
Lemma rsum_mul_l : forall {X} c (f : X -> R) l, rsum (map (fun x => c * f x) l) = c * rsum (map f l).
Proof.
  intros X c f l. induction l as [|x l IH]; [cbn; ring|]. cbn [map]. rewrite !rsum_cons, IH. ring.
Qed.
Lemma rsum_mul_r : forall {X} c (f : X -> R) l, rsum (map (fun x => f x * c) l) = rsum (map f l) * c.
Proof.
  intros X c f l. induction l as [|x l IH]; [cbn; ring|]. cbn [map]. rewrite !rsum_cons, IH. ring.
Qed.
Lemma rsum_swap : forall {X Y} (f : X -> Y -> R) l l',
  rsum (map (fun x => rsum (map (f x) l')) l) = rsum (map (fun y => rsum (map (fun x => f x y) l)) l').
Proof.
  intros X Y f l l'. induction l as [|x l IH].
  - cbn. symmetry. apply rsum_zero. reflexivity.
  - cbn [map]. rewrite rsum_cons, IH, <- rsum_add. apply rsum_ext. intros; reflexivity.
Qed.
Lemma rsum_perm : forall l l', Permutation l l' -> rsum l = rsum l'.
Proof.
  intros l l' P. induction P.
  - reflexivity.
  - rewrite !rsum_cons. congruence.
  - rewrite !rsum_cons. ring.
  - congruence.
Qed.
Lemma rsum_app : forall l l', rsum (l ++ l') = rsum l + rsum l'.
Proof. induction l as [|x l IH]; intros l'; [change (rsum l' = r0 + rsum l'); ring|]. cbn [app]. rewrite !rsum_cons, IH. ring. Qed.

Lemma rsum_delta : forall (f : sterm -> R) x l, NoDup l -> In x l ->
  rsum (map (fun c => if st_eqb c x then f c else r0) l) = f x.
Proof.
  intros f x l ND H. induction l as [|c l IH]; [easy|]. cbn [map]. rewrite rsum_cons.
  inversion ND as [|? ? NI ND']; subst. destruct (st_eqb c x) eqn:E.
  - apply st_eqb_eq in E. subst c. rewrite rsum_zero; [ring|].
    intros y Hy. destruct (st_eqb y x) eqn:E; [|reflexivity]. apply st_eqb_eq in E. subst y. contradiction.
  - destruct H as [->|H]; [rewrite st_eqb_refl in E; discriminate|]. rewrite IH by assumption. ring.
Qed.
Lemma rsum_delta0 : forall (f : sterm -> R) x l, NoDup l -> (~ In x l -> f x = r0) ->
  rsum (map (fun c => if st_eqb c x then f c else r0) l) = f x.
Proof.
  intros f x l ND H. destruct (in_dec (fun a b => match st_eqb a b as e return st_eqb a b = e -> {a = b} + {a <> b} with
    | true => fun E => left (proj1 (st_eqb_eq a b) E) | false => fun E => right (proj1 (st_eqb_neq a b) E) end eq_refl) x l) as [Hi|Hi].
  - now apply rsum_delta.
  - rewrite (H Hi). apply rsum_zero. intros y Hy. destruct (st_eqb y x) eqn:E; [|reflexivity].
    apply st_eqb_eq in E. subst y. contradiction.
Qed.

Context (N : nat) (terms : list hterm) (val : nat -> string -> R).
Definition fi (h : hterm) := st_i (ht_first h).
Definition li (h : hterm) := st_i (ht_last h).
Definition wfterm (h : hterm) : Prop :=
  (exists a, ht_ops h = [a] /\ 1 <= st_i a <= N) \/
  (exists a b, ht_ops h = [a; b] /\ 1 <= st_i a /\ st_i a < st_i b /\ st_i b <= N).
Context (WF : forall h, In h terms -> wfterm h).

Lemma wf_bounds : forall h, In h terms -> 1 <= fi h /\ fi h <= li h /\ li h <= N.
Proof.
  intros h H. unfold fi, li, ht_first, ht_last. destruct (WF h H) as [[a [-> Ha]]|[a [b [-> Ha]]]]; cbn; lia.
Qed.

Notation basis0 := (@basis0 R N).
Definition bstep n (bn : list sterm) (h : hterm) :=
       if Nat.leb (st_i (ht_first h)) n && Nat.leb n (st_i (ht_last h))
       then (if existsb (fun s => st_eqb s (ht_first h)) bn then bn else (bn ++ [ht_first h])%list)
       else bn.
Lemma bstep_In : forall n bn h s, In s (bstep n bn h) <-> In s bn \/ (s = ht_first h /\ fi h <= n <= li h).
Proof.
  intros n bn h s. unfold bstep, fi, li.
  destruct (Nat.leb_spec (st_i (ht_first h)) n), (Nat.leb_spec n (st_i (ht_last h))); cbn [andb]; try (split; [tauto|intros [?|[_ ?]]; [assumption|lia]]).
  destruct (existsb _ bn) eqn:E.
  - split; [tauto|]. intros [?|[-> _]]; [assumption|]. apply existsb_exists in E. destruct E as [x [Hx E]].
    apply st_eqb_eq in E. now subst x.
  - rewrite in_app_iff. cbn. split; intros [?|?]; intuition (subst; intuition lia).
Qed.
Lemma bstep_nodup : forall n bn h, NoDup bn -> NoDup (bstep n bn h).
Proof.
  intros n bn h ND. unfold bstep. destruct (_ && _); [|exact ND]. destruct (existsb _ bn) eqn:E; [exact ND|].
  apply Permutation_NoDup with (ht_first h :: bn); [apply Permutation_cons_append|]. constructor; [|exact ND].
  intros H. assert (existsb (fun s => st_eqb s (ht_first h)) bn = true).
  { apply existsb_exists. exists (ht_first h). split; [exact H|apply st_eqb_refl]. }
  congruence.
Qed.
Lemma bfold_In : forall n l bn s, In s (fold_left (bstep n) l bn) <->
  In s bn \/ exists h, In h l /\ s = ht_first h /\ fi h <= n <= li h.
Proof.
  induction l as [|h l IH]; intros bn s; cbn.
  - split; [tauto|]. intros [?|[h [[] _]]]. assumption.
  - rewrite IH, bstep_In. split.
    + intros [[?|[? ?]]|[g [? ?]]]; [now left|right; exists h; tauto|right; exists g; tauto].
    + intros [?|[g [[<-|?] ?]]]; [tauto|tauto|right; exists g; tauto].
Qed.
Lemma bfold_nodup : forall n l bn, NoDup bn -> NoDup (fold_left (bstep n) l bn).
Proof. induction l as [|h l IH]; intros bn ND; cbn; [exact ND|]. apply IH, bstep_nodup, ND. Qed.

Lemma basis_In : forall n s, In s (basis0 terms n) <->
  (s = IL /\ n < N) \/ (s = HL /\ 1 <= n) \/ exists h, In h terms /\ s = ht_first h /\ fi h <= n <= li h.
Proof.
  intros n s. change (basis0 terms n) with (fold_left (bstep n) terms
    ((if Nat.ltb n N then [IL] else []) ++ (if Nat.leb 1 n then [HL] else []))).
  rewrite bfold_In, in_app_iff.
  destruct (Nat.ltb_spec n N), (Nat.leb_spec 1 n); cbn [In]; intuition (try lia; try congruence).
Qed.
Lemma basis_nodup : forall n, NoDup (basis0 terms n).
Proof.
  intros n. change (basis0 terms n) with (fold_left (bstep n) terms
    ((if Nat.ltb n N then [IL] else []) ++ (if Nat.leb 1 n then [HL] else []))).
  apply bfold_nodup. destruct (Nat.ltb n N), (Nat.leb 1 n); cbn; repeat constructor; cbn; intuition discriminate.
Qed.
Lemma basis_zero : 1 <= N -> basis0 terms 0 = [IL].
Proof.
  intros HN. change (basis0 terms 0) with (fold_left (bstep 0) terms
    ((if Nat.ltb 0 N then [IL] else []) ++ [])). destruct (Nat.ltb_spec 0 N); [|lia]. cbn [app].
  cut (forall l, (forall h, In h l -> 1 <= fi h) -> fold_left (bstep 0) l [IL] = [IL]).
  { intros G. apply G. intros h Hh. apply (wf_bounds h Hh). }
  induction l as [|h l IH]; intros HH; [reflexivity|]. cbn.
  replace (bstep 0 [IL] h) with [IL]; [apply IH; intros; apply HH; now right|].
  unfold bstep. specialize (HH h (or_introl eq_refl)). unfold fi in HH.
  destruct (Nat.leb_spec (st_i (ht_first h)) 0); [lia|reflexivity].
Qed.

Lemma by_n_sum : forall (f : hterm -> R) n,
  rsum (map f (ht_by_n terms n)) = rsum (map (fun h => if Nat.eqb (fi h) n || Nat.eqb (li h) n then f h else r0) terms).
Proof.
  intros f n. unfold ht_by_n. revert WF. induction terms as [|h l IH]; intros W; [reflexivity|].
  cbn [flat_map map]. rewrite map_app, rsum_app, rsum_cons, IH by (intros; apply W; now right). f_equal.
  unfold fi, li, ht_first, ht_last.
  destruct (W h (or_introl eq_refl)) as [[a [-> Ha]]|[a [b [-> Ha]]]]; cbn.
  - destruct (Nat.eqb (st_i a) n); cbn; ring.
  - destruct (Nat.eqb_spec (st_i a) n), (Nat.eqb_spec (st_i b) n); cbn; try lia; ring.
Qed.

(** product of the placed operators from site n on *)
Fixpoint vtail (k n : nat) (ops : list sterm) : R :=
  match k with O => r1 | S k' => val n (placed ops n) * vtail k' (S n) ops end.
Lemma vtail_value : forall k n ops, vtail k n ops = fold_right rmul r1 (map (fun n => val n (placed ops n)) (seq n k)).
Proof. induction k as [|k IH]; intros n ops; [reflexivity|]. cbn. now rewrite IH. Qed.
Fixpoint idtail (k n : nat) : R := match k with O => r1 | S k' => val n "Id"%string * idtail k' (S n) end.
Lemma vtail_id : forall h, In h terms -> forall k n, li h < n -> vtail k n (ht_ops h) = idtail k n.
Proof.
  intros h Hh. induction k as [|k IH]; intros n L; [reflexivity|]. cbn. rewrite IH by lia. f_equal. f_equal.
  revert L. unfold li, ht_last. destruct (WF h Hh) as [[a [-> Ha]]|[a [b [-> Ha]]]]; cbn [hd last placed]; intros L.
  - destruct (Nat.eqb_spec n (st_i a)); [lia|reflexivity].
  - destruct (Nat.eqb_spec n (st_i a)), (Nat.eqb_spec n (st_i b)), (Nat.ltb_spec (st_i a) n), (Nat.ltb_spec n (st_i b)); try lia; reflexivity.
Qed.
Lemma placed_before : forall h n, In h terms -> n < fi h -> placed (ht_ops h) n = "Id"%string.
Proof.
  intros h n Hh. unfold fi, ht_first. destruct (WF h Hh) as [[a [-> Ha]]|[a [b [-> Ha]]]]; cbn [hd last placed]; intros L.
  - destruct (Nat.eqb_spec n (st_i a)); [lia|reflexivity].
  - destruct (Nat.eqb_spec n (st_i a)), (Nat.eqb_spec n (st_i b)), (Nat.ltb_spec (st_i a) n), (Nat.ltb_spec n (st_i b)); try lia; reflexivity.
Qed.
Lemma placed_single : forall h, In h terms -> fi h = li h -> placed (ht_ops h) (fi h) = st_op (ht_first h).
Proof.
  intros h Hh. unfold fi, li, ht_first, ht_last. destruct (WF h Hh) as [[a [-> Ha]]|[a [b [-> Ha]]]]; cbn [hd last placed]; intros L; [|lia].
  now rewrite Nat.eqb_refl.
Qed.
Lemma placed_start : forall h, In h terms -> fi h < li h -> placed (ht_ops h) (fi h) = startTerm (st_op (ht_first h)).
Proof.
  intros h Hh. unfold fi, li, ht_first, ht_last. destruct (WF h Hh) as [[a [-> Ha]]|[a [b [-> Ha]]]]; cbn [hd last placed]; intros L; [lia|].
  now rewrite Nat.eqb_refl.
Qed.
Lemma placed_end : forall h, In h terms -> fi h < li h -> placed (ht_ops h) (li h) = endTerm (st_op (ht_last h)).
Proof.
  intros h Hh. unfold fi, li, ht_first, ht_last. destruct (WF h Hh) as [[a [-> Ha]]|[a [b [-> Ha]]]]; cbn [hd last placed]; intros L; [lia|].
  destruct (Nat.eqb_spec (st_i b) (st_i a)); [lia|]. now rewrite Nat.eqb_refl.
Qed.
Lemma placed_mid : forall h n, In h terms -> fi h < n < li h ->
  placed (ht_ops h) n = if isF (ht_first h) then "F"%string else "Id"%string.
Proof.
  intros h n Hh. rewrite isF_fermionic. unfold fi, li, ht_first, ht_last. destruct (WF h Hh) as [[a [-> Ha]]|[a [b [-> Ha]]]]; cbn [hd last placed]; intros L; [lia|].
  destruct (Nat.eqb_spec n (st_i a)), (Nat.eqb_spec n (st_i b)), (Nat.ltb_spec (st_i a) n), (Nat.ltb_spec n (st_i b)); try lia; reflexivity.
Qed.

(** value of the remaining sites n..N (k of them) from state r *)
Definition Vf (k n : nat) (r : sterm) : R :=
  if st_eqb r IL then rsum (map (fun h => if Nat.leb n (fi h) then ht_coef h * vtail k n (ht_ops h) else r0) terms)
  else if st_eqb r HL then idtail k n
  else rsum (map (fun h => if st_eqb r (ht_first h) && Nat.leb n (li h) then ht_coef h * vtail k n (ht_ops h) else r0) terms).

Notation wentry := (wentry r0 radd rmul val terms).

Lemma end_sum : forall r n,
  rsum (map (fun h => if st_eqb r (ht_first h) && Nat.eqb (st_i (ht_last h)) n
                      then ht_coef h * val n (endTerm (st_op (ht_last h))) else r0) (ht_by_n terms n)) =
  rsum (map (fun h => if st_eqb r (ht_first h) && Nat.eqb (li h) n
                      then ht_coef h * val n (endTerm (st_op (ht_last h))) else r0) terms).
Proof.
  intros r n. rewrite by_n_sum. apply rsum_ext. intros h Hh. unfold li.
  destruct (Nat.eqb (st_i (ht_last h)) n); rewrite ?orb_true_r, ?andb_false_r; [reflexivity|now destruct (_ || _)].
Qed.
Lemma on_sum : forall n,
  rsum (map (fun h => if Nat.eqb (st_i (ht_first h)) (st_i (ht_last h))
                      then ht_coef h * val n (st_op (ht_first h)) else r0) (ht_by_n terms n)) =
  rsum (map (fun h => if Nat.eqb (fi h) (li h) && Nat.eqb (fi h) n
                      then ht_coef h * val n (st_op (ht_first h)) else r0) terms).
Proof.
  intros n. rewrite by_n_sum. apply rsum_ext. intros h Hh. unfold li, fi.
  destruct (Nat.eqb_spec (st_i (ht_first h)) (st_i (ht_last h))) as [<-|_]; [|now destruct (_ || _)].
  now rewrite orb_diag.
Qed.

Lemma first_not : forall h, In h terms -> st_eqb IL (ht_first h) = false /\ st_eqb HL (ht_first h) = false.
Proof.
  intros h Hh. destruct (wf_bounds h Hh) as [H _]. unfold fi in H. split; apply st_eqb_neq; intros E; rewrite <- E in H; cbn in H; lia.
Qed.

(** V with no site left: the column picked by the right boundary is HL *)
Definition pickHL (c : sterm) : R := if st_eqb c HL then r1 else r0.

(** One site: a link vector that agrees with Vf on the columns gives Vf on the rows. *)
Lemma site_step : forall (bas : list sterm) (V : sterm -> R) k n r, NoDup bas ->
  1 <= n -> (n + k)%nat = N -> st_i r < n ->
  (forall c, In c bas <-> In c (basis0 terms n)) ->
  (forall c, In c bas -> V c = if k =? 0 then pickHL c else Vf k (S n) c) ->
  rsum (map (fun c => wentry n r c * V c) bas) = Vf (S k) n r.
Proof.
  intros bas V k n r ND Hn HN Hr HB HV.
  set (V' := fun c => if k =? 0 then pickHL c else Vf k (S n) c).
  rewrite (rsum_ext (fun c => wentry n r c * V c) (fun c => wentry n r c * V' c)) by (intros c Hc; now rewrite (HV c Hc)).
  assert (VHL : V' HL = idtail k (S n)).
  { unfold V', pickHL, Vf. destruct (Nat.eqb_spec k 0) as [->|_]; reflexivity. }
  assert (InHL : In HL bas) by (apply HB, basis_In; right; left; split; [reflexivity|exact Hn]).
  assert (VST : forall c, c <> IL -> c <> HL -> V' c =
     rsum (map (fun h => if st_eqb c (ht_first h) && Nat.leb (S n) (li h) then ht_coef h * vtail k (S n) (ht_ops h) else r0) terms)).
  { intros c H1 H2. unfold V', Vf, pickHL. apply st_eqb_neq in H1, H2. rewrite H1, H2.
    destruct (Nat.eqb_spec k 0) as [->|_]; [|reflexivity]. symmetry. apply rsum_zero. intros h Hh.
    destruct (wf_bounds h Hh) as [B1 [B2 B3]]. destruct (Nat.leb_spec (S n) (li h)); [lia|]. now rewrite andb_false_r. }
  (* split the entry *)
  rewrite (rsum_ext _ (fun c =>
     ((if Nat.eqb (st_i c) n && st_eqb r IL then val n (startTerm (st_op c)) * V' c else r0) +
      (if st_eqb c r then val n (if isF c then "F" else "Id")%string * V' c else r0)) +
     ((if st_eqb c HL then (fun c => rsum (map (fun h => if st_eqb r (ht_first h) && Nat.eqb (li h) n
                      then ht_coef h * val n (endTerm (st_op (ht_last h))) else r0) terms) * V' c) c else r0) +
      (if st_eqb c HL then (fun c => (if st_eqb r IL then rsum (map (fun h => if Nat.eqb (fi h) (li h) && Nat.eqb (fi h) n
                      then ht_coef h * val n (st_op (ht_first h)) else r0) terms) else r0) * V' c) c else r0)))).
  2:{ intros c Hc. unfold AutoMpoModel.wentry. rewrite end_sum, on_sum.
      destruct (Nat.eqb (st_i c) n), (st_eqb r IL), (st_eqb c r), (st_eqb c HL); cbn [andb]; ring. }
  rewrite !rsum_add. rewrite !(fun f => rsum_delta f HL bas ND InHL). rewrite VHL.
  destruct (st_eqb r IL) eqn:ER.
  - (* r = IL *)
    apply st_eqb_eq in ER. subst r.
    unfold Vf. change (st_eqb IL IL) with true. cbn match.
    rewrite (rsum_zero (fun h => if st_eqb IL (ht_first h) && _ then _ else _)).
    2:{ intros h Hh. destruct (first_not h Hh) as [-> _]. reflexivity. }
    (* identity *)
    rewrite (rsum_delta0 (fun c => val n (if isF c then "F" else "Id")%string * V' c) IL bas ND).
    2:{ intros NI. replace (V' IL) with r0; [ring|]. unfold V', pickHL, Vf. change (st_eqb IL HL) with false.
        change (st_eqb IL IL) with true. cbn match. destruct (Nat.eqb_spec k 0) as [->|K]; [reflexivity|].
        exfalso. apply NI, HB, basis_In. left. split; [reflexivity|lia]. }
    (* start *)
    rewrite (rsum_ext _ (fun c => rsum (map (fun h =>
       if st_eqb c (ht_first h) then (if Nat.eqb (fi h) n && Nat.leb (S n) (li h)
          then val n (startTerm (st_op (ht_first h))) * (ht_coef h * vtail k (S n) (ht_ops h)) else r0) else r0) terms))).
    2:{ intros c Hc. destruct (Nat.eqb_spec (st_i c) n) as [E|E]; cbn [andb].
        - rewrite VST; [|intros ->; cbn in E; lia|intros ->; cbn in E; lia].
          rewrite <- rsum_mul_l. apply rsum_ext. intros h Hh. destruct (st_eqb c (ht_first h)) eqn:E2; cbn [andb]; [|ring].
          apply st_eqb_eq in E2. subst c. unfold fi at 1. rewrite E, Nat.eqb_refl. cbn [andb].
          destruct (Nat.leb (S n) (li h)); ring.
        - symmetry. apply rsum_zero. intros h Hh. destruct (st_eqb c (ht_first h)) eqn:E2; [|reflexivity].
          apply st_eqb_eq in E2. subst c. unfold fi. destruct (Nat.eqb_spec (st_i (ht_first h)) n); [contradiction|reflexivity]. }
    rewrite rsum_swap.
    rewrite (rsum_ext (fun h => rsum (map _ bas)) (fun h => if Nat.eqb (fi h) n && Nat.leb (S n) (li h)
          then val n (startTerm (st_op (ht_first h))) * (ht_coef h * vtail k (S n) (ht_ops h)) else r0)).
    2:{ intros h Hh. apply (rsum_delta0 (fun _ => if Nat.eqb (fi h) n && Nat.leb (S n) (li h)
          then val n (startTerm (st_op (ht_first h))) * (ht_coef h * vtail k (S n) (ht_ops h)) else r0) (ht_first h) bas ND).
        intros NI. destruct (Nat.eqb_spec (fi h) n) as [E|E]; [|reflexivity]. cbn [andb].
        destruct (Nat.leb_spec (S n) (li h)) as [L|L]; [|reflexivity].
        exfalso. apply NI, HB, basis_In. right. right. exists h. split; [exact Hh|]. split; [reflexivity|lia]. }
    (* V' IL *)
    replace (V' IL) with (rsum (map (fun h => if Nat.leb (S n) (fi h) then ht_coef h * vtail k (S n) (ht_ops h) else r0) terms)).
    2:{ unfold V', pickHL, Vf. change (st_eqb IL IL) with true. change (st_eqb IL HL) with false. cbn match.
        destruct (Nat.eqb_spec k 0) as [->|K]; [|reflexivity]. apply rsum_zero. intros h Hh.
        destruct (wf_bounds h Hh) as [B1 [B2 B3]]. destruct (Nat.leb_spec (S n) (fi h)); [lia|reflexivity]. }
    change (if isF IL then "F"%string else "Id"%string) with "Id"%string.
    rewrite <- rsum_mul_l, <- rsum_mul_r, <- rsum_add.
    match goal with |- ?x + (r0 * ?y + ?z) = _ => replace (x + (r0 * y + z)) with (x + z) by ring end.
    rewrite <- rsum_add. apply rsum_ext. intros h Hh.
    destruct (wf_bounds h Hh) as [B1 [B2 B3]]. cbn [vtail].
    destruct (Nat.eqb_spec (fi h) n) as [E|E]; cbn [andb].
    + subst n. destruct (Nat.leb_spec (S (fi h)) (li h)) as [L|L].
      * destruct (Nat.leb_spec (S (fi h)) (fi h)); [lia|]. destruct (Nat.eqb_spec (fi h) (li h)); [lia|].
        destruct (Nat.leb_spec (fi h) (fi h)); [|lia]. cbn [andb]. rewrite placed_start by (assumption || lia). ring.
      * assert (Q : fi h = li h) by lia. rewrite <- Q, Nat.eqb_refl. cbn [andb].
        destruct (Nat.leb_spec (S (fi h)) (fi h)); [lia|]. destruct (Nat.leb_spec (fi h) (fi h)); [|lia].
        rewrite placed_single by assumption. rewrite (vtail_id h Hh) by lia. ring.
    + rewrite andb_false_r. destruct (Nat.leb_spec (S n) (fi h)), (Nat.leb_spec n (fi h)); try lia; try ring.
      rewrite placed_before by (assumption || lia). ring.
  - destruct (st_eqb r HL) eqn:ER2.
    + (* r = HL *)
      apply st_eqb_eq in ER2. subst r. unfold Vf. rewrite ER, st_eqb_refl.
      rewrite (rsum_zero (fun c => if Nat.eqb (st_i c) n && false then _ else _)) by (intros; now rewrite andb_false_r).
      rewrite (rsum_zero (fun h => if st_eqb HL (ht_first h) && _ then _ else _)).
      2:{ intros h Hh. destruct (first_not h Hh) as [_ ->]. reflexivity. }
      rewrite (rsum_delta (fun c => val n (if isF c then "F" else "Id")%string * V' c) HL bas ND InHL).
      rewrite VHL. cbn [idtail]. change (if isF HL then "F"%string else "Id"%string) with "Id"%string. ring.
    + (* a state carrying a string *)
      unfold Vf. rewrite ER, ER2. apply st_eqb_neq in ER, ER2.
      rewrite (rsum_zero (fun c => if Nat.eqb (st_i c) n && false then _ else _)) by (intros; now rewrite andb_false_r).
      rewrite (rsum_delta0 (fun c => val n (if isF c then "F" else "Id")%string * V' c) r bas ND).
      2:{ intros NI. rewrite VST by assumption. rewrite rsum_zero; [ring|]. intros h Hh.
          destruct (st_eqb r (ht_first h)) eqn:E; [|reflexivity]. cbn [andb]. apply st_eqb_eq in E.
          destruct (Nat.leb_spec (S n) (li h)); [|reflexivity]. exfalso. apply NI, HB, basis_In.
          right. right. exists h. split; [exact Hh|]. split; [exact E|]. unfold fi. rewrite <- E. lia. }
      rewrite VST by assumption.
      match goal with |- r0 + ?x + (?y + r0 * ?z) = _ => replace (r0 + x + (y + r0 * z)) with (x + y) by ring end.
      rewrite <- rsum_mul_l, <- rsum_mul_r, <- rsum_add. apply rsum_ext. intros h Hh.
      destruct (st_eqb r (ht_first h)) eqn:E; cbn [andb]; [|ring].
      apply st_eqb_eq in E. assert (FI : fi h < n) by (unfold fi; rewrite <- E; exact Hr).
      cbn [vtail]. destruct (Nat.eqb_spec (li h) n) as [L|L].
      * destruct (Nat.leb_spec (S n) (li h)); [lia|]. destruct (Nat.leb_spec n (li h)); [|lia]. subst n.
        rewrite placed_end by (assumption || lia). rewrite (vtail_id h Hh) by lia. ring.
      * destruct (Nat.leb_spec (S n) (li h)), (Nat.leb_spec n (li h)); try lia; try ring.
        rewrite placed_mid by (assumption || lia). rewrite E. ring.
Qed.

Context (srt : nat -> list sterm -> list sterm) (SP : forall n l, Permutation (srt n l) l).
Context (HN : 1 <= N) (LAST : hd st_none (srt N (basis0 terms N)) = HL).
Notation chain := (chain r0 radd rmul srt val N terms).

Lemma basis_site : forall n c, 1 <= n -> In c (basis0 terms n) -> st_i c < S n.
Proof.
  intros n c Hn H. apply basis_In in H. destruct H as [[-> _]|[[-> _]|[h [_ [-> H]]]]]; [cbn; lia|cbn; lia|unfold fi in H; lia].
Qed.

Lemma chain_Vf : forall k n r, 1 <= n -> (n + k)%nat = N -> st_i r < n -> chain k n r = Vf (S k) n r.
Proof.
  induction k as [|k IH]; intros n r Hn HK Hr.
  - cbn [AutoMpoModel.chain]. rewrite LAST. replace n with N in * by lia.
    rewrite <- (site_step (basis0 terms N) pickHL 0 N r); try assumption; [|apply basis_nodup|intros; reflexivity|intros; reflexivity].
    unfold pickHL.
    rewrite (rsum_ext _ (fun c => if st_eqb c HL then wentry N r c else r0)) by (intros c _; destruct (st_eqb c HL); ring).
    rewrite rsum_delta; [reflexivity|apply basis_nodup|]. apply basis_In. right. left. split; [reflexivity|lia].
  - cbn [AutoMpoModel.chain]. apply site_step; try assumption.
    + apply Permutation_NoDup with (basis0 terms n); [apply Permutation_sym, SP|apply basis_nodup].
    + intros c. split; intros H; [eapply Permutation_in; [apply SP|exact H]|eapply Permutation_in; [apply Permutation_sym, SP|exact H]].
    + intros c Hc. cbn [Nat.eqb]. apply IH; [lia|lia|]. apply basis_site; [exact Hn|]. eapply Permutation_in; [apply SP|exact Hc].
Qed.

Lemma toMPO_total : toMPO_elt r0 radd rmul srt val N terms = Ok (total_value r0 r1 radd rmul val N terms).
Proof.
  unfold toMPO_elt.
  assert (E1 : existsb (fun h => Nat.ltb 2 (List.length (ht_ops h))) terms = false).
  { apply not_true_is_false. intros E. apply existsb_exists in E. destruct E as [h [Hh E]]. apply Nat.ltb_lt in E.
    destruct (WF h Hh) as [[a [Q _]]|[a [b [Q _]]]]; rewrite Q in E; cbn in E; lia. }
  assert (E2 : existsb (fun h => existsb (fun s => Nat.ltb N (st_i s)) (ht_ops h)) terms = false).
  { apply not_true_is_false. intros E. apply existsb_exists in E. destruct E as [h [Hh E]].
    apply existsb_exists in E. destruct E as [s [Hs E]]. apply Nat.ltb_lt in E.
    destruct (WF h Hh) as [[a [Q B]]|[a [b [Q B]]]]; rewrite Q in Hs; cbn in Hs; intuition (subst; lia). }
  assert (E3 : existsb (fun h => match ht_ops h with [] => true | _ => false end) terms = false).
  { apply not_true_is_false. intros E. apply existsb_exists in E. destruct E as [h [Hh E]].
    destruct (WF h Hh) as [[a [Q B]]|[a [b [Q B]]]]; rewrite Q in E; discriminate. }
  rewrite E1, E2, E3. f_equal.
  rewrite (hd_perm_single _ IL) by (rewrite <- (basis_zero HN); apply SP).
  rewrite chain_Vf; [|lia|lia|cbn; lia]. replace (S (N - 1)) with N by lia.
  unfold Vf, total_value. change (st_eqb IL IL) with true. cbn match. apply rsum_ext. intros h Hh.
  destruct (wf_bounds h Hh) as [B1 _]. destruct (Nat.leb_spec 1 (fi h)); [|lia].
  rewrite vtail_value. reflexivity.
Qed.
End Chain.
