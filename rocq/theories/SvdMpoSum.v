(** Sums over lists and matrices, for the proofs about the default AutoMPO conversion. *)
From Coq Require Import List ZArith Arith Lia Bool String Ring Permutation.
From Verif Require Import Util AutoMpoModel SvdMpoModel.
Import ListNotations.
Local Open Scope outcome_scope.
Local Arguments Nat.sub : simpl never.

Section Sums.
Context {R : Type} (r0 r1 : R) (radd rmul : R -> R -> R).
Context (SR : semi_ring_theory r0 r1 radd rmul (@eq R)).
Add Ring RRsv : SR.
Declare Scope svd_scope.
Delimit Scope svd_scope with svd.
Notation "x + y" := (radd x y) : svd_scope.
Notation "x * y" := (rmul x y) : svd_scope.

Definition lsum {X} (f : X -> R) (l : list X) : R := fold_right radd r0 (map f l).

Lemma lsum_cons {X} (f : X -> R) x l : lsum f (x :: l) = radd (f x) (lsum f l).
Proof. reflexivity. Qed.
Lemma lsum_ext {X} (f g : X -> R) l : (forall x, In x l -> f x = g x) -> lsum f l = lsum g l.
Proof. unfold lsum. intros H. f_equal. apply map_ext_in, H. Qed.
Lemma lsum_zero {X} (f : X -> R) l : (forall x, In x l -> f x = r0) -> lsum f l = r0.
Proof. induction l as [|x l IH]; intros H; [reflexivity|]. rewrite lsum_cons, H, IH; [ring|intros; apply H; now right|now left]. Qed.
Lemma lsum_add {X} (f g : X -> R) l : lsum (fun x => radd (f x) (g x)) l = radd (lsum f l) (lsum g l).
Proof. induction l as [|x l IH]; [unfold lsum; cbn; ring|]. rewrite !lsum_cons, IH. ring. Qed.
Lemma lsum_mul_l {X} c (f : X -> R) l : lsum (fun x => rmul c (f x)) l = rmul c (lsum f l).
Proof. induction l as [|x l IH]; [unfold lsum; cbn; ring|]. rewrite !lsum_cons, IH. ring. Qed.
Lemma lsum_mul_r {X} c (f : X -> R) l : lsum (fun x => rmul (f x) c) l = rmul (lsum f l) c.
Proof. induction l as [|x l IH]; [unfold lsum; cbn; ring|]. rewrite !lsum_cons, IH. ring. Qed.
Lemma lsum_app {X} (f : X -> R) l l' : lsum f (l ++ l') = radd (lsum f l) (lsum f l').
Proof. induction l as [|x l IH]; [unfold lsum; cbn; ring|]. cbn [app]. rewrite !lsum_cons, IH. ring. Qed.
Lemma lsum_swap {X Y} (f : X -> Y -> R) l l' : lsum (fun x => lsum (f x) l') l = lsum (fun y => lsum (fun x => f x y) l) l'.
Proof.
  induction l as [|x l IH]; [symmetry; apply lsum_zero; reflexivity|]. rewrite lsum_cons, IH, <- lsum_add. apply lsum_ext. intros y _. now rewrite lsum_cons.
Qed.
Lemma lsum_filter {X} (f : X -> R) p l : lsum f (filter p l) = lsum (fun x => if p x then f x else r0) l.
Proof. induction l as [|x l IH]; [reflexivity|]. cbn [filter]. rewrite lsum_cons. destruct (p x); rewrite ?lsum_cons, IH; ring. Qed.
Lemma lsum_map {X Y} (f : Y -> R) (g : X -> Y) l : lsum f (map g l) = lsum (fun x => f (g x)) l.
Proof. unfold lsum. now rewrite map_map. Qed.
Lemma lsum_perm {X} (f : X -> R) l l' : Permutation l l' -> lsum f l = lsum f l'.
Proof. induction 1; rewrite ?lsum_cons; try congruence. ring. Qed.
Lemma lsum_pick {X} (eqb : X -> X -> bool) (eqb_spec : forall a b, eqb a b = true <-> a = b) (f : X -> R) x l : NoDup l -> In x l ->
  lsum (fun y => if eqb x y then f y else r0) l = f x.
Proof.
  induction l as [|y l IH]; intros N H; [destruct H|]. apply NoDup_cons_iff in N as [N1 N2]. rewrite lsum_cons. destruct (eqb x y) eqn:E.
  - apply eqb_spec in E. subst y. rewrite lsum_zero; [ring|]. intros z Hz. destruct (eqb x z) eqn:E2; auto. apply eqb_spec in E2. subst z. contradiction.
  - rewrite IH; auto; [ring|]. destruct H as [->|H]; auto. rewrite (proj2 (eqb_spec x x) eq_refl) in E. discriminate.
Qed.
Lemma lsum_bind {X Y} (f : Y -> R) (g : X -> list Y) l : lsum f (flat_map g l) = lsum (fun x => lsum f (g x)) l.
Proof. induction l as [|x l IH]; [reflexivity|]. cbn [flat_map]. now rewrite lsum_app, lsum_cons, IH. Qed.

(** *** Matrices *)
Definition entry (M : list (list R)) (r c : nat) : R := nth c (nth r M []) r0.
Definition dims (M : list (list R)) (nr nc : nat) : Prop := List.length M = nr /\ forall r, r < nr -> List.length (nth r M []) = nc.

Lemma dims_repeat nr nc : dims (repeat (repeat r0 nc) nr) nr nc.
Proof. split; [apply repeat_length|]. intros r Hr. rewrite (nth_indep _ [] (repeat r0 nc)), nth_repeat, repeat_length; auto. now rewrite repeat_length. Qed.
Lemma entry_repeat nr nc r c : entry (repeat (repeat r0 nc) nr) r c = r0.
Proof.
  unfold entry. destruct (Nat.lt_ge_cases r nr) as [H|H].
  - rewrite (nth_indep _ [] (repeat r0 nc)), nth_repeat by now rewrite repeat_length. apply nth_repeat.
  - rewrite nth_overflow with (n := r) by (now rewrite repeat_length). now destruct c.
Qed.
Lemma mset_dims M nr nc r c x : dims M nr nc -> dims (mset M r c x) nr nc.
Proof.
  intros [H1 H2]. unfold mset. split; [now rewrite upd_length|]. intros i Hi. destruct (Nat.eq_dec r i) as [->|N].
  - rewrite nth_upd_eq by lia. rewrite upd_length. auto.
  - rewrite nth_upd_neq by auto. auto.
Qed.
Lemma mset_entry M nr nc r c x i j : dims M nr nc -> r < nr -> c < nc ->
  entry (mset M r c x) i j = if (Nat.eqb r i && Nat.eqb c j)%bool then x else entry M i j.
Proof.
  intros [H1 H2] Hr Hc. unfold mset, entry. destruct (Nat.eqb_spec r i) as [->|N]; cbn [andb].
  - rewrite nth_upd_eq by lia. destruct (Nat.eqb_spec c j) as [->|N'].
    + apply nth_upd_eq. rewrite H2; auto.
    + apply nth_upd_neq; auto.
  - now rewrite nth_upd_neq by auto.
Qed.
Definition mrows (vm : list (nat * nat * R)) : nat := fold_left (fun m e => Nat.max m (S (fst (fst e)))) vm 0.
Definition mcols (vm : list (nat * nat * R)) : nat := fold_left (fun m e => Nat.max m (S (snd (fst e)))) vm 0.
Lemma fold_max {X} (f : X -> nat) l : forall m, m <= fold_left (fun m e => Nat.max m (f e)) l m /\ forall e, In e l -> f e <= fold_left (fun m e => Nat.max m (f e)) l m.
Proof.
  induction l as [|x l IH]; intros m; cbn [fold_left]; [split; [lia|intros e []]|]. destruct (IH (Nat.max m (f x))) as [H1 H2]. split; [lia|].
  intros e [->|He]; auto. lia.
Qed.
Lemma mrows_lt vm e : In e vm -> fst (fst e) < mrows vm.
Proof. intros H. apply (proj2 (fold_max (fun e : nat * nat * R => S (fst (fst e))) vm 0)) in H. exact H. Qed.
Lemma mcols_lt vm e : In e vm -> snd (fst e) < mcols vm.
Proof. intros H. apply (proj2 (fold_max (fun e : nat * nat * R => S (snd (fst e))) vm 0)) in H. exact H. Qed.
Definition at_pos (l j : nat) (e : nat * nat * R) : bool := Nat.eqb (fst (fst e)) l && Nat.eqb (snd (fst e)) j.
Lemma toMatrix_spec vm : NoDup (map fst vm) ->
  dims (toMatrix r0 vm) (mrows vm) (mcols vm) /\
  forall l j, entry (toMatrix r0 vm) l j = lsum (fun e => if at_pos l j e then snd e else r0) vm.
Proof.
  intros ND. unfold toMatrix. fold (mrows vm). fold (mcols vm).
  assert (G : forall v M, NoDup (map fst v) -> dims M (mrows vm) (mcols vm) -> (forall e, In e v -> In e vm) -> (forall e, In e v -> entry M (fst (fst e)) (snd (fst e)) = r0) ->
    let M' := fold_left (fun M e => mset M (fst (fst e)) (snd (fst e)) (snd e)) v M in
    dims M' (mrows vm) (mcols vm) /\ forall l j, entry M' l j = radd (entry M l j) (lsum (fun e => if at_pos l j e then snd e else r0) v)).
  { induction v as [|e v IH]; intros M N D Hin Hz; cbn [fold_left].
    - split; auto. intros l j. unfold lsum. cbn. ring.
    - cbn in N. apply NoDup_cons_iff in N as [N1 N2]. assert (He : In e vm) by (apply Hin; now left).
      pose proof (mrows_lt vm e He) as B1. pose proof (mcols_lt vm e He) as B2.
      destruct (IH (mset M (fst (fst e)) (snd (fst e)) (snd e)) N2) as [D' E'].
      + now apply mset_dims.
      + intros; apply Hin; now right.
      + intros e' He'. rewrite (mset_entry M _ _ _ _ _ _ _ D B1 B2). destruct (Nat.eqb_spec (fst (fst e)) (fst (fst e'))) as [Q1|Q1]; cbn [andb].
        * destruct (Nat.eqb_spec (snd (fst e)) (snd (fst e'))) as [Q2|Q2]; [|apply Hz; now right]. exfalso. apply N1. apply in_map_iff. exists e'. split; auto.
          destruct e as [[? ?] ?], e' as [[? ?] ?]; cbn in *; congruence.
        * apply Hz; now right.
      + split; auto. intros l j. rewrite E', (mset_entry M _ _ _ _ _ _ _ D B1 B2), lsum_cons. unfold at_pos at 2.
        destruct (Nat.eqb_spec (fst (fst e)) l) as [Q1|Q1]; cbn [andb]; [|ring]. destruct (Nat.eqb_spec (snd (fst e)) j) as [Q2|Q2]; [|ring].
        subst l j. rewrite (Hz e) by now left. ring. }
  destruct (G vm _ ND (dims_repeat _ _) ltac:(auto)) as [D E].
  - intros e _. apply entry_repeat.
  - split; auto. intros l j. rewrite E, entry_repeat. ring.
Qed.
(** Weighted sum of all entries. *)
Lemma mat_sum vm (w g : nat -> R) : NoDup (map fst vm) ->
  lsum (fun l => rmul (w l) (lsum (fun j => rmul (entry (toMatrix r0 vm) l j) (g j)) (seq 0 (mcols vm)))) (seq 0 (mrows vm)) =
  lsum (fun e => rmul (w (fst (fst e))) (rmul (snd e) (g (snd (fst e))))) vm.
Proof.
  intros ND. destruct (toMatrix_spec vm ND) as [_ E].
  transitivity (lsum (fun l => lsum (fun e => lsum (fun j => if at_pos l j e then rmul (w l) (rmul (snd e) (g j)) else r0) (seq 0 (mcols vm))) vm) (seq 0 (mrows vm))).
  { apply lsum_ext. intros l _. rewrite <- lsum_mul_l. rewrite lsum_swap. apply lsum_ext. intros j _. rewrite E. rewrite <- lsum_mul_r, <- lsum_mul_l. apply lsum_ext. intros e _. destruct (at_pos l j e); ring. }
  rewrite lsum_swap. apply lsum_ext. intros e He. unfold at_pos.
  transitivity (lsum (fun l => if Nat.eqb (fst (fst e)) l then rmul (w l) (rmul (snd e) (g (snd (fst e)))) else r0) (seq 0 (mrows vm))).
  { apply lsum_ext. intros l _. destruct (Nat.eqb (fst (fst e)) l) eqn:Q; cbn [andb].
    - apply (lsum_pick Nat.eqb Nat.eqb_eq (fun j => rmul (w l) (rmul (snd e) (g j)))); [apply seq_NoDup|]. apply in_seq. pose proof (mcols_lt vm e He). lia.
    - apply lsum_zero. auto. }
  apply (lsum_pick Nat.eqb Nat.eqb_eq (fun l => rmul (w l) (rmul (snd e) (g (snd (fst e)))))); [apply seq_NoDup|]. apply in_seq. pose proof (mrows_lt vm e He). lia.
Qed.
(** M(r,c) += z for a list. *)
Lemma madds_spec l : forall M nr nc, dims M nr nc -> (forall e : nat * nat * R, In e l -> fst (fst e) < nr /\ snd (fst e) < nc) ->
  exists M', madds radd M l = Ok M' /\ dims M' nr nc /\ forall i j, entry M' i j = radd (entry M i j) (lsum (fun e => if at_pos i j e then snd e else r0) l).
Proof.
  induction l as [|[[r c] z] l IH]; intros M nr nc D H.
  - exists M. split; [reflexivity|]. split; auto. intros. unfold lsum. cbn. ring.
  - destruct (H _ (or_introl eq_refl)) as [B1 B2]. cbn [fst snd] in B1, B2. cbn [madds]. unfold madd.
    assert (E1 : oget M r = Ok (nth r M [])). { unfold oget. rewrite (nth_error_nth' M []) by (destruct D; lia). reflexivity. }
    assert (E2 : oget (nth r M []) c = Ok (entry M r c)). { unfold oget. rewrite (nth_error_nth' (nth r M []) r0) by (destruct D as [_ D]; rewrite D; lia). reflexivity. }
    rewrite E1. cbn [obind]. rewrite E2. cbn [obind]. fold (mset M r c (radd (entry M r c) z)).
    destruct (IH (mset M r c (radd (entry M r c) z)) nr nc) as (M' & E & D' & EE).
    + now apply mset_dims.
    + intros e He. apply H. now right.
    + exists M'. split; auto. split; auto. intros i j. rewrite EE, (mset_entry M nr nc _ _ _ _ _ D B1 B2), lsum_cons. unfold at_pos at 2. cbn [fst snd].
      destruct (Nat.eqb_spec r i) as [->|]; cbn [andb]; [|ring]. destruct (Nat.eqb_spec c j) as [->|]; ring.
Qed.
End Sums.
