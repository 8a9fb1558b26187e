(** Chains of tensors: their indices, renaming, and the sums they stand for. *)
From Coq Require Import List Arith Bool Lia Permutation Ring.
From Verif Require Import Util RangeModel RangeSpec RangeProofs TensorModel TensorSpec TensorProofs SemProofs BigSum InnerModel InnerSpec NetProofs.
Import ListNotations.
Local Open Scope outcome_scope.
Local Arguments Nat.sub : simpl never.

(** ** Lists *)
Lemma lk_other xs : forall ys y, ~ In y xs -> lk xs ys y = y.
Proof.
  induction xs as [|x xs IH]; intros [|b ys] y H; cbn in *; auto. destruct (ix_eqb y x) eqn:E.
  - apply ix_eqb_spec in E. subst. tauto. - apply IH. tauto.
Qed.
Lemma lk_nth xs : forall ys i d, NoDup xs -> length ys = length xs -> i < length xs -> lk xs ys (nth i xs d) = nth i ys d.
Proof.
  induction xs as [|x xs IH]; intros [|b ys] i d N L Hi; cbn in *; try lia. inversion N; subst. destruct i as [|i].
  - now rewrite (proj2 (ix_eqb_spec x x) eq_refl).
  - cbn. destruct (ix_eqb (nth i xs d) x) eqn:E.
    + exfalso. apply ix_eqb_spec in E. apply H1. rewrite <- E. apply nth_In. lia.
    + apply IH; auto; lia.
Qed.
Lemma lk_map xs ys : NoDup xs -> length ys = length xs -> map (lk xs ys) xs = ys.
Proof.
  intros N L. destruct xs as [|x0 xs0] eqn:E; [destruct ys; [auto|discriminate]|]. rewrite <- E in *.
  apply (nth_ext _ _ x0 x0); rewrite map_length; [auto|]. intros i Hi.
  rewrite (nth_indep _ x0 (lk xs ys x0)) by now rewrite map_length. rewrite map_nth. now apply lk_nth.
Qed.
Lemma map_other xs ys l : (forall y, In y l -> ~ In y xs) -> map (lk xs ys) l = l.
Proof. intros H. rewrite <- (map_id l) at 2. apply map_ext_in. intros y Hy. apply lk_other. auto. Qed.
Lemma nodup_inj {A B} (f : A -> B) l x y : NoDup (map f l) -> In x l -> In y l -> f x = f y -> x = y.
Proof.
  induction l as [|a l IH]; cbn; intros N Hx Hy E; [contradiction|]. inversion N; subst. destruct Hx as [<-|Hx], Hy as [<-|Hy]; auto.
  - exfalso. apply H1. rewrite E. now apply in_map. - exfalso. apply H1. rewrite <- E. now apply in_map.
Qed.
Lemma sims_len k l : length (sims k l) = length l.
Proof. revert k; induction l; intros; cbn; auto. Qed.
Lemma sims_dim k l : map ixdim (sims k l) = map ixdim l.
Proof. revert k; induction l; intros; cbn; f_equal; auto. Qed.
Lemma sims_id k l : map ixid (sims k l) = seq k (length l).
Proof. revert k; induction l; intros; cbn; f_equal; auto. Qed.
Lemma sims_ge k l x : In x (sims k l) -> k <= ixid x < k + length l.
Proof. intros H. apply (in_map ixid) in H. rewrite sims_id in H. apply in_seq in H. exact H. Qed.
Lemma sims_nodup k l : NoDup (sims k l).
Proof. apply (NoDup_map_inv ixid). rewrite sims_id. apply seq_NoDup. Qed.
Lemma combine_nth_error {A B} (a : list A) : forall (b : list B) n, nth_error (combine a b) n =
  match nth_error a n, nth_error b n with Some x, Some y => Some (x, y) | _, _ => None end.
Proof. induction a as [|x a IH]; intros [|y b] [|n]; cbn; auto. destruct (nth_error a n); auto. Qed.
Lemma list_eqb_eq l m : list_eqb l m = true -> l = m.
Proof.
  unfold list_eqb. rewrite andb_true_iff, Nat.eqb_eq. revert m; induction l as [|a l IH]; intros [|b m] [L H]; cbn in *; try discriminate; auto.
  apply andb_true_iff in H. destruct H as [H1 H2]. apply ix_eqb_spec in H1. f_equal; auto.
Qed.
Lemma mapM_seq {B} (f : nat -> outcome B) d r : forall a, (forall i, i < length r -> f (a + i) = Ok (nth i r d)) -> mapM f (seq a (length r)) = Ok r.
Proof.
  induction r as [|b r IH]; intros a H; cbn; auto. pose proof (H 0 ltac:(cbn; lia)) as H0. rewrite Nat.add_0_r in H0. rewrite H0. cbn.
  rewrite (IH (S a)); [reflexivity|]. intros i Hi. specialize (H (S i) ltac:(cbn; lia)). cbn [nth] in H. rewrite <- H. f_equal. lia.
Qed.
Lemma mapM_list {A B} (f : A -> outcome B) d0 d l : forall r, length l = length r -> (forall i, i < length r -> f (nth i l d0) = Ok (nth i r d)) -> mapM f l = Ok r.
Proof.
  induction l as [|x l IH]; intros [|b r] L H; cbn in *; try discriminate; auto. rewrite (H 0) by lia. cbn.
  rewrite (IH r); [reflexivity|lia|]. intros i Hi. apply (H (S i)). lia.
Qed.
Lemma perm_one {A} (l : list A) a : NoDup l -> (forall y, In y l <-> y = a) -> l = [a].
Proof.
  intros N H. destruct l as [|b l]. - exfalso. apply (proj2 (H a) eq_refl). - assert (b = a) by (apply H; left; auto). subst.
  destruct l as [|c l]; auto. assert (c = a) by (apply H; right; left; auto). subst. inversion N; subst. exfalso. apply H2. left; auto.
Qed.
Lemma nodup_concat_nth (S : list (list ix)) : forall n m y, NoDup (concat S) -> In y (nth n S []) -> In y (nth m S []) -> n = m.
Proof.
  induction S as [|s S IH]; intros [|n] [|m] y N H1 H2; cbn in *; try contradiction; auto.
  - apply NoDup_app_iff in N. destruct N as (_ & _ & N). exfalso. apply (N y H1). apply in_concat. exists (nth m S []). split; auto.
    destruct (le_lt_dec (length S) m); [rewrite nth_overflow in H2 by auto; contradiction|]. now apply nth_In.
  - apply NoDup_app_iff in N. destruct N as (_ & _ & N). exfalso. apply (N y H2). apply in_concat. exists (nth n S []). split; auto.
    destruct (le_lt_dec (length S) n); [rewrite nth_overflow in H1 by auto; contradiction|]. now apply nth_In.
  - f_equal. apply NoDup_app_iff in N. apply (IH n m y); tauto.
Qed.
Lemma in_nth_concat (S : list (list ix)) n y : In y (nth n S []) -> In y (concat S).
Proof.
  intros H. apply in_concat. exists (nth n S []). split; auto. destruct (le_lt_dec (length S) n); [rewrite nth_overflow in H by auto; contradiction|]. now apply nth_In.
Qed.
Definition optl (L : list ix) (m : nat) : list ix := match nth_error L m with Some a => [a] | None => [] end.
Definition prevl (L : list ix) (n : nat) : list ix := match n with O => [] | S m => optl L m end.
Lemma around_eq L n : around L (S n) = prevl L n ++ optl L n.
Proof. destruct n; reflexivity. Qed.
Lemma optl_In L m y : In y (optl L m) <-> nth_error L m = Some y.
Proof. unfold optl. destruct (nth_error L m); cbn; split; intros H; try easy. - destruct H as [->|[]]; auto. - left; congruence. Qed.

Section Chain.
Context {R : Type} (r0 r1 : R) (radd rmul rsub : R -> R -> R) (ropp : R -> R).
Context (RT : ring_theory r0 r1 radd rmul rsub ropp eq).
Add Ring RRcp : RT.
Notation nt := (nt R).
Notation mps := (mps R).
Notation sum_over := (sum_over r0 radd ix_eqb ixdim).
Notation tmul := (tmul r0 radd rmul).
Notation tmuls := (tmuls r0 radd rmul).
Notation prod := (prod r1 rmul).
Notation contract_all := (contract_all r0 radd rmul).
Notation "x + y" := (radd x y). Notation "x * y" := (rmul x y).

(** ** The shape of a chain *)
Lemma chain_len (x : mps) : forall left SS L, chain_on left x SS L -> length SS = length x /\ S (length L) = length x.
Proof.
  induction x as [|t x IH]; intros left SS L H; [cbn in H; destruct SS; contradiction|].
  destruct SS as [|s SS]; [cbn in H; destruct x; contradiction|]. destruct x as [|t' x].
  - destruct SS as [|s' SS]; [cbn in H; destruct H as (-> & _); auto|]. cbn in H. destruct L; [contradiction|tauto].
  - cbn [chain_on] in H. destruct L as [|l L]; [contradiction|]. destruct H as (_ & _ & H). apply IH in H. cbn [length] in *. lia.
Qed.
Lemma chain_nth (x : mps) : forall left SS L, chain_on left x SS L -> forall n t, nth_error x n = Some t ->
  proper t /\ Permutation (nis t) ((match n with O => left | S m => optl L m end) ++ nth n SS [] ++ optl L n).
Proof.
  induction x as [|t0 x IH]; intros left SS L H n t E; [destruct n; discriminate|].
  destruct SS as [|s SS]; [cbn in H; destruct x; contradiction|]. destruct x as [|t' x].
  - destruct SS as [|s' SS]; [cbn in H; destruct H as (-> & H1 & H2)|cbn in H; destruct L; [contradiction|tauto]].
    destruct n as [|n]; [|destruct n; discriminate]. cbn in E. inversion E; subst. cbn. rewrite app_nil_r. auto.
  - change (chain_on left (t0 :: t' :: x) (s :: SS) L) with (match L with l :: links' => proper t0 /\ Permutation (nis t0) (left ++ s ++ [l]) /\ chain_on [l] (t' :: x) SS links' | [] => False end) in H.
    destruct L as [|l L]; [contradiction|]. destruct H as (H1 & H2 & H3). destruct n as [|n].
    + cbn in E. inversion E; subst. cbn. auto.
    + change (nth_error (t' :: x) n = Some t) in E. destruct (IH _ _ _ H3 n t E) as [P Q]. split; auto. cbn [nth]. destruct n; exact Q.
Qed.
Lemma chain_proper (x : mps) left SS L : chain_on left x SS L -> forall t, In t x -> proper t.
Proof. intros H t Ht. apply In_nth_error in Ht. destruct Ht as (n & E). apply (chain_nth x left SS L H n t E). Qed.
Lemma chain_concat (x : mps) : forall left SS L, chain_on left x SS L -> Permutation (concat (map nis x)) (left ++ concat SS ++ L ++ L).
Proof.
  induction x as [|t0 x IH]; intros left SS L H; [cbn in H; destruct SS; contradiction|].
  destruct SS as [|s SS]; [cbn in H; destruct x; contradiction|]. destruct x as [|t' x].
  - destruct SS as [|s' SS]; [cbn in H; destruct H as (-> & H1 & H2)|cbn in H; destruct L; [contradiction|tauto]].
    cbn. rewrite !app_nil_r. exact H2.
  - change (chain_on left (t0 :: t' :: x) (s :: SS) L) with (match L with l :: links' => proper t0 /\ Permutation (nis t0) (left ++ s ++ [l]) /\ chain_on [l] (t' :: x) SS links' | [] => False end) in H.
    destruct L as [|l L]; [contradiction|]. destruct H as (H1 & H2 & H3). specialize (IH _ _ _ H3).
    change (concat (map nis (t0 :: t' :: x))) with (nis t0 ++ concat (map nis (t' :: x))). rewrite H2, IH. cbn [concat app].
    rewrite <- !app_assoc. apply Permutation_app_head. apply Permutation_app_head. cbn [app].
    change (Permutation ([l] ++ l :: concat SS ++ L ++ L) (concat SS ++ l :: L ++ l :: L)).
    cbn [app]. rewrite <- Permutation_middle. constructor. rewrite app_assoc. rewrite (app_assoc (concat SS) L (l :: L)). rewrite <- Permutation_middle. reflexivity.
Qed.
Lemma perm_nodup_sub {A} (l a b c : list A) : Permutation l (a ++ b) -> NoDup (a ++ b ++ c) -> NoDup l.
Proof. intros P N. apply (Permutation_NoDup (Permutation_sym P)). rewrite app_assoc in N. apply NoDup_app_iff in N. tauto. Qed.
Lemma optl_sub L m y : In y (optl L m) -> In y L.
Proof. rewrite optl_In. apply nth_error_In. Qed.
Lemma optl_nodup L m : NoDup (optl L m).
Proof. unfold optl. destruct (nth_error L m); repeat constructor. cbn. tauto. Qed.
Lemma optl_inj L m n y : NoDup L -> In y (optl L m) -> In y (optl L n) -> m = n.
Proof.
  intros N H1 H2. apply optl_In in H1, H2. apply (proj1 (NoDup_nth_error L) N); [|congruence]. apply nth_error_Some. congruence.
Qed.
Lemma chain_nodup (x : mps) SS L : chain_on [] x SS L -> NoDup (concat SS ++ L) -> forall t, In t x -> NoDup (nis t).
Proof.
  intros H N t Ht. apply In_nth_error in Ht. destruct Ht as (n & E). destruct (chain_nth x [] SS L H n t E) as [_ P].
  apply (Permutation_NoDup (Permutation_sym P)). apply NoDup_app_iff in N. destruct N as (NS & NL & ND).
  assert (Ns : NoDup (nth n SS [])).
  { clear -NS. revert n. induction SS as [|s SS IH]; intros [|n]; cbn in *; try constructor; apply NoDup_app_iff in NS; [tauto|apply IH; tauto]. }
  assert (Q : (match n with O => [] | S m => optl L m end) = prevl L n) by (destruct n; reflexivity). rewrite Q.
  apply NoDup_app_iff. split; [destruct n; [constructor|apply optl_nodup]|]. split.
  - apply NoDup_app_iff. split; [exact Ns|]. split; [apply optl_nodup|]. intros y H1 H2. apply (ND y); [now apply (in_nth_concat SS n)|now apply (optl_sub L n)].
  - intros y H1 H2. assert (Hy : In y L) by (destruct n; [contradiction|now apply (optl_sub L n)]). apply in_app_or in H2. destruct H2 as [H2|H2].
    + apply (ND y); [now apply (in_nth_concat SS n)|auto].
    + destruct n as [|n]; [contradiction|]. pose proof (optl_inj L n (S n) y NL H1 H2). lia.
Qed.
Lemma ninds_In (x : mps) SS L : chain_on [] x SS L -> forall n y,
  In y (ninds x (S n)) <-> n < length x /\ (In y (prevl L n) \/ In y (nth n SS []) \/ In y (optl L n)).
Proof.
  intros H n y. cbn [ninds]. destruct (nth_error x n) as [t|] eqn:E.
  - destruct (chain_nth x [] SS L H n t E) as [_ P]. assert (Q : (match n with O => [] | S m => optl L m end) = prevl L n) by (destruct n; reflexivity). rewrite Q in P.
    assert (n < length x) by (apply nth_error_Some; congruence).
    rewrite <- !in_app_iff. split; intros K; [split; auto; eapply Permutation_in; eauto|]. eapply Permutation_in; [symmetry; exact P|]. tauto.
  - apply nth_error_None in E. cbn. split; [easy|]. intros [K _]. lia.
Qed.
Lemma ninds_0 (x : mps) : ninds x 0 = [].
Proof. reflexivity. Qed.
Lemma ninds_nodup (x : mps) SS L : chain_on [] x SS L -> NoDup (concat SS ++ L) -> forall n, NoDup (ninds x n).
Proof.
  intros H N [|n]; [constructor|]. cbn [ninds]. destruct (nth_error x n) as [t|] eqn:E; [|constructor].
  apply (chain_nodup x SS L H N). now apply (nth_error_In x n).
Qed.

Lemma siteInds1_chain (x : mps) SS L : chain_on [] x SS L -> NoDup (concat SS ++ L) -> forall n, n < length x ->
  Permutation (siteInds1 x (S n)) (nth n SS []).
Proof.
  intros H N n Hn. pose proof (chain_len _ _ _ _ H) as [LS LL]. pose proof N as N0. apply NoDup_app_iff in N. destruct N as (NS & NL & ND).
  assert (Ns : NoDup (nth n SS [])).
  { clear -NS. revert n. induction SS as [|s SS IH]; intros [|n]; cbn in *; try constructor; apply NoDup_app_iff in NS; [tauto|apply IH; tauto]. }
  apply NoDup_Permutation; [apply NoDup_filter; now apply (ninds_nodup x SS L)|exact Ns|].
  intros y. unfold siteInds1, uniqueInds. rewrite filter_In, negb_true_iff, <- not_true_iff_false, has_In. cbn [concat]. rewrite app_nil_r, in_app_iff.
  replace (S n - 1) with n by lia. replace (S n + 1)%nat with (S (S n)) by lia. rewrite !(ninds_In x SS L H).
  split.
  - intros [[_ K] NK]. destruct K as [K|[K|K]]; auto; exfalso; apply NK.
    + left. destruct n as [|n]; [contradiction|]. apply (ninds_In x SS L H). split; [lia|]. right; right; exact K.
    + right. assert (n < length L) by (apply nth_error_Some; apply optl_In in K; congruence). split; [lia|]. left. exact K.
  - intros K. split; [split; auto|]. intros [K1|[_ K1]].
    + destruct n as [|n]; [cbn in K1; contradiction|]. apply (ninds_In x SS L H) in K1. destruct K1 as [_ [K1|[K1|K1]]].
      * apply (ND y); [now apply (in_nth_concat SS (S n))|]. destruct n; [contradiction|now apply (optl_sub L n)].
      * pose proof (nodup_concat_nth SS _ _ y NS K K1). lia.
      * apply (ND y); [now apply (in_nth_concat SS (S n))|now apply (optl_sub L n)].
    + destruct K1 as [K1|[K1|K1]].
      * apply (ND y); [now apply (in_nth_concat SS n)|now apply (optl_sub L n)].
      * pose proof (nodup_concat_nth SS _ _ y NS K K1). lia.
      * apply (ND y); [now apply (in_nth_concat SS n)|now apply (optl_sub L (S n))].
Qed.
Lemma linkInds_chain (x : mps) SS L : chain_on [] x SS L -> NoDup (concat SS ++ L) -> linkInds x = Ok L.
Proof.
  intros H N. pose proof (chain_len _ _ _ _ H) as [LS LL]. unfold linkInds. replace (length x - 1) with (length L) by lia.
  apply (mapM_seq _ (mkIx 0 0 0)). intros n Hn. change (1 + n)%nat with (S n).
  assert (E : filter (has (ninds x (S n + 1))) (ninds x (S n)) = [nth n L (mkIx 0 0 0)]).
  { pose proof N as N0. apply NoDup_app_iff in N. destruct N as (NS & NL & ND).
    apply perm_one; [apply NoDup_filter; now apply (ninds_nodup x SS L)|]. intros y. rewrite filter_In, has_In.
    replace (S n + 1)%nat with (S (S n)) by lia. rewrite !(ninds_In x SS L H). split.
    - intros [[_ K1] [_ K2]]. 
      assert (Q : In y (optl L n)).
      { destruct K2 as [K2|[K2|K2]]; auto; exfalso.
        - destruct K1 as [K1|[K1|K1]].
          + destruct n as [|n]; [contradiction|]. apply (ND y); [now apply (in_nth_concat SS (S (S n)))|now apply (optl_sub L n)].
          + pose proof (nodup_concat_nth SS _ _ y NS K1 K2). lia.
          + apply (ND y); [now apply (in_nth_concat SS (S n))|now apply (optl_sub L n)].
        - destruct K1 as [K1|[K1|K1]].
          + destruct n as [|n]; [contradiction|]. pose proof (optl_inj L _ _ y NL K1 K2). lia.
          + apply (ND y); [now apply (in_nth_concat SS n)|now apply (optl_sub L (S n))].
          + pose proof (optl_inj L _ _ y NL K1 K2). lia. }
      apply optl_In in Q. symmetry. now apply nth_error_nth.
    - intros ->. assert (Q : In (nth n L (mkIx 0 0 0)) (optl L n)) by (apply optl_In; now apply nth_error_nth').
      split; (split; [lia|]); [right; right; exact Q|left; exact Q]. }
  rewrite E. reflexivity.
Qed.
Lemma concat_sing (l : list ix) : concat (map (fun s => [s]) l) = l.
Proof. induction l; cbn; f_equal; auto. Qed.
Lemma nth_sing (l : list ix) n d : n < length l -> nth n (map (fun s => [s]) l) [] = [nth n l d].
Proof. revert n; induction l as [|a l IH]; intros [|n] H; cbn in *; try lia; auto. apply IH. lia. Qed.
Lemma siteInds_mps (x : mps) s L : is_mps x s L -> siteInds x = Ok s.
Proof.
  intros [H N]. pose proof (chain_len _ _ _ _ H) as [LS LL]. rewrite map_length in LS.
  unfold siteInds, sites_of. rewrite <- LS. apply (mapM_seq _ (mkIx 0 0 0)). intros n Hn. change (1 + n)%nat with (S n).
  pose proof (siteInds1_chain x _ L H) as P. rewrite concat_sing in P. specialize (P N n ltac:(lia)). rewrite (nth_sing _ _ (mkIx 0 0 0)) in P by lia.
  apply Permutation_sym, Permutation_length_1_inv in P. rewrite P. reflexivity.
Qed.

(** ** Images of chains under renaming and conjugation *)
Definition img (h : R -> R) (f : ix -> ix) (t t' : nt) : Prop :=
  nis t' = map f (nis t) /\ forall u, nel t' u = h (nel t (fun x => u (f x))).
Lemma img_trans h1 f1 h2 f2 x x' x'' : Forall2 (img h1 f1) x x' -> Forall2 (img h2 f2) x' x'' ->
  Forall2 (img (fun r => h2 (h1 r)) (fun y => f2 (f1 y))) x x''.
Proof.
  intros H. revert x''. induction H as [|t t' x x' [E1 E2] H IH]; intros x'' K; inversion K; subst; constructor; auto.
  destruct H2 as [E3 E4]. split. - now rewrite E3, E1, map_map. - intros u. now rewrite E4, E2.
Qed.
Lemma img_dag conj x : Forall2 (img conj (fun y => y)) x (dag conj x).
Proof. induction x; cbn; constructor; auto. split; cbn; [now rewrite map_id|reflexivity]. Qed.
Lemma img_ext h f g (x x' : mps) : (forall t, In t x -> proper t) -> (forall t y, In t x -> In y (nis t) -> f y = g y) -> Forall2 (img h f) x x' -> Forall2 (img h g) x x'.
Proof.
  intros P E H. induction H as [|t t' x x' [E1 E2] H IH]; constructor.
  - split; [rewrite E1; apply map_ext_in; intros; eapply E; eauto; left; auto|]. intros u. rewrite E2. f_equal. apply P; [left; auto|].
    intros y Hy. f_equal. eapply E; eauto. left; auto.
  - apply IH; intros; [apply P|eapply E]; eauto; right; auto.
Qed.
Lemma chain_img h f (x : mps) : forall x' left SS L, Forall2 (img h f) x x' -> chain_on left x SS L -> chain_on (map f left) x' (map (map f) SS) (map f L).
Proof.
  assert (PI : forall t t', img h f t t' -> proper t -> proper t').
  { intros t t' [E1 E2] P u v E. rewrite !E2. f_equal. apply P. intros y Hy. apply E. rewrite E1. now apply in_map. }
  induction x as [|t0 x IH]; intros x' left SS L F H; [cbn in H; destruct SS; contradiction|].
  inversion F as [|? t0' ? x1 I F']; subst. destruct SS as [|s SS]; [cbn in H; destruct x; contradiction|]. destruct x as [|t1 x].
  - inversion F'; subst. destruct SS as [|s' SS]; [|cbn in H; destruct L; [contradiction|tauto]]. cbn in H. destruct H as (-> & H1 & H2).
    cbn. split; auto. split; [now apply (PI t0)|]. destruct I as [E1 _]. rewrite E1, <- map_app. now apply Permutation_map.
  - change (match L with l :: links' => proper t0 /\ Permutation (nis t0) (left ++ s ++ [l]) /\ chain_on [l] (t1 :: x) SS links' | [] => False end) in H.
    destruct L as [|l L]; [contradiction|]. destruct H as (H1 & H2 & H3). specialize (IH _ _ _ _ F' H3). inversion F' as [|? t1' ? x2 I' F'']; subst.
    change (proper t0' /\ Permutation (nis t0') (map f left ++ map f s ++ [f l]) /\ chain_on [f l] (t1' :: x2) (map (map f) SS) (map f L)).
    split; [now apply (PI t0)|]. split; [|exact IH]. destruct I as [E1 _]. rewrite E1. change [f l] with (map f [l]). rewrite <- !map_app. now apply Permutation_map.
Qed.
Definition hom (h : R -> R) : Prop := h r0 = r0 /\ h r1 = r1 /\ (forall a b, h (a + b) = h a + h b) /\ (forall a b, h (a * b) = h a * h b).
Lemma prod_img h f x x' u : hom h -> Forall2 (img h f) x x' -> prod x' u = h (prod x (fun y => u (f y))).
Proof.
  intros (_ & H1 & _ & HM) F. induction F as [|t t' x x' [_ E] F IH]; [symmetry; exact H1|]. rewrite !prod_cons, HM, <- IH, E. reflexivity.
Qed.
Lemma sum_hom h xs g : forall s, hom h -> sum_over xs (fun t => h (g t)) s = h (sum_over xs g s).
Proof.
  intros s (H0 & _ & HA & _). revert s. induction xs as [|x xs IH]; intros s; cbn [TensorSpec.sum_over]; auto.
  transitivity (sum_below r0 radd (ixdim x) (fun v => h (sum_over xs g (override ix_eqb s x v)))); [apply (sb_ext r0 radd); intros; apply IH|].
  induction (ixdim x) as [|n IHn]; cbn [sum_below]; [auto|]. now rewrite HA, IHn.
Qed.
Lemma chain_dep (x : mps) SS L : chain_on [] x SS L -> dep (concat SS ++ L) (prod x).
Proof.
  intros H. apply (prod_dep r1 rmul). { now apply (chain_proper x [] SS L). }
  intros t y Ht Hy. assert (K : In y (concat (map nis x))) by (apply in_concat; exists (nis t); split; auto; now apply in_map).
  eapply Permutation_in in K; [|apply (chain_concat x [] SS L H)]. cbn [app] in K. rewrite !in_app_iff in *. tauto.
Qed.
(** The sum over the links of an image. *)
Lemma img_sum h f (x x' : mps) SS L u : hom h -> chain_on [] x SS L -> Forall2 (img h f) x x' ->
  NoDup (map f (concat SS ++ L)) -> (forall y, In y L -> ixdim (f y) = ixdim y) ->
  sum_over (map f L) (prod x') u = h (sum_over L (prod x) (fun y => u (f y))).
Proof.
  intros Hh H F N D. rewrite <- (sum_rename r0 radd f L (concat SS ++ L) (prod x)).
  - rewrite <- sum_hom by auto. apply (sum_ext_in r0 radd). intros t _ _. now apply prod_img.
  - now apply chain_dep.
  - intros y Hy. apply in_or_app; auto.
  - intros a b Ha Hb E. now apply (nodup_inj f (concat SS ++ L)).
  - exact D.
Qed.
Lemma hom_id : hom (fun r => r).
Proof. repeat split. Qed.
Lemma hom_comp h1 h2 : hom h1 -> hom h2 -> hom (fun r => h2 (h1 r)).
Proof. intros (A1 & A2 & A3 & A4) (B1 & B2 & B3 & B4). split; [congruence|]. split; [congruence|]. split; intros; congruence. Qed.
(** ** The replacing functions *)
Lemma each_nth {A} (F : A -> nt -> outcome nt) (P : nt -> nt -> Prop) : forall (x : mps) l, length l = length x ->
  (forall n t a, nth_error x n = Some t -> nth_error l n = Some a -> exists t', F a t = Ok t' /\ P t t') ->
  exists x', each F l x = Ok x' /\ Forall2 P x x'.
Proof.
  induction x as [|t x IH]; intros [|a l] L H; try discriminate; [exists []; split; auto; constructor|].
  destruct (H 0 t a eq_refl eq_refl) as (t' & E & Q). destruct (IH l) as (x' & E' & Q'); [cbn in L; lia|intros n; apply (H (S n))|].
  exists (t' :: x'). cbn. rewrite E. cbn. rewrite E'. split; auto.
Qed.
Lemma replaceInds_img is1 is2 f t : proper t -> (forall y, In y (nis t) -> lk is1 is2 y = f y) -> (forall y, In y (nis t) -> ixdim (f y) = ixdim y) ->
  exists t', replaceInds is1 is2 t = Ok t' /\ img (fun r => r) f t t'.
Proof.
  intros P E D. unfold replaceInds. replace (forallb _ _) with true.
  - eexists. split; [reflexivity|]. split; cbn; [apply map_ext_in; auto|]. intros u. apply P. intros y Hy. now rewrite E.
  - symmetry. apply forallb_forall. intros y Hy. rewrite E by auto. apply Nat.eqb_eq. auto.
Qed.
Lemma img_refl (x : mps) f : (forall t, In t x -> proper t) -> (forall t y, In t x -> In y (nis t) -> f y = y) -> Forall2 (img (fun r => r) f) x x.
Proof.
  intros P E. apply (img_ext _ (fun y => y)); auto. - intros t y Ht Hy. symmetry. now apply (E t).
  - clear. induction x; constructor; auto. split; [now rewrite map_id|reflexivity].
Qed.
Lemma lk_self xs y : lk xs xs y = y.
Proof. induction xs as [|a xs IH]; cbn; auto. destruct (ix_eqb y a) eqn:E; auto. apply ix_eqb_spec in E. auto. Qed.
Lemma lk_dim xs : forall ys y, map ixdim ys = map ixdim xs -> ixdim (lk xs ys y) = ixdim y.
Proof.
  induction xs as [|x xs IH]; intros [|b ys] y H; cbn in *; try discriminate; auto. inversion H. destruct (ix_eqb y x) eqn:E; auto. apply ix_eqb_spec in E. now subst.
Qed.
(** One chosen site index of every tensor is replaced. *)
Lemma each_site (x : mps) SS L old new : chain_on [] x SS L -> NoDup (concat SS ++ L) -> length old = length x -> map ixdim new = map ixdim old ->
  (forall n d, n < length x -> In (nth n old d) (nth n SS [])) ->
  exists x', each (fun p => replaceInds [fst p] [snd p]) (combine old new) x = Ok x' /\ Forall2 (img (fun r => r) (lk old new)) x x'.
Proof.
  intros H N LO D I. assert (LN : length new = length old) by (rewrite <- (map_length ixdim new), D; apply map_length).
  apply each_nth; [rewrite combine_length; lia|]. intros n t [a b] E1 E2. rewrite combine_nth_error in E2.
  destruct (nth_error old n) as [a'|] eqn:Ea; [|discriminate]. destruct (nth_error new n) as [b'|] eqn:Eb; [|discriminate]. inversion E2; subst a' b'. clear E2. cbn [fst snd].
  assert (Hn : n < length x) by (apply nth_error_Some; congruence).
  destruct (chain_nth x [] SS L H n t E1) as [P Q]. 
  assert (NO : NoDup old).
  { apply (NoDup_nth old a). intros i j Hi Hj E. apply NoDup_app_iff in N. apply (nodup_concat_nth SS i j (nth i old a)); [tauto|apply I; lia|rewrite E; apply I; lia]. }
  apply replaceInds_img; auto.
  - intros y Hy. cbn. pose proof (nth_error_nth old n a Ea) as Ea'. pose proof (nth_error_nth new n a Eb) as Eb'.
    assert (LK : lk old new a = b) by (pose proof (lk_nth old new n a NO LN ltac:(lia)) as Q2; rewrite Ea' in Q2; rewrite Q2; exact Eb').
    destruct (ix_eqb y a) eqn:E.
    + apply ix_eqb_spec in E. subst y. symmetry. exact LK.
    + symmetry. apply lk_other. intros K. apply (In_nth _ _ a) in K. destruct K as (m & Hm & Em).
      assert (Iy : In y (nth m SS [])) by (rewrite <- Em; apply I; lia).
      eapply Permutation_in in Hy; [|exact Q]. apply NoDup_app_iff in N. destruct N as (NS & NL & ND).
      apply in_app_or in Hy. destruct Hy as [Hy|Hy].
      * apply (ND y); [now apply (in_nth_concat SS m)|]. destruct n; [contradiction|now apply (optl_sub L n)].
      * apply in_app_or in Hy. destruct Hy as [Hy|Hy]; [|apply (ND y); [now apply (in_nth_concat SS m)|now apply (optl_sub L n)]].
        pose proof (nodup_concat_nth SS _ _ y NS Iy Hy). subst m. rewrite Em in Ea'. subst. rewrite (proj2 (ix_eqb_spec a a) eq_refl) in E. discriminate.
  - intros y _. now apply lk_dim.
Qed.
Lemma replaceSiteInds_mps (x : mps) s L s' : is_mps x s L -> map ixdim s' = map ixdim s ->
  exists x', replaceSiteInds x s' = Ok x' /\ Forall2 (img (fun r => r) (lk s s')) x x'.
Proof.
  intros [H N] D. pose proof (chain_len _ _ _ _ H) as [LS LL]. rewrite map_length in LS.
  assert (LN : length s' = length s) by (rewrite <- (map_length ixdim s'), D; apply map_length).
  unfold replaceSiteInds. rewrite (proj2 (Nat.eqb_eq _ _)) by lia. cbn [negb]. rewrite (siteInds_mps x s L (conj H N)). cbn [obind].
  destruct (list_eqb s s') eqn:E.
  - apply list_eqb_eq in E. subst s'. exists x. split; auto. apply img_refl; [now apply (chain_proper x _ _ _ H)|]. intros. apply lk_self.
  - apply (each_site x (map (fun a => [a]) s) L); auto. + now rewrite concat_sing. + intros n d Hn. rewrite (nth_sing _ _ d) by lia. left; auto.
Qed.
Lemma around_lk L L' n y : NoDup L -> length L' = length L -> (In y (prevl L n) \/ In y (optl L n)) -> lk (around L (S n)) (around L' (S n)) y = lk L L' y.
Proof.
  intros N LN K. rewrite !around_eq.
  assert (O : forall m, In y (optl L m) -> lk (optl L m) (optl L' m) y = lk L L' y /\ length (optl L' m) = length (optl L m)).
  { intros m Hm. unfold optl in *. destruct (nth_error L m) as [a|] eqn:E; [|contradiction]. destruct Hm as [<-|[]].
    assert (Hl : m < length L) by (apply nth_error_Some; congruence). 
    destruct (nth_error L' m) as [b|] eqn:E'; [|apply nth_error_None in E'; lia]. cbn. rewrite (proj2 (ix_eqb_spec a a) eq_refl). split; auto.
    rewrite <- (nth_error_nth L m a E) at 1. rewrite lk_nth by auto. symmetry. now apply nth_error_nth. }
  assert (P : length (prevl L' n) = length (prevl L n)).
  { destruct n as [|n]; auto. cbn. unfold optl. destruct (nth_error L n) eqn:E1, (nth_error L' n) eqn:E2; auto.
    - apply nth_error_None in E2. assert (n < length L) by (apply nth_error_Some; congruence). lia.
    - apply nth_error_None in E1. assert (n < length L') by (apply nth_error_Some; congruence). lia. }
  assert (A : forall a a' b b', length a' = length a -> In y a -> lk (a ++ b) (a' ++ b') y = lk a a' y).
  { induction a as [|z a IH]; intros [|z' a'] b b' E I; cbn in *; try discriminate; [contradiction|]. destruct (ix_eqb y z) eqn:Ez; auto. apply IH; [lia|].
    destruct I as [->|]; auto. rewrite (proj2 (ix_eqb_spec y y) eq_refl) in Ez. discriminate. }
  assert (B : forall a a' b b', length a' = length a -> ~ In y a -> lk (a ++ b) (a' ++ b') y = lk b b' y).
  { induction a as [|z a IH]; intros [|z' a'] b b' E I; cbn in *; try discriminate; auto. destruct (ix_eqb y z) eqn:Ez; [apply ix_eqb_spec in Ez; subst; tauto|]. apply IH; [lia|tauto]. }
  destruct (in_dec ix_dec y (prevl L n)) as [I|I].
  - rewrite A by auto. destruct n as [|n]; [contradiction|]. now apply O.
  - rewrite B by auto. apply O. tauto.
Qed.
Lemma lk_none a a' (y : ix) : ~ In y a -> lk a a' y = y.
Proof. apply lk_other. Qed.
Lemma replaceLinks_chain (x : mps) SS L L' : chain_on [] x SS L -> NoDup (concat SS ++ L) -> map ixdim L' = map ixdim L ->
  exists x', replaceLinkInds x L' = Ok x' /\ Forall2 (img (fun r => r) (lk L L')) x x'.
Proof.
  intros H N D. pose proof (chain_len _ _ _ _ H) as [LS LL].
  assert (LN : length L' = length L) by (rewrite <- (map_length ixdim L'), D; apply map_length).
  unfold replaceLinkInds. destruct (length x =? 1) eqn:E1.
  - apply Nat.eqb_eq in E1. exists x. split; auto. apply img_refl; [now apply (chain_proper x _ _ _ H)|]. intros. destruct L; [apply lk_other; auto|cbn in *; lia].
  - rewrite (proj2 (Nat.eqb_eq _ _)) by lia. cbn [negb]. rewrite (linkInds_chain x SS L H N). cbn [obind].
    destruct (list_eqb L L') eqn:E.
    + apply list_eqb_eq in E. subst L'. exists x. split; auto. apply img_refl; [now apply (chain_proper x _ _ _ H)|]. intros. apply lk_self.
    + apply each_nth; [unfold sites_of; now rewrite seq_length|]. intros n t a Et Ea.
      assert (Hn : n < length x) by (apply nth_error_Some; congruence).
      assert (a = S n).
      { unfold sites_of in Ea. apply (nth_error_nth _ _ 0) in Ea. rewrite seq_nth in Ea by auto. lia. } subst a. clear Ea.
      destruct (chain_nth x [] SS L H n t Et) as [P Q]. apply NoDup_app_iff in N. destruct N as (NS & NL & ND).
      assert (QQ : (match n with O => [] | S m => optl L m end) = prevl L n) by (destruct n; reflexivity). rewrite QQ in Q.
      apply replaceInds_img; auto; [|intros; now apply lk_dim]. intros y Hy. eapply Permutation_in in Hy; [|exact Q]. rewrite !in_app_iff in Hy.
      destruct Hy as [Hy|[Hy|Hy]]; [apply around_lk; auto| |apply around_lk; auto].
      assert (Ny : ~ In y L) by (apply ND; now apply (in_nth_concat SS n)).
      rewrite !lk_other; auto. rewrite around_eq, in_app_iff. intros [K|K]; apply Ny; [destruct n; [contradiction|now apply (optl_sub L n)]|now apply (optl_sub L n)].
Qed.
Lemma simLinks_chain k (x : mps) SS L : chain_on [] x SS L -> NoDup (concat SS ++ L) ->
  exists x', simLinks k x = Ok x' /\ Forall2 (img (fun r => r) (lk L (sims k L))) x x'.
Proof. intros H N. unfold simLinks. rewrite (linkInds_chain x SS L H N). cbn [obind]. apply (replaceLinks_chain x SS); auto. apply sims_dim. Qed.
Lemma replaceMPO_chain (A : mps) SS L old new : chain_on [] A SS L -> NoDup (concat SS ++ L) -> length old = length A -> map ixdim new = map ixdim old ->
  (forall n d, n < length A -> In (nth n old d) (nth n SS [])) -> (exists y, In y new /\ ~ In y (concat SS ++ L)) ->
  exists A', replaceSiteIndsMPO A old new = Ok A' /\ Forall2 (img (fun r => r) (lk old new)) A A'.
Proof.
  intros H N LO D I (y & Hy & Ny). assert (LN : length new = length old) by (rewrite <- (map_length ixdim new), D; apply map_length).
  unfold replaceSiteIndsMPO. rewrite (proj2 (Nat.eqb_eq _ _)) by lia. cbn [negb].
  replace (hasSiteInds A new) with false; [now apply (each_site A SS L)|]. symmetry. apply not_true_iff_false. unfold hasSiteInds. rewrite forallb_forall. intros K.
  apply In_nth_error in Hy. destruct Hy as (n & En). assert (n < length new) by (apply nth_error_Some; congruence).
  destruct (nth_error A n) as [t|] eqn:Et; [|apply nth_error_None in Et; lia].
  specialize (K (t, y)). cbn [fst snd] in K. rewrite has_In in K. apply Ny.
  assert (In y (nis t)) by (apply K; apply (nth_error_In _ n); rewrite combine_nth_error, Et, En; reflexivity).
  assert (J : In y (concat (map nis A))) by (apply in_concat; exists (nis t); split; auto; apply in_map; now apply (nth_error_In _ n)).
  eapply Permutation_in in J; [|apply (chain_concat A [] SS L H)]. cbn [app] in J. rewrite !in_app_iff in *. tauto.
Qed.

(** ** Contracting everything *)
Lemma contract_net ts D : ts <> [] -> (forall t, In t ts -> proper t /\ NoDup (nis t)) -> Permutation (concat (map nis ts)) (D ++ D) -> NoDup D ->
  contract_all ts = Ok (sum_over D (prod ts) (fun _ => 0)).
Proof.
  intros H P C N. destruct ts as [|t ts]; [contradiction|]. cbn [InnerModel.contract_all].
  destruct (net_product r0 r1 radd rmul rsub ropp RT t ts D []) as [I V]; auto; [now rewrite app_nil_r|now rewrite app_nil_r|].
  apply Permutation_sym, Permutation_nil in I. unfold scalar. rewrite I, V. reflexivity.
Qed.
Lemma sum_factor L1 L2 E1 E2 p1 p2 s : dep E1 p1 -> dep E2 p2 -> disjoint L1 E2 -> disjoint L2 E1 ->
  sum_over (L1 ++ L2) (fun t => p1 t * p2 t) s = sum_over L1 p1 s * sum_over L2 p2 s.
Proof.
  intros H1 H2 D1 D2. rewrite (sum_app r0 radd).
  transitivity (sum_over L1 (fun t => p1 t * sum_over L2 p2 t) s).
  - apply (sum_ext_in r0 radd). intros t _ _. now apply (sum_mul_l r0 r1 radd rmul rsub ropp RT L2 E1).
  - apply (sum_mul_r r0 r1 radd rmul rsub ropp RT L1 E2); auto. apply (dep_sum r0 radd L2 E2 E2); auto.
Qed.
Lemma values_app_l a b c c' x : length c = length a -> In x a -> values (a ++ b) (c ++ c') x = values a c x.
Proof.
  revert c; induction a as [|y a IH]; intros [|v c] L H; cbn in *; try discriminate; [contradiction|]. destruct (ix_eqb y x) eqn:E; auto. apply IH; [lia|].
  destruct H as [->|]; auto. rewrite (proj2 (ix_eqb_spec x x) eq_refl) in E. discriminate.
Qed.
Lemma values_app_r a b c c' x : length c = length a -> ~ In x a -> values (a ++ b) (c ++ c') x = values b c' x.
Proof.
  revert c; induction a as [|y a IH]; intros [|v c] L H; cbn in *; try discriminate; auto. destruct (ix_eqb y x) eqn:E; [apply ix_eqb_spec in E; tauto|]. apply IH; [lia|tauto].
Qed.
Lemma over_app a b F : over r0 radd (a ++ b) F = over r0 radd a (fun c => over r0 radd b (fun c' => F (c ++ c'))).
Proof. unfold over. rewrite map_app. apply csum_app. Qed.
Lemma over_ext a F G : (forall c, length c = length a -> Forall2 lt c (map ixdim a) -> F c = G c) -> over r0 radd a F = over r0 radd a G.
Proof. intros H. apply (csum_ext r0 radd). intros c Hc. apply H; auto. apply conf_length in Hc. now rewrite map_length in Hc. Qed.
Lemma values_lk s s' c y : NoDup s -> NoDup s' -> length s' = length s -> length c = length s -> In y s -> values s' c (lk s s' y) = values s c y.
Proof.
  intros N N' L Lc Hy. apply (In_nth _ _ y) in Hy. destruct Hy as (i & Hi & <-). rewrite lk_nth by auto.
  rewrite (values_nth s' c i) by (auto; lia). rewrite values_nth by (auto; lia). reflexivity.
Qed.
End Chain.
