(** C44: copies of a tensor are independent, although they share storage until one is changed.
    Vocabulary: CowSpec.v; the model is CowModel.v. *)
From Coq Require Import List Bool Arith Lia.
From Verif Require Import Util CowModel CowSpec.
Import ListNotations.
Open Scope outcome_scope.

Section Props.
Context {V : Type}.
Notation st := (st V).
Notation cmd := (cmd V).

(** ** the invariant *)
Definition agree (s : st) (vs : list (option V)) : Prop :=
  length (env s) = length vs /\
  forall x, match pointer s x, value vs x with
            | None, None => True
            | Some l, Some v => nth_error (heap s) l = Some (Some v)
            | _, _ => False
            end.
(** A storage exists exactly when some object points to it. *)
Definition tight (s : st) : Prop :=
  forall l, (exists v, nth_error (heap s) l = Some (Some v)) <-> exists x, pointer s x = Some l.

Lemma ptr_eqb_spec p q : ptr_eqb p q = true <-> p = q.
Proof.
  destruct p, q; cbn; try (split; [discriminate|discriminate]); [|tauto]. rewrite Nat.eqb_eq. split; congruence.
Qed.
Lemma pointer_in (s : st) x l : pointer s x = Some l -> In (Some l) (env s).
Proof.
  unfold pointer. intros E. destruct (Nat.lt_ge_cases x (length (env s))) as [L|L].
  - rewrite <- E. now apply nth_In.
  - rewrite nth_overflow in E by auto. discriminate.
Qed.
Lemma count_0 (s : st) l : use_count s l = 0 <-> forall x, pointer s x <> Some l.
Proof.
  unfold use_count. split.
  - intros E x H. apply pointer_in in H. apply length_zero_iff_nil in E.
    assert (K : In (Some l) (filter (ptr_eqb (Some l)) (env s))) by (apply filter_In; split; auto; now apply ptr_eqb_spec).
    rewrite E in K. destruct K.
  - intros H. apply length_zero_iff_nil. destruct (filter _ _) as [|p r] eqn:E; auto. exfalso.
    assert (K : In p (filter (ptr_eqb (Some l)) (env s))) by (rewrite E; now left).
    apply filter_In in K. destruct K as [K1 K2]. apply ptr_eqb_spec in K2. subst p.
    apply (In_nth _ _ None) in K1. destruct K1 as (x & _ & K). exact (H x K).
Qed.
Lemma count_1 (s : st) l x y : use_count s l = 1 -> pointer s x = Some l -> pointer s y = Some l -> x = y.
Proof.
  unfold use_count, pointer. intros E Hx Hy.
  destruct (Nat.lt_ge_cases x (length (env s))) as [Lx|Lx]; [|rewrite nth_overflow in Hx by auto; discriminate].
  destruct (Nat.lt_ge_cases y (length (env s))) as [Ly|Ly]; [|rewrite nth_overflow in Hy by auto; discriminate].
  revert x y E Hx Hy Lx Ly. induction (env s) as [|p e IH]; intros x y E Hx Hy Lx Ly; [cbn in Lx; lia|].
  assert (Z : forall n, n < length e -> nth n e None = Some l -> length (filter (ptr_eqb (Some l)) e) <> 0).
  { intros n Ln Hn K. apply length_zero_iff_nil in K.
    assert (Q : In (Some l) (filter (ptr_eqb (Some l)) e)). { apply filter_In. split; [rewrite <- Hn; now apply nth_In|now apply ptr_eqb_spec]. }
    rewrite K in Q. destruct Q. }
  cbn [filter] in E. destruct x as [|x], y as [|y]; cbn [nth length] in *; auto.
  - subst p. cbn [ptr_eqb] in E. rewrite Nat.eqb_refl in E. cbn in E. exfalso. apply (Z y); auto; lia.
  - subst p. cbn [ptr_eqb] in E. rewrite Nat.eqb_refl in E. cbn in E. exfalso. apply (Z x); auto; lia.
  - f_equal. apply IH; auto; try lia. destruct (ptr_eqb (Some l) p); auto. cbn in E. exfalso. apply (Z x); auto; lia.
Qed.

Lemma nth_upd {A} n m (x d : A) l : nth m (upd n x l) d = if (n =? m) && (n <? length l) then x else nth m l d.
Proof.
  destruct (Nat.eqb_spec n m) as [->|N]; cbn [andb]; [|now rewrite nth_upd_neq].
  destruct (Nat.ltb_spec m (length l)); [now rewrite nth_upd_eq|]. rewrite !nth_overflow; auto. now rewrite upd_length.
Qed.

(** Giving object x the pointer p, when p's storage holds x's new value. *)
Lemma assign_agree s vs x p ov : agree s vs ->
  (match p, ov with None, None => True | Some l, Some v => nth_error (heap s) l = Some (Some v) | _, _ => False end) ->
  agree (assign x p s) (upd x ov vs).
Proof.
  intros [L A] P. unfold assign. split.
  { unfold release. destruct (pointer s x); [destruct (_ =? _)|]; cbn; now rewrite !upd_length. }
  intros y. assert (EP : forall (h : list (option V)) q, pointer (release q (mkst (upd x p (env s)) h)) y = pointer (mkst (upd x p (env s)) h) y).
  { intros h q. unfold release. destruct q; [destruct (_ =? _)|]; reflexivity. }
  rewrite EP. unfold pointer at 1, value. cbn [env]. rewrite !nth_upd, <- L.
  assert (HH : forall l v, nth_error (heap s) l = Some (Some v) -> (exists y, pointer (mkst (upd x p (env s)) (heap s)) y = Some l) ->
     nth_error (heap (release (pointer s x) (mkst (upd x p (env s)) (heap s)))) l = Some (Some v)).
  { intros l v H [z Hz]. unfold release. destruct (pointer s x) as [l0|]; [|exact H].
    destruct (Nat.eqb_spec (use_count (mkst (upd x p (env s)) (heap s)) l0) 0) as [E|E]; [|exact H]. cbn [heap].
    rewrite nth_error_upd_neq; [exact H|]. intros ->. exact (proj1 (count_0 _ _) E z Hz). }
  destruct ((x =? y) && (x <? length (env s))) eqn:EX.
  - destruct p as [l|], ov as [v|]; auto. apply HH; auto. exists y. unfold pointer. cbn [env]. now rewrite nth_upd, EX.
  - specialize (A y). unfold pointer at 1, value in A. destruct (nth y (env s) None) as [l|] eqn:E1, (nth y vs None) as [v|] eqn:E2; auto.
    apply HH; auto. exists y. unfold pointer. cbn [env]. now rewrite nth_upd, EX.
Qed.

Lemma tight_release (s : st) q : (forall l, (exists v, nth_error (heap s) l = Some (Some v)) -> (exists x, pointer s x = Some l) \/ q = Some l) ->
  (forall x l, pointer s x = Some l -> exists v, nth_error (heap s) l = Some (Some v)) -> tight (release q s).
Proof.
  intros H1 H2 l. unfold release. destruct q as [l0|].
  - destruct (Nat.eqb_spec (use_count s l0) 0) as [E|E].
    + assert (EP : forall x, pointer (mkst (env s) (upd l0 None (heap s))) x = pointer s x) by reflexivity.
      setoid_rewrite EP. cbn [heap]. destruct (Nat.eq_dec l0 l) as [->|N].
      * split.
        -- intros [v K]. destruct (Nat.lt_ge_cases l (length (heap s))) as [B|B].
           ++ rewrite nth_error_upd_eq in K by auto. discriminate.
           ++ rewrite (proj2 (nth_error_None _ _)) in K by (rewrite upd_length; auto). discriminate.
        -- intros [x K]. destruct (proj1 (count_0 _ _) E x K).
      * rewrite nth_error_upd_neq by auto. split.
        -- intros K. destruct (H1 l K) as [|Q]; auto. congruence.
        -- intros [x K]. eauto.
    + split.
      * intros K. destruct (H1 l K) as [|Q]; auto. injection Q as <-.
        destruct (filter (ptr_eqb (Some l0)) (env s)) as [|p r] eqn:F; [unfold use_count in E; rewrite F in E; now cbn in E|].
        assert (K2 : In p (filter (ptr_eqb (Some l0)) (env s))) by (rewrite F; now left).
        apply filter_In in K2. destruct K2 as [K1 K2]. apply ptr_eqb_spec in K2. subst p.
        apply (In_nth _ _ None) in K1. destruct K1 as (x & _ & K1). now exists x.
      * intros [x K]. eauto.
  - split; [intros K; destruct (H1 l K); [auto|discriminate]|intros [x K]; eauto].
Qed.

Lemma assign_tight (s : st) x p : (forall l, (exists v, nth_error (heap s) l = Some (Some v)) -> (exists x, pointer s x = Some l) \/ (p = Some l /\ x < length (env s))) ->
  (forall x l, pointer s x = Some l -> exists v, nth_error (heap s) l = Some (Some v)) ->
  (forall l, p = Some l -> exists v, nth_error (heap s) l = Some (Some v)) -> tight (assign x p s).
Proof.
  intros T1 T2 P. unfold assign. apply tight_release; cbn [heap].
  - intros l K. destruct (T1 l K) as [[y Hy]|[-> Hx]].
    + destruct (Nat.eq_dec x y) as [->|N]; [now right|]. left. exists y. unfold pointer in *. cbn [env]. now rewrite nth_upd_neq.
    + left. exists x. unfold pointer. cbn [env]. now rewrite nth_upd_eq.
  - intros y l. unfold pointer. cbn [env]. rewrite nth_upd. destruct (_ && _); [intros; apply P; auto|apply T2].
Qed.

Lemma agree_pointer s vs x l : agree s vs -> pointer s x = Some l -> exists v, value vs x = Some v /\ nth_error (heap s) l = Some (Some v).
Proof. intros [_ A] E. specialize (A x). rewrite E in A. destruct (value vs x) as [v|]; [eauto|destruct A]. Qed.
Lemma agree_null s vs x : agree s vs -> pointer s x = None -> value vs x = None.
Proof. intros [_ A] E. specialize (A x). rewrite E in A. now destruct (value vs x). Qed.
Lemma agree_fresh s vs x : agree s vs -> pointer s x <> Some (length (heap s)).
Proof.
  intros A E. destruct (agree_pointer _ _ _ _ A E) as (v & _ & K). rewrite (proj2 (nth_error_None _ _)) in K by lia. discriminate.
Qed.
Lemma pointer_range (s : st) x l : pointer s x = Some l -> x < length (env s).
Proof. unfold pointer. intros E. destruct (Nat.lt_ge_cases x (length (env s))) as [|L]; auto. rewrite nth_overflow in E by auto. discriminate. Qed.

Lemma grow_agree s vs v : agree s vs -> agree (mkst (env s) (heap s ++ [Some v])) vs.
Proof.
  intros [L A]. split; [exact L|]. intros x. specialize (A x). change (pointer (mkst (env s) (heap s ++ [Some v])) x) with (pointer s x).
  destruct (pointer s x) as [l|], (value vs x) as [u|]; auto. cbn [heap]. rewrite nth_error_app1; auto.
  apply nth_error_Some. rewrite A. discriminate.
Qed.
Lemma last_error {A} (l : list A) v : nth_error (l ++ [v]) (length l) = Some v.
Proof. rewrite nth_error_app2 by lia. now rewrite Nat.sub_diag. Qed.
Lemma make_agree s vs x v : agree s vs -> agree (make x v s) (upd x (Some v) vs).
Proof.
  intros A. unfold make. apply assign_agree; [now apply grow_agree|]. cbn [heap]. apply last_error.
Qed.
Lemma assign_env (s : st) x p : env (assign x p s) = upd x p (env s).
Proof. unfold assign, release. destruct (pointer s x); [destruct (_ =? _)|]; reflexivity. Qed.
Lemma make_env (s : st) x v : env (make x v s) = upd x (Some (length (heap s))) (env s).
Proof. unfold make. now rewrite assign_env. Qed.

Lemma upd_self {A} (l : list A) x d : upd x (nth x l d) l = l.
Proof. revert x. induction l as [|a l IH]; intros [|x]; cbn; auto. now rewrite IH. Qed.

Lemma modifyData_ok s vs x l : agree s vs -> pointer s x = Some l -> exists v s' l', value vs x = Some v /\
  modifyData s x = Ok (s', l') /\ agree s' vs /\ pointer s' x = Some l' /\ (forall y, pointer s' y = Some l' -> y = x) /\
  nth_error (heap s') l' = Some (Some v) /\ (forall y, y <> x -> pointer s' y = pointer s y) /\ (x < length (env s')).
Proof.
  intros A E. destruct (agree_pointer _ _ _ _ A E) as (v & EV & EH). exists v. unfold modifyData. rewrite E.
  pose proof (pointer_range s x l E) as LX.
  destruct (Nat.eqb_spec (use_count s l) 1) as [U|U].
  - exists s, l. repeat split; auto; try apply A. intros y Hy. now apply (count_1 s l).
  - unfold deref. rewrite EH. cbn [obind]. exists (make x v s), (length (heap s)). split; [exact EV|]. split; [reflexivity|].
    assert (AM : agree (make x v s) vs).
    { pose proof (make_agree s vs x v A) as M. replace (upd x (Some v) vs) with vs in M; auto. rewrite <- EV. unfold value. symmetry. apply upd_self. }
    assert (PM : forall y, pointer (make x v s) y = if x =? y then Some (length (heap s)) else pointer s y).
    { intros y. unfold pointer. rewrite make_env, nth_upd. destruct (Nat.eqb_spec x y); cbn [andb]; auto. destruct (Nat.ltb_spec x (length (env s))); auto; lia. }
    split; [exact AM|]. split; [now rewrite PM, Nat.eqb_refl|]. split.
    { intros y. rewrite PM. destruct (Nat.eqb_spec x y); auto. intros K. destruct (agree_fresh s vs y A K). }
    split. { assert (PX : pointer (make x v s) x = Some (length (heap s))) by (now rewrite PM, Nat.eqb_refl).
      destruct (agree_pointer _ _ _ _ AM PX) as (u & EU & K). congruence. }
    split; [|rewrite make_env, upd_length; exact LX].
    intros y N. rewrite PM. destruct (Nat.eqb_spec x y); auto. congruence.
Qed.

(** Writing the storage that only x points to. *)
Lemma store_agree s vs x l v : agree s vs -> pointer s x = Some l -> (forall y, pointer s y = Some l -> y = x) ->
  agree (store s l v) (upd x (Some v) vs).
Proof.
  intros A E U. pose proof (pointer_range s x l E) as LX. destruct (agree_pointer _ _ _ _ A E) as (v0 & _ & EH).
  destruct A as [L A]. split; [cbn; now rewrite upd_length|]. intros y. change (pointer (store s l v) y) with (pointer s y).
  unfold value. rewrite nth_upd. specialize (A y). destruct (Nat.eqb_spec x y) as [<-|N]; cbn [andb].
  - rewrite E. destruct (Nat.ltb_spec x (length vs)); [|lia]. cbn [store heap]. apply nth_error_upd_eq. apply nth_error_Some. rewrite EH. discriminate.
  - unfold value in A. destruct (pointer s y) as [l'|] eqn:EY, (nth y vs None) as [u|]; auto. cbn [store heap].
    rewrite nth_error_upd_neq; auto. intros ->. apply N. symmetry. auto.
Qed.
Lemma upd_upd {A} x (a b : A) l : upd x b (upd x a l) = upd x b l.
Proof. revert x. induction l as [|c l IH]; intros [|x]; cbn; auto. now rewrite IH. Qed.

Lemma writes_ok x l ws : forall s vs v, agree s vs -> pointer s x = Some l -> (forall y, pointer s y = Some l -> y = x) ->
  nth_error (heap s) l = Some (Some v) ->
  exists s', writes s l ws = Ok s' /\ agree s' (upd x (Some (fold_left (fun v w => w v) ws v)) vs) /\ env s' = env s /\ length (heap s') = length (heap s) /\
    (forall l', l' <> l -> nth_error (heap s') l' = nth_error (heap s) l') /\ (exists v', nth_error (heap s') l = Some (Some v')).
Proof.
  induction ws as [|w ws IH]; intros s vs v A E U H.
  - exists s. split; [reflexivity|]. split; [|repeat split; eauto]. cbn [fold_left].
    destruct (agree_pointer _ _ _ _ A E) as (v0 & EV & EH). rewrite H in EH. injection EH as <-. rewrite <- EV. unfold value. now rewrite upd_self.
  - cbn [writes]. unfold deref. rewrite H. cbn [obind].
    destruct (IH (store s l (w v)) (upd x (Some (w v)) vs) (w v)) as (s' & E1 & A1 & E2 & E3 & E4 & E5).
    + now apply store_agree.
    + exact E. + exact U.
    + cbn. apply nth_error_upd_eq. apply nth_error_Some. rewrite H. discriminate.
    + exists s'. split; [exact E1|]. rewrite upd_upd in A1. split; [exact A1|]. split; [exact E2|].
      split; [rewrite E3; cbn; apply upd_length|]. split; [|exact E5]. intros l' N. rewrite E4 by auto. cbn. now rewrite nth_error_upd_neq by auto.
Qed.
Lemma writes2_ok x l r u ws : l <> r -> forall s vs v, agree s vs -> pointer s x = Some l -> (forall y, pointer s y = Some l -> y = x) ->
  nth_error (heap s) l = Some (Some v) -> nth_error (heap s) r = Some (Some u) ->
  exists s', writes2 s l r ws = Ok s' /\ agree s' (upd x (Some (fold_left (fun v w => w v u) ws v)) vs) /\ env s' = env s /\ length (heap s') = length (heap s) /\
    (forall l', l' <> l -> nth_error (heap s') l' = nth_error (heap s) l') /\ (exists v', nth_error (heap s') l = Some (Some v')).
Proof.
  intros N. induction ws as [|w ws IH]; intros s vs v A E U H Hr.
  - exists s. split; [reflexivity|]. split; [|repeat split; eauto]. cbn [fold_left].
    destruct (agree_pointer _ _ _ _ A E) as (v0 & EV & EH). rewrite H in EH. injection EH as <-. rewrite <- EV. unfold value. now rewrite upd_self.
  - cbn [writes2]. unfold deref. rewrite H, Hr. cbn [obind].
    destruct (IH (store s l (w v u)) (upd x (Some (w v u)) vs) (w v u)) as (s' & E1 & A1 & E2 & E3 & E4 & E5).
    + now apply store_agree.
    + exact E. + exact U.
    + cbn. apply nth_error_upd_eq. apply nth_error_Some. rewrite H. discriminate.
    + cbn. now rewrite nth_error_upd_neq.
    + exists s'. split; [exact E1|]. rewrite upd_upd in A1. split; [exact A1|]. split; [exact E2|].
      split; [rewrite E3; cbn; apply upd_length|]. split; [|exact E5]. intros l' N'. rewrite E4 by auto. cbn. now rewrite nth_error_upd_neq by auto.
Qed.

(** ** tightness of the heap *)
Definition sound (s : st) : Prop := forall x l, pointer s x = Some l -> exists v, nth_error (heap s) l = Some (Some v).
Lemma agree_sound s vs : agree s vs -> sound s.
Proof. intros A x l E. destruct (agree_pointer _ _ _ _ A E) as (v & _ & K). eauto. Qed.
Lemma assign_tight' s x p : tight s -> (forall l, p = Some l -> exists y, pointer s y = Some l) -> tight (assign x p s).
Proof.
  intros T P. apply assign_tight.
  - intros l K. left. now apply T.
  - intros y l E. apply T. eauto.
  - intros l E. apply T. auto.
Qed.
Lemma make_tight s x v : tight s -> x < length (env s) -> tight (make x v s).
Proof.
  intros T LX. unfold make. apply assign_tight; cbn [heap env].
  - intros l [u K]. destruct (Nat.eq_dec l (length (heap s))) as [->|N]; [now right|]. left. apply T.
    exists u. destruct (Nat.lt_ge_cases l (length (heap s))) as [B|B]; [now rewrite nth_error_app1 in K|].
    rewrite (proj2 (nth_error_None _ _)) in K by (rewrite app_length; cbn; lia). discriminate.
  - intros y l E. destruct (proj2 (T l) (ex_intro _ y E)) as [u K]. exists u. rewrite nth_error_app1; auto. apply nth_error_Some. rewrite K. discriminate.
  - intros l [= <-]. exists v. apply last_error.
Qed.
Lemma tight_same s s' l : tight s -> env s' = env s -> (exists x, pointer s x = Some l) ->
  (forall l', l' <> l -> nth_error (heap s') l' = nth_error (heap s) l') -> (exists v', nth_error (heap s') l = Some (Some v')) -> tight s'.
Proof.
  intros T E [x Hx] H1 H2 l'. unfold pointer. rewrite E. destruct (Nat.eq_dec l' l) as [->|N].
  - split; [intros _; now exists x|auto].
  - rewrite H1 by auto. apply T.
Qed.

(** ** one command *)
Definition scoped (n : nat) (c : cmd) : Prop := match c with CNew x _ => x < n | CMove x y | CSwap x y => x < n /\ y < n | _ => True end.

Lemma step_ok debug s vs c : agree s vs -> no_self c ->
  match exec1 debug s c, by_value1 debug vs c with
  | Ok (s', o), Ok (vs', o') => agree s' vs' /\ o = o' /\ length (env s') = length (env s) /\ (tight s -> scoped (length (env s)) c -> tight s')
  | Err, Err => True
  | UB, UB => True
  | _, _ => False
  end.
Proof.
  intros A NS. pose proof A as [L AA]. destruct c as [x v|x y|x y|x y|x|x t|x y t|x]; cbn [exec1 by_value1].
  - split; [now apply make_agree|]. split; [reflexivity|]. split; [now rewrite make_env, upd_length|]. intros T S0. now apply make_tight.
  - split. { apply assign_agree; auto. exact (AA y). } split; [reflexivity|]. split; [now rewrite assign_env, upd_length|].
    intros T _. apply assign_tight'; eauto.
  - destruct (Nat.eqb_spec x y) as [->|N]; [auto|].
    set (s1 := mkst (upd y None (upd x (pointer s y) (env s))) (heap s)).
    assert (EP : forall z, pointer s1 z = if z =? y then None else if z =? x then (if x <? length (env s) then pointer s y else None) else pointer s z).
    { intros z. unfold pointer, s1. cbn [env]. rewrite !nth_upd, upd_length, (Nat.eqb_sym z y), (Nat.eqb_sym z x).
      destruct (Nat.eqb_spec y z) as [<-|Ny]; cbn [andb].
      - destruct (Nat.ltb_spec y (length (env s))); auto. destruct (Nat.eqb_spec x y); [congruence|]. cbn. now apply nth_overflow.
      - destruct (Nat.eqb_spec x z) as [<-|]; cbn [andb]; auto. destruct (Nat.ltb_spec x (length (env s))); auto. now apply nth_overflow. }
    assert (ER : forall z, pointer (release (pointer s x) s1) z = pointer s1 z).
    { intros z. unfold release. destruct (pointer s x); auto. now destruct (_ =? _). }
    assert (EL : length (env (release (pointer s x) s1)) = length (env s)).
    { unfold release. destruct (pointer s x); [destruct (_ =? _)|]; cbn; now rewrite !upd_length. }
    split; [|split; [reflexivity|split; [exact EL|]]].
    + split; [rewrite EL, !upd_length; auto|]. intros z. rewrite ER, EP. unfold value. rewrite !nth_upd, upd_length, <- L, (Nat.eqb_sym z y), (Nat.eqb_sym z x).
      assert (HH : forall l v w, nth_error (heap s) l = Some (Some v) -> pointer s1 w = Some l ->
        nth_error (heap (release (pointer s x) s1)) l = Some (Some v)).
      { intros l v w H Hw. unfold release. destruct (pointer s x) as [l0|]; auto. destruct (Nat.eqb_spec (use_count s1 l0) 0) as [E|E]; auto.
        cbn [heap]. rewrite nth_error_upd_neq; auto. intros ->. exact (proj1 (count_0 _ _) E w Hw). }
      specialize (EP z). rewrite (Nat.eqb_sym z y), (Nat.eqb_sym z x) in EP.
      destruct (Nat.eqb_spec y z) as [Ey|Ny]; [subst z|]; cbn [andb].
      { destruct (Nat.ltb_spec y (length (env s))); auto. destruct (Nat.eqb_spec x y); [congruence|]. cbn. rewrite nth_overflow; auto; lia. }
      destruct (Nat.eqb_spec x z) as [Ex|Nx]; [subst z|]; cbn [andb].
      * destruct (Nat.ltb_spec x (length (env s))).
        -- specialize (AA y). unfold value in *. destruct (pointer s y) as [l|] eqn:EY, (nth y vs None) as [u|]; auto. apply (HH l u x); auto.
        -- rewrite nth_overflow by lia. auto.
      * specialize (AA z). unfold value in *. destruct (pointer s z) as [l|] eqn:EZ, (nth z vs None) as [u|]; auto. apply (HH l u z); auto.
    + intros T [X1 X2]. apply tight_release.
      * intros l K. change (heap s1) with (heap s) in K. destruct (proj1 (T l) K) as [z Hz].
        destruct (Nat.eq_dec z x) as [->|Nx]; [now right|]. left. destruct (Nat.eq_dec z y) as [->|Ny].
        -- destruct (Nat.lt_ge_cases x (length (env s))) as [B|B].
           ++ exists x. rewrite EP. destruct (Nat.eqb_spec x y); [congruence|]. rewrite Nat.eqb_refl. now destruct (Nat.ltb_spec x (length (env s))); [|lia].
           ++ lia.
        -- exists z. rewrite EP. destruct (Nat.eqb_spec z y); [congruence|]. destruct (Nat.eqb_spec z x); [congruence|]. exact Hz.
      * intros z l. rewrite EP. change (heap s1) with (heap s). destruct (z =? y); [discriminate|]. destruct (z =? x); [destruct (_ <? _); [|discriminate]|]; intros K; apply T; eauto.
  - set (s1 := mkst (upd y (pointer s x) (upd x (pointer s y) (env s))) (heap s)).
    assert (EP : forall z, pointer s1 z = if (y =? z) && (y <? length (env s)) then pointer s x else if (x =? z) && (x <? length (env s)) then pointer s y else pointer s z).
    { intros z. unfold pointer, s1. cbn [env]. now rewrite !nth_upd, upd_length. }
    split; [|split; [reflexivity|split; [unfold s1; cbn; now rewrite !upd_length|]]].
    + split; [unfold s1; cbn; now rewrite !upd_length|]. intros z. rewrite EP. unfold value. rewrite !nth_upd, upd_length, <- L.
      change (heap s1) with (heap s). destruct (_ && _); [apply AA|]. destruct (_ && _); apply AA.
    + intros T [X1 X2] l. change (heap s1) with (heap s). rewrite (T l). split; intros [z Hz].
      * destruct (Nat.eq_dec z x) as [->|Nx].
        -- exists y. rewrite EP, Nat.eqb_refl. now destruct (Nat.ltb_spec y (length (env s))); [|lia].
        -- destruct (Nat.eq_dec z y) as [->|Ny].
           ++ exists x. rewrite EP. destruct (Nat.eqb_spec y x); [congruence|]. rewrite Nat.eqb_refl. now destruct (Nat.ltb_spec x (length (env s))); [|lia].
           ++ exists z. rewrite EP. destruct (Nat.eqb_spec y z); [congruence|]. now destruct (Nat.eqb_spec x z); [congruence|].
      * rewrite EP in Hz. destruct (_ && _); [eauto|]. destruct (_ && _); eauto.
  - split. { apply assign_agree; auto. } split; [reflexivity|]. split; [now rewrite assign_env, upd_length|].
    intros T _. apply assign_tight'; auto. discriminate.
  - unfold doTask1. destruct (pointer s x) as [l|] eqn:E.
    2:{ rewrite (agree_null _ _ _ A E). now destruct debug. }
    destruct (agree_pointer _ _ _ _ A E) as (v & EV & EH). rewrite EV. unfold deref at 1. rewrite EH. cbn [obind].
    destruct (t v) as [|ws|f]; cbn [after].
    + cbn [obind]. rewrite <- EV. unfold value. rewrite upd_self. auto.
    + destruct (modifyData_ok s vs x l A E) as (v' & s' & l' & EV' & EM & A' & E' & U & H' & _ & _). rewrite EM. cbn [obind].
      assert (v' = v) by congruence. subst v'.
      destruct (writes_ok x l' ws s' vs v A' E' U H') as (s'' & EW & A'' & E1 & _ & E3 & E4). rewrite EW. cbn [obind].
      assert (EL : length (env s') = length (env s)) by (destruct A' as [L' _]; congruence).
      split; [exact A''|]. split; [reflexivity|]. split; [congruence|]. intros T _.
      apply (tight_same s' s'' l'); eauto. unfold modifyData in EM. rewrite E in EM. destruct (_ =? _); [injection EM as <- _; exact T|].
      unfold deref in EM. rewrite EH in EM. cbn [obind] in EM. injection EM as <- _. apply make_tight; auto. now apply (pointer_range s x l).
    + cbn [obind]. split; [now apply make_agree|]. split; [reflexivity|]. split; [now rewrite make_env, upd_length|]. intros T _. apply make_tight; auto. now apply (pointer_range s x l).
  - unfold doTask2. destruct (pointer s x) as [l|] eqn:E.
    2:{ rewrite (agree_null _ _ _ A E). now destruct debug. }
    destruct (agree_pointer _ _ _ _ A E) as (v & EV & EH). rewrite EV.
    destruct (pointer s y) as [r|] eqn:Er.
    2:{ rewrite (agree_null _ _ _ A Er). now destruct debug. }
    destruct (agree_pointer _ _ _ _ A Er) as (u & EU & EHr). rewrite EU.
    unfold deref at 1 2. rewrite EH, EHr. cbn [obind].
    destruct (t v u) as [|ws|f|] eqn:ET; cbn [after2].
    + cbn [obind]. rewrite <- EV. unfold value. rewrite upd_self. auto.
    + assert (N : x <> y). { intros ->. specialize (NS eq_refl v u). now rewrite ET in NS. }
      destruct (modifyData_ok s vs x l A E) as (v' & s' & l' & EV' & EM & A' & E' & U & H' & HO & _). rewrite EM. cbn [obind].
      assert (v' = v) by congruence. subst v'.
      assert (Er' : pointer s' y = Some r) by (rewrite HO; auto).
      destruct (agree_pointer _ _ _ _ A' Er') as (u' & EU' & EHr'). assert (u' = u) by congruence. subst u'.
      assert (NL : l' <> r). { intros ->. apply N. symmetry. auto. }
      destruct (writes2_ok x l' r u ws NL s' vs v A' E' U H' EHr') as (s'' & EW & A'' & E1 & _ & E3 & E4). rewrite EW. cbn [obind].
      assert (EL : length (env s') = length (env s)) by (destruct A' as [L' _]; congruence).
      split; [exact A''|]. split; [reflexivity|]. split; [congruence|]. intros T _.
      apply (tight_same s' s'' l'); eauto. unfold modifyData in EM. rewrite E in EM. destruct (_ =? _); [injection EM as <- _; exact T|].
      unfold deref in EM. rewrite EH in EM. cbn [obind] in EM. injection EM as <- _. apply make_tight; auto. now apply (pointer_range s x l).
    + cbn [obind]. split; [now apply make_agree|]. split; [reflexivity|]. split; [now rewrite make_env, upd_length|]. intros T _. apply make_tight; auto. now apply (pointer_range s x l).
    + cbn [obind]. split; [now apply assign_agree|]. split; [reflexivity|]. split; [now rewrite assign_env, upd_length|]. intros T _. apply assign_tight'; auto. intros l0 [= <-]. eauto.
  - destruct (pointer s x) as [l|] eqn:E.
    2:{ rewrite (agree_null _ _ _ A E). now destruct debug. }
    destruct (agree_pointer _ _ _ _ A E) as (v & EV & EH). rewrite EV. unfold deref. rewrite EH. cbn [obind]. auto.
Qed.

Lemma exec_ok debug cs : forall s vs, agree s vs -> Forall no_self cs ->
  match exec debug s cs, by_value debug vs cs with
  | Ok (s', o), Ok (vs', o') => agree s' vs' /\ o = o' /\ length (env s') = length (env s) /\ (tight s -> Forall (scoped (length (env s))) cs -> tight s')
  | Err, Err => True
  | UB, UB => True
  | _, _ => False
  end.
Proof.
  induction cs as [|c cs IH]; intros s vs A F; [cbn; auto|]. inversion F as [|? ? F1 F2]; subst. cbn [exec by_value].
  pose proof (step_ok debug s vs c A F1) as H1. destruct (exec1 debug s c) as [[s1 o1]| |], (by_value1 debug vs c) as [[vs1 o1']| |]; try (destruct H1; fail); cbn [obind]; auto.
  destruct H1 as (A1 & -> & L1 & T1). specialize (IH s1 vs1 A1 F2).
  destruct (exec debug s1 cs) as [[s2 o2]| |], (by_value debug vs1 cs) as [[vs2 o2']| |]; try (destruct IH; fail); cbn [obind]; auto.
  destruct IH as (A2 & -> & L2 & T2). split; [exact A2|]. split; [reflexivity|]. split; [congruence|]. intros T S0. inversion S0; subst. apply T2; auto. now rewrite L1.
Qed.

Lemma init_agree n : agree (init n) (repeat None n).
Proof.
  split; [unfold init; cbn; now rewrite !repeat_length|]. intros x. unfold pointer, value, init. cbn [env]. now rewrite !nth_repeat.
Qed.
Lemma init_tight n : tight (init n : st).
Proof.
  intros l. unfold init, pointer. cbn [heap env]. split; [intros [v K]; now destruct l|intros [x K]; rewrite nth_repeat in K; discriminate].
Qed.

(** ** C44 *)
(** Every program sees exactly what it would see if every copy were a real copy: the same values,
    the same errors, and no use of freed storage. *)
Theorem C44_by_value debug n (cs : list cmd) : Forall no_self cs ->
  match exec debug (init n) cs, by_value debug (repeat None n) cs with
  | Ok (_, o), Ok (_, o') => o = o'
  | Err, Err => True
  | UB, UB => True
  | _, _ => False
  end.
Proof.
  intros F. pose proof (exec_ok debug cs (init n) (repeat None n) (init_agree n) F) as H.
  destruct (exec _ _ cs) as [[s' o]| |], (by_value _ _ cs) as [[vs' o']| |]; auto. apply H.
Qed.

(** A copy x of y keeps the value y had, whatever is done afterwards to y and to all other
    objects. *)
Lemma by_value_frame debug (cs : list cmd) x : forall vs vs' o, Forall (fun c => ~ In x (targets c)) cs ->
  by_value debug vs cs = Ok (vs', o) -> value vs' x = value vs x.
Proof.
  assert (U : forall y (ov : option V) vs, x <> y -> value (upd y ov vs) x = value vs x).
  { intros y ov vs N. unfold value. now rewrite nth_upd_neq by auto. }
  induction cs as [|c cs IH]; intros vs vs' o F E; [now injection E as <- _|]. inversion F as [|? ? F1 F2]; subst. cbn [by_value] in E.
  destruct (by_value1 debug vs c) as [[vs1 o1]| |] eqn:E1; try discriminate. cbn [obind] in E.
  destruct (by_value debug vs1 cs) as [[vs2 o2]| |] eqn:E2; try discriminate. injection E as <- _.
  rewrite (IH vs1 vs2 o2 F2 E2). destruct c as [y v|y z|y z|y z|y|y t|y z t|y]; cbn [by_value1 targets In] in *.
  - injection E1 as <- _. apply U. firstorder.
  - injection E1 as <- _. apply U. firstorder.
  - destruct (y =? z); injection E1 as <- _; auto. rewrite !U; auto; firstorder.
  - injection E1 as <- _. rewrite !U; auto; firstorder.
  - injection E1 as <- _. apply U. firstorder.
  - destruct (value vs y); [|now destruct debug]. injection E1 as <- _. apply U. firstorder.
  - destruct (value vs y), (value vs z); try (now destruct debug). injection E1 as <- _. apply U. firstorder.
  - destruct (value vs y); [|now destruct debug]. now injection E1 as <- _.
Qed.

Theorem C44_copy_keeps debug n (h : list cmd) s o x y v s1 cs s' o' :
  Forall no_self h -> Forall no_self cs -> exec debug (init n) h = Ok (s, o) ->
  x < n -> exec debug s [CGet y] = Ok (s1, [v]) ->
  Forall (fun c => ~ In x (targets c)) cs ->
  exec debug s (CCopy x y :: cs) = Ok (s', o') ->
  exec debug s' [CGet x] = Ok (s', [v]).
Proof.
  intros F1 F2 EH LX EG FT EC.
  pose proof (exec_ok debug h (init n) (repeat None n) (init_agree n) F1) as H. rewrite EH in H.
  destruct (by_value debug (repeat None n) h) as [[vs oh]| |] eqn:EV; try (destruct H; fail). destruct H as (A & _ & L & _).
  assert (EY : value vs y = Some v).
  { pose proof (exec_ok debug [CGet y] s vs A) as H. rewrite EG in H. cbn [by_value by_value1] in H. destruct (value vs y) as [u|].
    - cbn [obind] in H. destruct H as (_ & K & _); [repeat constructor|]. cbn in K. now injection K as <-.
    - destruct debug; destruct H; repeat constructor. }
  pose proof (exec_ok debug (CCopy x y :: cs) s vs A) as H. rewrite EC in H.
  destruct (by_value debug vs (CCopy x y :: cs)) as [[vs' ob]| |] eqn:EB; try (destruct H; [constructor; [exact Logic.I|exact F2]]; fail).
  destruct H as (A' & _ & _); [constructor; [exact Logic.I|exact F2]|].
  cbn [by_value by_value1 obind] in EB. destruct (by_value debug (upd x (value vs y) vs) cs) as [[vs2 o2]| |] eqn:E2; try discriminate.
  cbn [obind] in EB. injection EB as <- _. pose proof (by_value_frame debug cs x _ _ _ FT E2) as FR.
  unfold value in FR at 2. rewrite nth_upd, Nat.eqb_refl in FR.
  replace (x <? length vs) with true in FR. 2:{ symmetry. apply Nat.ltb_lt. destruct A as [LA _]. rewrite <- LA, L. unfold init. cbn. now rewrite repeat_length. }
  cbn [andb] in FR. rewrite EY in FR. destruct A' as [_ A']. specialize (A' x). rewrite FR in A'.
  cbn [exec exec1]. destruct (pointer s' x) as [l|]; [|destruct A']. unfold deref. rewrite A'. reflexivity.
Qed.

(** No storage leaks and none is freed early: after every program, a storage exists exactly when
    some object points to it. *)
Theorem C44_no_leak debug n (cs : list cmd) s o : Forall no_self cs -> Forall (scoped n) cs ->
  exec debug (init n) cs = Ok (s, o) ->
  forall l, (exists v, nth_error (heap s) l = Some (Some v)) <-> exists x, nth x (env s) None = Some l.
Proof.
  intros F S0 E. pose proof (exec_ok debug cs (init n) (repeat None n) (init_agree n) F) as H. rewrite E in H.
  destruct (by_value debug (repeat None n) cs) as [[vs ob]| |]; try (destruct H; fail). destruct H as (_ & _ & _ & T).
  apply T; [apply init_tight|]. unfold init. cbn. now rewrite repeat_length.
Qed.

(** operator+= never gives one object twice to a task that works in place, and it adds the value
    that y has: what every object holds afterwards. *)
Theorem C44_plusEq debug n (h : list cmd) s o x y dbl promotes f steps vs oh :
  Forall no_self h -> exec debug (init n) h = Ok (s, o) -> by_value debug (repeat None n) h = Ok (vs, oh) ->
  (forall v, dbl v = f v v) ->
  (forall v u, promotes v u = false -> fold_left (fun v w => w v u) (steps v u) v = f v u) ->
  value vs y <> None ->
  exists s', exec debug s [plusEq s x y dbl promotes f steps] = Ok (s', []) /\
    forall z, x < n -> exec debug s' [CGet z] =
      match (if z =? x then match value vs x, value vs y with Some v, Some u => Some (f v u) | _, u => u end else value vs z) with
      | Some v => Ok (s', [v]) | None => if debug then Err else UB end.
Proof.
  intros F E EB Hd Hf Hy. pose proof (exec_ok debug h (init n) (repeat None n) (init_agree n) F) as H. rewrite E, EB in H.
  destruct H as (A & _ & L & _). set (c := plusEq s x y dbl promotes f steps).
  assert (NS : Forall no_self [c]).
  { constructor; [|constructor]. unfold c, plusEq. destruct (pointer s x); [|exact Logic.I]. destruct (Nat.eqb_spec x y); [exact Logic.I|]. intros K; congruence. }
  pose proof (exec_ok debug [c] s vs A NS) as H.
  assert (EBV : by_value debug vs [c] = Ok (upd x (match value vs x, value vs y with Some v, Some u => Some (f v u) | _, u => u end) vs, [])).
  { unfold c, plusEq. destruct (pointer s x) as [l|] eqn:EP.
    - destruct (agree_pointer _ _ _ _ A EP) as (v & EV & _). rewrite EV. destruct (Nat.eqb_spec x y) as [->|N].
      + cbn [by_value by_value1]. rewrite EV. cbn. now rewrite Hd.
      + cbn [by_value by_value1]. rewrite EV. destruct (value vs y) as [u|]; [|congruence]. cbn [obind app].
        destruct (promotes v u) eqn:EQ; cbn [after2]; auto. now rewrite Hf.
    - rewrite (agree_null _ _ _ A EP). reflexivity. }
  rewrite EBV in H. destruct (exec debug s [c]) as [[s' oo]| |]; try (destruct H; fail). destruct H as (A' & -> & _ & _).
  exists s'. split; [reflexivity|]. intros z LX.
  assert (EV : value (upd x (match value vs x, value vs y with Some v, Some u => Some (f v u) | _, u => u end) vs) z =
     (if z =? x then match value vs x, value vs y with Some v, Some u => Some (f v u) | _, u => u end else value vs z)).
  { unfold value. rewrite nth_upd, (Nat.eqb_sym z x). destruct (Nat.eqb_spec x z); auto. cbn [andb].
    replace (x <? length vs) with true; auto. symmetry. apply Nat.ltb_lt. destruct A as [LA _]. rewrite <- LA, L. unfold init. cbn. now rewrite repeat_length. }
  rewrite <- EV. destruct A' as [_ A']. specialize (A' z). cbn [exec exec1]. destruct (pointer s' z) as [l|], (value _ z) as [v|]; try (destruct A'; fail).
  - unfold deref. rewrite A'. reflexivity.
  - now destruct debug.
Qed.

(** A view taken and written at once (as all callers in the library do) changes only its own
    tensor. *)
Theorem C44_view_at_once debug n (h : list cmd) s o x v w s1 l s2 vs oh :
  Forall no_self h -> exec debug (init n) h = Ok (s, o) -> by_value debug (repeat None n) h = Ok (vs, oh) ->
  value vs x = Some v -> view s x = Ok (s1, l) -> write_view s1 l w = Ok s2 ->
  forall z, exec debug s2 [CGet z] =
    match (if z =? x then Some (w v) else value vs z) with Some u => Ok (s2, [u]) | None => if debug then Err else UB end.
Proof.
  intros F E EB EV EW E2. pose proof (exec_ok debug h (init n) (repeat None n) (init_agree n) F) as H. rewrite E, EB in H.
  destruct H as (A & _ & L & _). unfold view in EW. pose proof EW as EW'. unfold modifyData in EW'. destruct (pointer s x) as [l0|] eqn:EP; [|discriminate].
  clear EW'. destruct (modifyData_ok s vs x l0 A EP) as (v' & s' & l' & EV' & EM & A' & E' & U & H' & HO & LX). rewrite EM in EW. injection EW as <- <-.
  assert (v' = v) by congruence. subst v'.
  destruct (writes_ok x l' [w] s' vs v A' E' U H') as (s'' & EW & A'' & _). unfold write_view in E2. rewrite EW in E2. injection E2 as <-.
  cbn [fold_left] in A''. intros z.
  assert (EZ : value (upd x (Some (w v)) vs) z = if z =? x then Some (w v) else value vs z).
  { unfold value. rewrite nth_upd, (Nat.eqb_sym z x). destruct (Nat.eqb_spec x z); auto. cbn [andb].
    replace (x <? length vs) with true; auto. symmetry. apply Nat.ltb_lt. destruct A' as [LA _]. now rewrite <- LA. }
  rewrite <- EZ. destruct A'' as [_ A'']. specialize (A'' z). cbn [exec exec1]. destruct (pointer s'' z) as [l|], (value _ z) as [u|]; try (destruct A''; fail).
  - unfold deref. rewrite A''. reflexivity.
  - now destruct debug.
Qed.
End Props.

(** Finding: a view returned by getBlock stays bound to the storage.  If the tensor is copied
    before the view is written, the copy changes too; if the tensor goes first, the write is to
    freed storage. *)
Theorem C44_view_refuted :
  exists s l s1 s2, exec false (init 2) [CNew 0 1] = Ok (s, []) /\ view s 0 = Ok (s, l) /\
    exec false s [CCopy 1 0; CGet 1] = Ok (s1, [1]) /\
    write_view s1 l (fun _ => 7) = Ok s2 /\ exec false s2 [CGet 1] = Ok (s2, [7]).
Proof. do 4 eexists. repeat split; vm_compute; reflexivity. Qed.
Theorem C44_view_dangling_refuted :
  exists s l s1, exec false (init 1) [CNew 0 1] = Ok (s, []) /\ view s 0 = Ok (s, l) /\
    exec false s [CDrop 0] = Ok (s1, []) /\ write_view s1 l (fun _ => 7) = UB.
Proof. do 3 eexists. repeat split; vm_compute; reflexivity. Qed.

Example C44_nonvacuous :
  let cs := [CNew 0 5; CCopy 1 0; CCopy 2 1; CTask 0 (fun _ => Modify [fun v => v + 1; fun v => v * 2]); CGet 0; CGet 1;
             CTask2 1 2 (fun _ _ => Modify2 [fun v u => v + u; fun v u => v + u]); CGet 1; CGet 2;
             CMove 2 0; CTask2 1 2 (fun _ _ => Share2); CTask 2 (fun _ => Replace (fun v => v + 100)); CGet 1; CGet 2; CDrop 1] in
  Forall no_self cs /\ Forall (scoped 3) cs /\
  exists s, exec true (init 3) cs = Ok (s, [12; 5; 15; 5; 12; 112]).
Proof.
  cbv zeta. split; [repeat constructor; cbn; lia|]. split; [repeat constructor; cbn; lia|]. eexists. vm_compute. reflexivity.
Qed.

Print Assumptions C44_by_value.
Print Assumptions C44_copy_keeps.
Print Assumptions C44_no_leak.
Print Assumptions C44_plusEq.
Print Assumptions C44_view_at_once.
Print Assumptions C44_view_refuted.
Print Assumptions C44_view_dangling_refuted.
