(** Parts of a term to the left of, on and to the right of a site; the operators placed on a site. *)
From Coq Require Import List ZArith Arith Lia Bool String Sorted.
From Verif Require Import Util AutoMpoModel AutoMpoSpec AutoMpoProofs AutoMpoJW SvdMpoModel.
Import ListNotations.
Local Arguments Nat.sub : simpl never.

Notation prod := (list sterm).
Definition lf (n : nat) (o : prod) : prod := filter (fun t => Nat.ltb (st_i t) n) o.
Definition on (n : nat) (o : prod) : prod := filter (fun t => Nat.eqb (st_i t) n) o.
Definition rg (n : nat) (o : prod) : prod := filter (fun t => Nat.ltb n (st_i t)) o.
Definition emptyb (o : prod) : bool := match o with [] => true | _ => false end.
Lemma emptyb_spec o : emptyb o = true <-> o = [].
Proof. destruct o; cbn; split; congruence. Qed.
Lemma emptyb_false o : emptyb o = false <-> o <> [].
Proof. destruct o; cbn; split; congruence. Qed.

Lemma filter_all {X} (p : X -> bool) l : (forall x, In x l -> p x = true) -> filter p l = l.
Proof. induction l as [|x l IH]; intros H; [reflexivity|]. cbn. rewrite H by now left. f_equal. apply IH. intros; apply H; now right. Qed.
Lemma filter_none {X} (p : X -> bool) l : (forall x, In x l -> p x = false) -> filter p l = [].
Proof. induction l as [|x l IH]; intros H; [reflexivity|]. cbn. rewrite H by now left. apply IH. intros; apply H; now right. Qed.
Lemma filter_filter {X} (p r : X -> bool) l : filter p (filter r l) = filter (fun x => r x && p x) l.
Proof. induction l as [|x l IH]; [reflexivity|]. cbn. destruct (r x); cbn; [destruct (p x)|]; now rewrite IH. Qed.

Lemma decompose_filter n o : StronglySorted sle o -> decomposeTerm n o = (lf n o, on n o, rg n o).
Proof.
  intros S. destruct (decomposeTerm n o) as [[l m] r] eqn:E. destruct (decompose_spec _ _ _ _ _ S E) as (H1 & H2 & H3 & H4).
  assert (A1 : lf n o = l).
  { unfold lf. rewrite H1, !filter_app. rewrite (filter_all _ l), (filter_none _ m), (filter_none _ r); rewrite ?app_nil_r; auto.
    - intros x Hx. apply Nat.ltb_ge. specialize (H4 x Hx). lia.
    - intros x Hx. apply Nat.ltb_ge. specialize (H3 x Hx). lia.
    - intros x Hx. apply Nat.ltb_lt. auto. }
  assert (A2 : on n o = m).
  { unfold on. rewrite H1, !filter_app. rewrite (filter_none _ l), (filter_all _ m), (filter_none _ r); rewrite ?app_nil_r; auto.
    - intros x Hx. apply Nat.eqb_neq. specialize (H4 x Hx). lia.
    - intros x Hx. apply Nat.eqb_eq. auto.
    - intros x Hx. apply Nat.eqb_neq. specialize (H2 x Hx). lia. }
  assert (A3 : rg n o = r).
  { unfold rg. rewrite H1, !filter_app. rewrite (filter_none _ l), (filter_none _ m), (filter_all _ r); auto.
    - intros x Hx. apply Nat.ltb_lt. auto.
    - intros x Hx. apply Nat.ltb_ge. specialize (H3 x Hx). lia.
    - intros x Hx. apply Nat.ltb_ge. specialize (H2 x Hx). lia. }
  congruence.
Qed.
Lemma split3 n o : StronglySorted sle o -> o = lf n o ++ on n o ++ rg n o.
Proof. intros S. pose proof (decompose_filter n o S) as E. now destruct (decompose_spec _ _ _ _ _ S E) as (H1 & _). Qed.
Lemma sorted_filter p o : StronglySorted sle o -> StronglySorted sle (filter p o).
Proof.
  induction 1 as [|t o H IH F]; [constructor|]. cbn. destruct (p t); auto. constructor; auto. rewrite Forall_forall in *. intros x Hx. apply filter_In in Hx. now apply F.
Qed.
Lemma lf_S n o : StronglySorted sle o -> lf (S n) o = lf n o ++ on n o.
Proof.
  intros H. transitivity (filter (fun t => Nat.ltb (st_i t) (S n)) (lf n o ++ on n o ++ rg n o)); [now rewrite <- split3|].
  rewrite !filter_app. rewrite (filter_all _ (lf n o)), (filter_all _ (on n o)), (filter_none _ (rg n o)), app_nil_r; auto; intros x Hx; apply filter_In in Hx as [_ Hx].
  - apply Nat.ltb_lt in Hx. apply Nat.ltb_ge. lia.
  - apply Nat.eqb_eq in Hx. apply Nat.ltb_lt. lia.
  - apply Nat.ltb_lt in Hx. apply Nat.ltb_lt. lia.
Qed.
Lemma rg_S n o : StronglySorted sle o -> rg n o = on (S n) o ++ rg (S n) o.
Proof.
  intros H. transitivity (filter (fun t => Nat.ltb n (st_i t)) (lf (S n) o ++ on (S n) o ++ rg (S n) o)); [now rewrite <- split3|].
  rewrite !filter_app. rewrite (filter_none _ (lf (S n) o)), (filter_all _ (on (S n) o)), (filter_all _ (rg (S n) o)); auto; intros x Hx; apply filter_In in Hx as [_ Hx].
  - apply Nat.ltb_lt in Hx. apply Nat.ltb_lt. lia.
  - apply Nat.eqb_eq in Hx. apply Nat.ltb_lt. lia.
  - apply Nat.ltb_lt in Hx. apply Nat.ltb_ge. lia.
Qed.
Lemma on_rg n o : on (S n) (rg n o) = on (S n) o.
Proof. unfold on, rg. rewrite filter_filter. apply filter_ext. intros t. destruct (Nat.eqb_spec (st_i t) (S n)), (Nat.ltb_spec n (st_i t)); auto; lia. Qed.
Lemma rg_rg n o : rg (S n) (rg n o) = rg (S n) o.
Proof. unfold rg. rewrite filter_filter. apply filter_ext. intros t. destruct (Nat.ltb_spec n (st_i t)), (Nat.ltb_spec (S n) (st_i t)); auto; lia. Qed.
Lemma lf_lf i m o : i <= m -> lf i (lf m o) = lf i o.
Proof. intros H. unfold lf. rewrite filter_filter. apply filter_ext. intros t. destruct (Nat.ltb_spec (st_i t) m), (Nat.ltb_spec (st_i t) i); auto; lia. Qed.
Lemma on_lf i m o : i < m -> on i (lf m o) = on i o.
Proof. intros H. unfold lf, on. rewrite filter_filter. apply filter_ext. intros t. destruct (Nat.ltb_spec (st_i t) m), (Nat.eqb_spec (st_i t) i); auto; lia. Qed.
Lemma split2 m o : StronglySorted sle o -> o = lf (S m) o ++ rg m o.
Proof. intros H. rewrite (lf_S m o H), <- app_assoc. now apply split3. Qed.

(** Sites covered by a term. *)
Definition cover (o : prod) (n : nat) : Prop := rg (n - 1) o <> [] /\ lf (S n) o <> [].
Lemma filter_nil {X} (p : X -> bool) l : filter p l = [] <-> forall x, In x l -> p x = false.
Proof.
  split; [|apply filter_none]. intros E x Hx. destruct (p x) eqn:Q; auto. assert (In x (filter p l)) by (apply filter_In; auto). rewrite E in *. contradiction.
Qed.
Lemma last_in {X} (d : X) l : l <> [] -> In (last l d) l.
Proof. induction l as [|x l IH]; [congruence|]. intros _. destruct l as [|y l]; [now left|]. right. apply IH. discriminate. Qed.
Lemma sorted_bounds o t : StronglySorted sle o -> In t o -> st_i (hd st_none o) <= st_i t <= st_i (last o st_none).
Proof.
  intros H. induction H as [|x o H IH F]; [intros []|]. intros [<-|Ht].
  - cbn [hd]. split; [lia|]. destruct o as [|y o]; [cbn; lia|]. rewrite Forall_forall in F. change (last (x :: y :: o) st_none) with (last (y :: o) st_none).
    assert (Q : In (last (y :: o) st_none) (y :: o)) by (apply last_in; discriminate). apply F in Q. unfold sle in Q. lia.
  - rewrite Forall_forall in F. cbn [hd]. pose proof (F t Ht) as Q. unfold sle in Q. split; [lia|]. destruct o as [|y o]; [destruct Ht|].
    change (last (x :: y :: o) st_none) with (last (y :: o) st_none). apply IH, Ht.
Qed.
Lemma lf_nil n o : StronglySorted sle o -> o <> [] -> (lf n o = [] <-> n <= st_i (hd st_none o)).
Proof.
  intros H Ne. unfold lf. rewrite filter_nil. split.
  - intros Q. destruct o as [|x o]; [congruence|]. specialize (Q x (or_introl eq_refl)). apply Nat.ltb_ge in Q. exact Q.
  - intros Q x Hx. apply Nat.ltb_ge. pose proof (sorted_bounds o x H Hx). lia.
Qed.
Lemma rg_nil n o : StronglySorted sle o -> o <> [] -> (rg n o = [] <-> st_i (last o st_none) <= n).
Proof.
  intros H Ne. unfold rg. rewrite filter_nil. split.
  - intros Q. assert (Hx : In (last o st_none) o) by now apply last_in. specialize (Q _ Hx). now apply Nat.ltb_ge in Q.
  - intros Q x Hx. apply Nat.ltb_ge. pose proof (sorted_bounds o x H Hx). lia.
Qed.
Lemma cover_iff n o : StronglySorted sle o -> o <> [] -> 1 <= n -> (cover o n <-> st_i (hd st_none o) <= n <= st_i (last o st_none)).
Proof. intros H Ne Hn. unfold cover. rewrite (rg_nil _ _ H Ne), (lf_nil _ _ H Ne). lia. Qed.

(** *** Operators placed on a site *)
Definition spp (o : prod) (n : nat) : prod := match siteProd o n with Ok p => p | _ => [] end.
Lemma rewrite_ok p b : p <> [] -> (exists n, forall t, In t p -> st_i t = n) -> exists p', rewriteFermionic p b = Ok p' /\ p' <> [].
Proof.
  intros Ne [n H]. destruct p as [|p0 p]; [congruence|]. unfold rewriteFermionic.
  replace (existsb (fun t => negb (Nat.eqb (st_i t) (st_i p0))) (p0 :: p)) with false.
  - eexists. split; [reflexivity|]. destruct (_ || _); destruct (isFp (p0 :: p)); cbn; discriminate.
  - symmetry. apply not_true_is_false. intros X. apply existsb_exists in X as (t & Ht & X). rewrite (H t Ht), (H p0 (or_introl eq_refl)), Nat.eqb_refl in X. discriminate.
Qed.
Lemma on_site n o t : In t (on n o) -> st_i t = n.
Proof. intros H. apply filter_In in H as [_ H]. now apply Nat.eqb_eq. Qed.
Lemma spp_on n o : StronglySorted sle o ->
  match on n o with [] => Ok [ST (if isFp (lf n o) then "F" else "Id")%string n] | _ => rewriteFermionic (on n o) (isFp (lf n o)) end = Ok (spp o n).
Proof.
  intros H. unfold spp, siteProd. rewrite (decompose_filter n o H). destruct (on n o) as [|t l] eqn:E; [reflexivity|].
  destruct (rewrite_ok (t :: l) (isFp (lf n o))) as (p' & E' & _); [discriminate|exists n; rewrite <- E; apply on_site|]. now rewrite E'.
Qed.
(** It depends only on the operators up to that site, ... *)
Lemma spp_left o m n : StronglySorted sle o -> n <= m -> spp (lf (S m) o) n = spp o n.
Proof.
  intros H Hn. assert (S' : StronglySorted sle (lf (S m) o)) by now apply sorted_filter.
  pose proof (spp_on n o H) as E1. pose proof (spp_on n _ S') as E2. rewrite on_lf, lf_lf in E2 by lia. congruence.
Qed.
(** ... and for an even term only on the operators from that site on. *)
Lemma spp_right o o' n : StronglySorted sle o -> StronglySorted sle o' -> isFp o = false -> isFp o' = false ->
  on n o = on n o' -> rg n o = rg n o' -> spp o n = spp o' n.
Proof.
  intros H H' P P' E1 E2. assert (Q : isFp (lf n o) = isFp (lf n o')).
  { rewrite isFp_par in *. rewrite (split3 n o H), !par_app in P. rewrite (split3 n o' H'), !par_app in P'. rewrite !isFp_par. rewrite E1, E2 in P.
    destruct (par (lf n o)), (par (lf n o')), (par (on n o')), (par (rg n o')); cbn in *; congruence. }
  pose proof (spp_on n o H) as A. pose proof (spp_on n o' H') as A'. rewrite E1, Q in A. congruence.
Qed.
Lemma spp_before o n : StronglySorted sle o -> lf (S n) o = [] -> spp o n = [ST "Id"%string n].
Proof.
  intros H E. pose proof (spp_on n o H) as A. rewrite (lf_S n o H) in E. apply app_eq_nil in E as [E1 E2]. rewrite E1, E2 in A. cbn in A. congruence.
Qed.
Lemma spp_after o n : StronglySorted sle o -> isFp o = false -> rg n o = [] -> on n o = [] -> spp o n = [ST "Id"%string n].
Proof.
  intros H P E1 E2. pose proof (spp_on n o H) as A. rewrite E2 in A. rewrite (split3 n o H), E1, E2, !app_nil_r in P. rewrite P in A. congruence.
Qed.

(** *** Renaming is injective on names that are not results of renaming *)
Definition renamed : list string := ["Adagup"; "Aup"; "Adagdn*Fup"; "Adn*Fup"; "A"; "Adag"]%string.
Definition plain (o : prod) : Prop := forall t, In t o -> ~ In (st_op t) renamed.
Definition rw (t : sterm) : sterm := if isF t then ST (fermionicTerm (st_op t)) (st_i t) else t.
Lemma ftab s : In (s, fermionicTerm s) [("Cdagup", "Adagup"); ("Cup", "Aup"); ("Cdagdn", "Adagdn*Fup"); ("Cdn", "Adn*Fup"); ("C", "A"); ("Cdag", "Adag")]%string \/ fermionicTerm s = s.
Proof.
  unfold fermionicTerm. cbn [rewrite_tab].
  repeat match goal with |- context [String.eqb ?a s] => destruct (String.eqb_spec a s); [subst s; left; cbn; tauto|] end. now right.
Qed.
Lemma rw_inj a b : ~ In (st_op a) renamed -> ~ In (st_op b) renamed -> rw a = rw b -> a = b.
Proof.
  intros Ha Hb E. assert (Ei : st_i a = st_i b). { apply (f_equal st_i) in E. unfold rw in E. destruct (isF a), (isF b); exact E. }
  assert (Eo : st_op (rw a) = st_op (rw b)) by now rewrite E.
  assert (A : forall t, (st_op (rw t) = st_op t) \/ In (st_op t, st_op (rw t)) [("Cdagup", "Adagup"); ("Cup", "Aup"); ("Cdagdn", "Adagdn*Fup"); ("Cdn", "Adn*Fup"); ("C", "A"); ("Cdag", "Adag")]%string).
  { intros t. unfold rw. destruct (isF t); [|auto]. cbn [st_op]. destruct (ftab (st_op t)); auto. }
  assert (Q : st_op a = st_op b).
  { unfold renamed in Ha, Hb. cbn [In] in Ha, Hb.
    destruct (A a) as [Qa|Qa], (A b) as [Qb|Qb].
    - congruence.
    - exfalso. rewrite Qa in Eo. cbn [In] in Qb. decompose [or] Qb; try contradiction; match goal with H : (_, _) = (_, _) |- _ => injection H as X1 X2 end; apply Ha; rewrite Eo, <- X2; tauto.
    - exfalso. rewrite Qb in Eo. cbn [In] in Qa. decompose [or] Qa; try contradiction; match goal with H : (_, _) = (_, _) |- _ => injection H as X1 X2 end; apply Hb; rewrite <- Eo, <- X2; tauto.
    - cbn [In] in Qa, Qb. decompose [or] Qa; try contradiction; decompose [or] Qb; try contradiction;
        repeat match goal with H : (_, _) = (_, _) |- _ => injection H; clear H; intros end; congruence. }
  destruct a, b; cbn in *; congruence.
Qed.
Lemma map_rw_inj p p' : plain p -> plain p' -> map rw p = map rw p' -> p = p'.
Proof.
  revert p'. induction p as [|t p IH]; intros [|t' p'] H H' E; cbn in E; try discriminate; auto. f_equal.
  - apply rw_inj; [apply H; now left|apply H'; now left|congruence].
  - apply IH; [intros x Hx; apply H; now right|intros x Hx; apply H'; now right|congruence].
Qed.
(** Two terms starting on site n with the same operators to the right and the same placed operators. *)
Lemma start_inj o o' n : StronglySorted sle o -> StronglySorted sle o' -> isFp o = false -> isFp o' = false -> plain o -> plain o' ->
  lf n o = [] -> lf n o' = [] -> on n o <> [] -> on n o' <> [] -> rg n o = rg n o' -> spp o n = spp o' n -> o = o'.
Proof.
  intros H H' P P' Pl Pl' L L' O O' Er Es.
  assert (G : forall o, StronglySorted sle o -> isFp o = false -> lf n o = [] -> on n o <> [] -> spp o n = if isFp (rg n o) then map rw (on n o) ++ [ST "F" n]%string else on n o).
  { clear. intros o H P L O. pose proof (spp_on n o H) as A. rewrite L in A.
    assert (Q : isFp (on n o) = isFp (rg n o)). { rewrite isFp_par in *. rewrite isFp_par. rewrite (split3 n o H), L in P. cbn [app] in P. rewrite par_app in P. destruct (par (on n o)), (par (rg n o)); cbn in P; congruence. }
    unfold rewriteFermionic in A. rewrite Q in A.
    destruct (on n o) as [|t l] eqn:E; [congruence|].
    replace (existsb (fun u => negb (Nat.eqb (st_i u) (st_i t))) (t :: l)) with false in A.
    2:{ symmetry. apply not_true_is_false. intros X. apply existsb_exists in X as (u & Hu & X).
        rewrite (on_site n o u), (on_site n o t), Nat.eqb_refl in X by (rewrite E; auto; now left). discriminate. }
    rewrite (on_site n o t) in A by (rewrite E; now left). change (isFp []) with false in A. cbn [andb negb orb] in A. destruct (isFp (rg n o)); injection A; intros <-; reflexivity. }
  rewrite (G o H P L O), (G o' H' P' L' O'), Er in Es.
  assert (E : on n o = on n o').
  { destruct (isFp (rg n o')).
    - apply app_inj_tail in Es as [Es _]. apply map_rw_inj in Es; auto; intros t Ht; apply filter_In in Ht as [Ht _]; auto.
    - exact Es. }
  rewrite (split3 n o H), (split3 n o' H'), L, L', E, Er. reflexivity.
Qed.
