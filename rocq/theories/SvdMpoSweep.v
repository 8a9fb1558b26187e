(** What the sweep over the sites computes. *)
From Coq Require Import List ZArith Arith Lia Bool String Sorted Ring.
From Verif Require Import Util AutoMpoModel AutoMpoSpec AutoMpoProofs AutoMpoJW SvdMpoModel SvdMpoSum SvdMpoTerms SvdMpoPart.
Import ListNotations.
Local Open Scope outcome_scope.
Local Arguments Nat.sub : simpl never.

(** V is an exact set of right singular vectors of the matrix M: it has a row for every column of M,
    and M V V^dagger = M. *)
Definition exact {R} (r0 : R) (radd rmul : R -> R -> R) (conj : R -> R) (M : list (list R)) (V : nat * list (list R)) : Prop :=
  forall nr nc, dims M nr nc -> (nr = 0 -> nc = 0) -> dims (snd V) nc (fst V) /\
  forall l j, l < nr -> j < nc ->
    lsum r0 radd (fun j' => rmul (entry r0 M l j') (lsum r0 radd (fun r => rmul (entry r0 (snd V) j' r) (conj (entry r0 (snd V) j r))) (seq 0 (fst V)))) (seq 0 nc) =
    entry r0 M l j.

Section Sweep.
Context {R : Type} (r0 r1 : R) (radd rmul : R -> R -> R) (conj : R -> R) (tiny : R -> bool).
Context (SR : semi_ring_theory r0 r1 radd rmul (@eq R)).
Add Ring RRsw : SR.
Context {Q : Type} (q0 : Q) (qadd : Q -> Q -> Q) (qeqb qltb : Q -> Q -> bool).
Context (qeqb_spec : forall a b, qeqb a b = true <-> a = b).
Context (qassoc : forall a b c, qadd a (qadd b c) = qadd (qadd a b) c) (qid_l : forall a, qadd q0 a = a) (qid_r : forall a, qadd a q0 = a).
Context (opq : sterm -> Q).
Context (vof : list (list R) -> nat * list (list R)).
Context (val : nat -> list sterm -> R).
Notation calcQN := (calcQN q0 qadd opq).
Notation block := (@block R).
Notation block0 := (@block0 R).
Notation elem := (@elem R Q).
Notation get_blk := (get_blk qeqb).
Notation hterm := (@hterm R).
Notation vmat := (nat * list (list R))%type.
Notation vmat0 := (@vmat0 R).
Notation lsum := (lsum r0 radd).
Notation entry := (entry r0).
Notation link_of := (link_of q0 qeqb).
Notation blockSize := (blockSize qeqb).
Notation went := (went r0 radd rmul q0 qadd qeqb opq val).
Declare Scope sw_scope.
Delimit Scope sw_scope with sw.
Notation "x + y" := (radd x y) : sw_scope.
Notation "x * y" := (rmul x y) : sw_scope.
Local Open Scope sw_scope.

(** *** Links *)
Lemma blockSize_link0 (V : list (Q * vmat)) : blockSize (link_of V) q0 = Ok (2 + fst (get_blk vmat0 q0 V))%nat.
Proof. unfold SvdMpoModel.link_of. cbn [SvdMpoModel.blockSize]. now rewrite (proj2 (qeqb_spec q0 q0) eq_refl). Qed.
Lemma blockSize_link (V : list (Q * vmat)) q : q <> q0 -> In q (map fst V) -> blockSize (link_of V) q = Ok (fst (get_blk vmat0 q V)).
Proof.
  intros Hq. unfold SvdMpoModel.link_of. cbn [SvdMpoModel.blockSize]. rewrite (qeqb_neq qeqb qeqb_spec q0 q) by auto. induction V as [|[k v] V IH]; intros H; [destruct H|].
  cbn [filter fst]. destruct (qeqb k q0) eqn:E; cbn [negb].
  - apply qeqb_spec in E. subst k. cbn [SvdMpoModel.get_blk]. rewrite (qeqb_neq qeqb qeqb_spec q q0) by auto. apply IH. destruct H; [cbn in *; congruence|auto].
  - cbn [map fst snd SvdMpoModel.blockSize SvdMpoModel.get_blk]. destruct (qeqb k q) eqn:E2.
    + apply qeqb_spec in E2. subst k. now rewrite (proj2 (qeqb_spec q q) eq_refl).
    + rewrite (qeqb_neq qeqb qeqb_spec q k) by (intros ->; rewrite (proj2 (qeqb_spec k k) eq_refl) in E2; discriminate). apply IH. destruct H as [H|H]; auto. cbn in H. subst k. rewrite (proj2 (qeqb_spec q q) eq_refl) in E2. discriminate.
Qed.
Lemma link_keys (V : list (Q * vmat)) : NoDup (map fst V) -> NoDup (map fst (link_of V)).
Proof.
  intros H. unfold SvdMpoModel.link_of. cbn [map fst]. rewrite map_map. cbn [fst]. constructor.
  - intros X. apply in_map_iff in X as (e & E & X). apply filter_In in X as [_ X]. apply negb_true_iff in X. rewrite E, (proj2 (qeqb_spec q0 q0) eq_refl) in X. discriminate.
  - induction V as [|[k v] V IH]; [constructor|]. cbn in H. apply NoDup_cons_iff in H as [H1 H2]. cbn [filter fst]. destruct (negb (qeqb k q0)); auto. cbn [map fst]. constructor; auto.
    intros X. apply H1. apply in_map_iff in X as (e & E & X). apply filter_In in X as [X _]. apply in_map_iff. eauto.
Qed.
(** Summing over the values of a link that belong to one quantum number. *)
Lemma states_sum (ll : list (Q * nat)) q size (f : nat -> R) : NoDup (map fst ll) -> blockSize ll q = Ok size ->
  lsum (fun s : Q * nat => if qeqb q (fst s) then f (snd s) else r0) (states ll) = lsum f (seq 0 size).
Proof.
  intros ND E. unfold states. rewrite (lsum_bind r0 r1 radd rmul SR). induction ll as [|[k m] ll IH]; [discriminate|]. cbn in ND. apply NoDup_cons_iff in ND as [N1 N2].
  rewrite lsum_cons. cbn [fst snd]. rewrite lsum_map. cbn [fst snd]. cbn [SvdMpoModel.blockSize] in E. destruct (qeqb k q) eqn:X.
  - apply qeqb_spec in X. subst k. injection E as <-. rewrite (lsum_ext r0 radd _ f (seq 0 m)) by (intros; now rewrite (proj2 (qeqb_spec q q) eq_refl)). rewrite (lsum_zero r0 r1 radd rmul SR _ ll); [ring|].
    intros [k' m'] H. rewrite lsum_map. apply (lsum_zero r0 r1 radd rmul SR). intros i _. cbn [fst snd]. rewrite (qeqb_neq qeqb qeqb_spec); auto. intros ->. apply N1. apply in_map_iff. exists (k', m'). auto.
  - rewrite (qeqb_neq qeqb qeqb_spec q k) by (intros ->; rewrite (proj2 (qeqb_spec k k) eq_refl) in X; discriminate). rewrite (lsum_zero r0 r1 radd rmul SR _ (seq 0 m)) by auto. rewrite IH by auto. ring.
Qed.

(** *** One element *)
Definition shift (q : Q) : nat := if qeqb q q0 then 2 else 0.
Definition part (sh : nat) (w : nat) (f : nat -> R) (r : nat) : R := if (Nat.leb sh r && Nat.ltb r (sh + w))%bool then f (r - sh)%nat else r0.
Definition rowf (Vn : list (Q * vmat)) (e : elem) (r : nat) : R :=
  match e_row e with
  | None => if Nat.eqb r 1 then r1 else r0
  | Some j => let V := get_blk vmat0 (e_rq e) Vn in part (shift (e_rq e)) (fst V) (fun i => conj (entry (snd V) j i)) r
  end.
Definition colf (Vp : list (Q * vmat)) (e : elem) (c : nat) : R :=
  match e_col e with
  | None => if Nat.eqb c 0 then r1 else r0
  | Some k => let V := get_blk vmat0 (e_cq e) Vp in part (shift (e_cq e)) (fst V) (fun i => entry (snd V) k i) c
  end.
Definition elem_ok (Vn Vp : list (Q * vmat)) (e : elem) : Prop :=
  (forall j, e_row e = Some j -> let V := get_blk vmat0 (e_rq e) Vn in exists nr, dims (snd V) nr (fst V) /\ j < nr) /\
  (forall k, e_col e = Some k -> let V := get_blk vmat0 (e_cq e) Vp in exists nr, dims (snd V) nr (fst V) /\ k < nr) /\
  (e_row e = None -> e_rq e = q0) /\ (e_col e = None -> e_cq e = q0).
Lemma vget_ok (V : vmat) k i nr : dims (snd V) nr (fst V) -> k < nr -> i < fst V -> vget V k i = Ok (entry (snd V) k i).
Proof.
  intros [D1 D2] Hk Hi. unfold vget, oget. rewrite (nth_error_nth' (snd V) []) by lia. cbn [obind]. rewrite (nth_error_nth' _ r0) by (rewrite D2; lia). reflexivity.
Qed.
Lemma olist_ok {X Y} (f : X -> outcome Y) (g : X -> Y) l : (forall x, In x l -> f x = Ok (g x)) -> olist f l = Ok (map g l).
Proof. induction l as [|x l IH]; intros H; [reflexivity|]. cbn. rewrite H by now left. cbn. rewrite IH by (intros; apply H; now right). reflexivity. Qed.
Lemma part_sum sh w (f : nat -> R) r : lsum (fun i => if Nat.eqb (i + sh) r then f i else r0) (seq 0 w) = part sh w f r.
Proof.
  unfold part. destruct (Nat.leb_spec sh r), (Nat.ltb_spec r (sh + w)); cbn [andb].
  - transitivity (lsum (fun i => if Nat.eqb (r - sh) i then f i else r0) (seq 0 w)).
    + apply lsum_ext. intros i _. destruct (Nat.eqb_spec (i + sh) r), (Nat.eqb_spec (r - sh) i); auto; lia.
    + apply (lsum_pick r0 r1 radd rmul SR Nat.eqb Nat.eqb_eq f); [apply seq_NoDup|]. apply in_seq. lia.
  - apply (lsum_zero r0 r1 radd rmul SR). intros i Hi. apply in_seq in Hi. destruct (Nat.eqb_spec (i + sh) r); auto; lia.
  - apply (lsum_zero r0 r1 radd rmul SR). intros i Hi. apply in_seq in Hi. destruct (Nat.eqb_spec (i + sh) r); auto; lia.
  - apply (lsum_zero r0 r1 radd rmul SR). intros i Hi. apply in_seq in Hi. destruct (Nat.eqb_spec (i + sh) r); auto; lia.
Qed.
Lemma lsum_prod {X Y} (f : X -> R) (g : Y -> R) l l' : lsum (fun p => f (fst p) * g (snd p)) (list_prod l l') = lsum f l * lsum g l'.
Proof.
  induction l as [|x l IH]; [cbn; unfold SvdMpoSum.lsum; cbn; ring|]. cbn [list_prod]. rewrite (lsum_app r0 r1 radd rmul SR), IH, lsum_map, lsum_cons. cbn [fst snd]. rewrite (lsum_mul_l r0 r1 radd rmul SR). ring.
Qed.
Notation rsz := (fun (V : list (Q * vmat)) (q : Q) => (shift q + fst (get_blk vmat0 q V))%nat).
Lemma contribs_spec Vn Vp e : elem_ok Vn Vp e ->
  exists l, contribs rmul conj q0 qeqb Vn Vp e = Ok l /\
    (forall x, In x l -> fst (fst x) < rsz Vn (e_rq e) /\ snd (fst x) < rsz Vp (e_cq e)) /\
    forall r c, lsum (fun x => if at_pos r c x then snd x else r0) l = e_coef e * (rowf Vn e r * colf Vp e c).
Proof.
  intros (H1 & H2 & H3 & H4). unfold contribs. fold (shift (e_rq e)). fold (shift (e_cq e)). unfold rowf, colf.
  destruct (e_row e) as [j|], (e_col e) as [k|].
  - destruct (H1 j eq_refl) as (nr & D & Hj). destruct (H2 k eq_refl) as (nc & D' & Hk). cbn zeta in *.
    set (V := get_blk vmat0 (e_rq e) Vn) in *. set (V' := get_blk vmat0 (e_cq e) Vp) in *. set (rs := shift (e_rq e)). set (cs := shift (e_cq e)).
    rewrite (olist_ok _ (fun rc : nat * nat => ((fst rc + rs)%nat, (snd rc + cs)%nat, e_coef e * conj (entry (snd V) j (fst rc)) * entry (snd V') k (snd rc)))).
    + eexists. split; [reflexivity|]. split.
      * intros x Hx. apply in_map_iff in Hx as ([a b] & <- & Hx). apply in_prod_iff in Hx as [Ha Hb]. apply in_seq in Ha, Hb. cbn [fst snd]. lia.
      * intros r c. rewrite lsum_map. cbn [fst snd]. rewrite <- !part_sum, <- lsum_prod, <- (lsum_mul_l r0 r1 radd rmul SR). apply lsum_ext. intros [a b] _. unfold at_pos. cbn [fst snd].
        destruct (Nat.eqb (a + rs) r), (Nat.eqb (b + cs) c); cbn [andb]; ring.
    + intros [a b] Hx. apply in_prod_iff in Hx as [Ha Hb]. apply in_seq in Ha, Hb. cbn [fst snd]. rewrite (vget_ok V j a nr), (vget_ok V' k b nc); auto; lia.
  - destruct (H1 j eq_refl) as (nr & D & Hj). cbn zeta in *. specialize (H4 eq_refl).
    set (V := get_blk vmat0 (e_rq e) Vn) in *. set (rs := shift (e_rq e)).
    rewrite (olist_ok _ (fun a : nat => ((a + rs)%nat, 0, e_coef e * conj (entry (snd V) j a)))).
    + eexists. split; [reflexivity|]. split.
      * intros x Hx. apply in_map_iff in Hx as (a & <- & Hx). apply in_seq in Hx. cbn [fst snd]. rewrite H4. unfold shift. rewrite (proj2 (qeqb_spec q0 q0) eq_refl). lia.
      * intros r c. rewrite lsum_map. cbn [fst snd]. rewrite <- !part_sum. destruct (Nat.eqb_spec c 0) as [->|Nc].
        -- rewrite <- (lsum_mul_r r0 r1 radd rmul SR), <- (lsum_mul_l r0 r1 radd rmul SR). apply lsum_ext. intros a _. unfold at_pos. cbn [fst snd]. destruct (Nat.eqb (a + rs) r); cbn [andb Nat.eqb]; ring.
        -- rewrite (lsum_zero r0 r1 radd rmul SR); [ring|]. intros a _. unfold at_pos. cbn [fst snd]. destruct (Nat.eqb_spec 0 c); [lia|]. now rewrite andb_false_r.
    + intros a Ha. apply in_seq in Ha. rewrite (vget_ok V j a nr); auto; lia.
  - destruct (H2 k eq_refl) as (nc & D' & Hk). cbn zeta in *. specialize (H3 eq_refl).
    set (V' := get_blk vmat0 (e_cq e) Vp) in *. set (cs := shift (e_cq e)).
    rewrite (olist_ok _ (fun b : nat => (1, (b + cs)%nat, e_coef e * entry (snd V') k b))).
    + eexists. split; [reflexivity|]. split.
      * intros x Hx. apply in_map_iff in Hx as (a & <- & Hx). apply in_seq in Hx. cbn [fst snd]. rewrite H3. unfold shift. rewrite (proj2 (qeqb_spec q0 q0) eq_refl). lia.
      * intros r c. rewrite lsum_map. cbn [fst snd]. rewrite <- !part_sum. destruct (Nat.eqb_spec r 1) as [->|Nc].
        -- rewrite <- !(lsum_mul_l r0 r1 radd rmul SR). apply lsum_ext. intros a _. unfold at_pos. cbn [fst snd]. destruct (Nat.eqb (a + cs) c); cbn [andb Nat.eqb]; ring.
        -- rewrite (lsum_zero r0 r1 radd rmul SR); [ring|]. intros a _. unfold at_pos. cbn [fst snd]. destruct (Nat.eqb_spec 1 r); [lia|]. reflexivity.
    + intros a Ha. apply in_seq in Ha. rewrite (vget_ok V' k a nc); auto; lia.
  - specialize (H3 eq_refl). specialize (H4 eq_refl). eexists. split; [reflexivity|]. split.
    + intros x [<-|[]]. cbn [fst snd]. rewrite H3, H4. unfold shift. rewrite (proj2 (qeqb_spec q0 q0) eq_refl). lia.
    + intros r c. unfold SvdMpoSum.lsum, at_pos. cbn [map fold_right fst snd]. destruct (Nat.eqb_spec r 1), (Nat.eqb_spec c 0), (Nat.eqb_spec 1 r), (Nat.eqb_spec 0 c); cbn [andb]; try lia; ring.
Qed.

(** *** The pieces of a site *)
Notation piece := (list ((Q * prod) * list (list R))).
Definition piece_dims (Vn Vp : list (Q * vmat)) (fm : piece) : Prop :=
  forall k M, In (k, M) fm -> dims M (rsz Vn (fst k)) (rsz Vp (qadd (fst k) (calcQN (snd k)))).
Definition size_ok (V : list (Q * vmat)) (q : Q) : Prop := blockSize (link_of V) q = Ok (rsz V q).
Definition keys_ok (Vn Vp : list (Q * vmat)) (fm : piece) : Prop :=
  forall k M, In (k, M) fm -> size_ok Vn (fst k) /\ size_ok Vp (qadd (fst k) (calcQN (snd k))).
Lemma key_eqb_spec (a b : Q * prod) : key_eqb qeqb a b = true <-> a = b.
Proof.
  unfold key_eqb. rewrite andb_true_iff, qeqb_spec, prod_eqb_spec. destruct a, b; cbn. split; [intros [-> ->]; auto|intros H; injection H; auto].
Qed.
Lemma get_piece_in k (fm : piece) : get_piece qeqb k fm = [] \/ In (k, get_piece qeqb k fm) fm.
Proof.
  induction fm as [|[k' M] fm IH]; [now left|]. cbn [get_piece]. destruct (key_eqb qeqb k k') eqn:E.
  - apply key_eqb_spec in E. subst k'. right. now left.
  - destruct IH; [now left|right; now right].
Qed.
Lemma put_piece_in k M (fm : piece) k' M' : In (k', M') (put_piece qeqb k M fm) -> (k' = k /\ M' = M) \/ In (k', M') fm.
Proof.
  induction fm as [|[k1 M1] fm IH]; cbn [put_piece]; [intros [H|[]]; injection H; auto|]. destruct (key_eqb qeqb k k1) eqn:E.
  - apply key_eqb_spec in E. subst k1. intros [H|H]; [injection H; auto|right; now right].
  - intros [H|H]; [right; now left|]. destruct (IH H); auto. right; now right.
Qed.
Definition qmatch (q : Q) (p : prod) (s s' : Q * nat) : bool := (qeqb q (fst s) && qeqb (qadd q (calcQN p)) (fst s'))%bool.
Lemma went_cons n q p M (fm : piece) s s' : went n (((q, p), M) :: fm) s s' = (if qmatch q p s s' then entry M (snd s) (snd s') * val n p else r0) + went n fm s s'.
Proof. reflexivity. Qed.
Lemma entry_nil r c : entry [] r c = r0.
Proof. unfold SvdMpoSum.entry. destruct r, c; reflexivity. Qed.
Lemma went_put n q p M (fm : piece) z s s' : entry M (snd s) (snd s') = entry (get_piece qeqb (q, p) fm) (snd s) (snd s') + z ->
  went n (put_piece qeqb (q, p) M fm) s s' = went n fm s s' + (if qmatch q p s s' then z * val n p else r0).
Proof.
  induction fm as [|[[q1 p1] M1] fm IH]; intros H; cbn [get_piece put_piece] in *.
  - rewrite went_cons. rewrite entry_nil in H. rewrite H. unfold SvdMpoModel.went. cbn [map fold_right]. destruct (qmatch q p s s'); ring.
  - destruct (key_eqb qeqb (q, p) (q1, p1)) eqn:E.
    + apply key_eqb_spec in E. injection E as <- <-. rewrite !went_cons, H. destruct (qmatch q p s s'); ring.
    + rewrite !went_cons, (IH H). ring.
Qed.

Definition esum (n : nat) Vn Vp (s s' : Q * nat) (e : elem) : R :=
  if (qeqb (e_rq e) (fst s) && qeqb (e_cq e) (fst s'))%bool then e_coef e * (rowf Vn e (snd s) * colf Vp e (snd s')) * val n (e_ops e) else r0.
Definition elem_ok2 Vn Vp (e : elem) : Prop :=
  elem_ok Vn Vp e /\ tiny (e_coef e) = false /\ e_cq e = qadd (e_rq e) (calcQN (e_ops e)) /\ size_ok Vn (e_rq e) /\ size_ok Vp (e_cq e).
Lemma add_elems_spec n Vn Vp es : (forall e, In e es -> elem_ok2 Vn Vp e) -> forall fm, piece_dims Vn Vp fm -> keys_ok Vn Vp fm ->
  exists fm', add_elems r0 radd rmul conj tiny q0 qeqb (link_of Vn) (link_of Vp) Vn Vp es fm = Ok fm' /\ piece_dims Vn Vp fm' /\ keys_ok Vn Vp fm' /\
    forall s s', went n fm' s s' = went n fm s s' + lsum (esum n Vn Vp s s') es.
Proof.
  induction es as [|e es IH]; intros He fm PD KO.
  - exists fm. split; [reflexivity|]. split; auto. split; auto. intros. unfold SvdMpoSum.lsum. cbn. ring.
  - destruct (He e (or_introl eq_refl)) as (O1 & O2 & O3 & O4 & O5). cbn [add_elems]. rewrite O2. destruct (contribs_spec Vn Vp e O1) as (l & El & Bl & Sl).
    set (key := (e_rq e, e_ops e)).
    assert (HM : exists M, match get_piece qeqb key fm with
                  | [] => let! rm := blockSize (link_of Vn) (e_rq e) in let! cm := blockSize (link_of Vp) (e_cq e) in Ok (repeat (repeat r0 cm) rm)
                  | _ => Ok (get_piece qeqb key fm) end = Ok M /\ dims M (rsz Vn (e_rq e)) (rsz Vp (e_cq e)) /\ forall r c, entry M r c = entry (get_piece qeqb key fm) r c).
    { destruct (get_piece qeqb key fm) as [|row M] eqn:E.
      - unfold size_ok in O4, O5. rewrite O4. cbn [obind]. rewrite O5. cbn [obind]. eexists. split; [reflexivity|]. split; [apply dims_repeat|]. intros. now rewrite entry_repeat, entry_nil.
      - exists (row :: M). split; [reflexivity|]. split; auto. destruct (get_piece_in key fm) as [X|X]; [congruence|]. rewrite E in X. specialize (PD _ _ X). cbn [fst snd key] in PD. rewrite O3. exact PD. }
    destruct HM as (M & EM & DM & NM). rewrite EM. cbn [obind]. rewrite El. cbn [obind].
    destruct (madds_spec r0 r1 radd rmul SR l M _ _ DM Bl) as (M' & E' & D' & NM'). rewrite E'. cbn [obind].
    destruct (IH (fun e' H => He e' (or_intror H)) (put_piece qeqb key M' fm)) as (fm' & Ef & PD' & KO' & W).
    + intros k X HX. apply put_piece_in in HX as [[-> ->]|HX]; [cbn [fst snd key]; rewrite <- O3; exact D'|now apply PD].
    + intros k X HX. apply put_piece_in in HX as [[-> ->]|HX]; [cbn [fst snd key]; rewrite <- O3; auto|now apply (KO k X)].
    + exists fm'. split; [exact Ef|]. split; auto. split; auto. intros s s'. rewrite W. unfold key. rewrite (went_put n _ _ M' fm (e_coef e * (rowf Vn e (snd s) * colf Vp e (snd s')))).
      * rewrite lsum_cons. unfold esum at 2. unfold qmatch. rewrite <- O3. destruct (qeqb (e_rq e) (fst s) && qeqb (e_cq e) (fst s'))%bool; ring.
      * rewrite NM', NM, Sl. reflexivity.
Qed.

Context (opId : forall n, opq (ST "Id" n) = q0).
Lemma calcQN_Id n : calcQN [ST "Id" n] = q0.
Proof. unfold SvdMpoModel.calcQN. cbn. now rewrite opId, qid_l. Qed.
Lemma size_ok0 V : size_ok V q0.
Proof. unfold size_ok. rewrite blockSize_link0. unfold shift. now rewrite (proj2 (qeqb_spec q0 q0) eq_refl). Qed.
Lemma size_okk V q : In q (map fst V) -> size_ok V q.
Proof.
  intros H. destruct (qeqb q q0) eqn:E; [apply qeqb_spec in E; subst; apply size_ok0|]. unfold size_ok. assert (q <> q0) by (intros ->; rewrite (proj2 (qeqb_spec q0 q0) eq_refl) in E; discriminate).
  rewrite blockSize_link by auto. unfold shift. now rewrite E.
Qed.
Definition idsum (n : nat) (s s' : Q * nat) : R :=
  if (qeqb q0 (fst s) && qeqb q0 (fst s') && Nat.eqb (snd s) (snd s') && Nat.ltb (snd s) 2)%bool then val n [ST "Id"%string n] else r0.
Lemma site_piece_spec n Vn Vp es : (forall e, In e es -> elem_ok2 Vn Vp e) ->
  exists fm, site_piece r0 r1 radd rmul conj tiny q0 qeqb n (link_of Vn) (link_of Vp) Vn Vp es = Ok fm /\
    olist (fun e => piece_ok q0 qadd qeqb opq (link_of Vn) (link_of Vp) (fst e)) fm = Ok (map (fun _ => tt) fm) /\
    forall s s', went n fm s s' = idsum n s s' + lsum (esum n Vn Vp s s') es.
Proof.
  intros He. unfold site_piece. pose proof (size_ok0 Vn) as S1. pose proof (size_ok0 Vp) as S2. unfold size_ok in S1, S2. rewrite S1. cbn [obind]. rewrite S2. cbn [obind].
  destruct (madds_spec r0 r1 radd rmul SR [(0, 0, r1); (1, 1, r1)] _ _ _ (dims_repeat r0 (rsz Vn q0) (rsz Vp q0))) as (M & EM & DM & NM).
  { assert (2 <= rsz Vn q0 /\ 2 <= rsz Vp q0) by (unfold shift; rewrite (proj2 (qeqb_spec q0 q0) eq_refl); lia).
    intros e [<-|[<-|[]]]; cbn [fst snd]; cbv beta in *; lia. }
  rewrite EM. cbn [obind].
  destruct (add_elems_spec n Vn Vp es He [((q0, [ST "Id"%string n]), M)]) as (fm & E & PD & KO & W).
  - intros k X [H|[]]. injection H as <- <-. cbn [fst snd]. rewrite calcQN_Id, qid_l. exact DM.
  - intros k X [H|[]]. injection H as <- <-. cbn [fst snd]. rewrite calcQN_Id, qid_l. split; apply size_ok0.
  - exists fm. split; [exact E|]. split.
    + apply olist_ok. intros [k X] H. cbn [fst]. destruct (KO k X H) as [K1 K2]. unfold piece_ok. unfold size_ok in K1, K2. rewrite K1. cbn [obind]. rewrite K2. reflexivity.
    + intros s s'. rewrite W, went_cons. unfold qmatch, idsum. rewrite calcQN_Id, qid_l, NM, entry_repeat. unfold SvdMpoModel.went, at_pos, SvdMpoSum.lsum. cbn [map fold_right fst snd].
      destruct (qeqb q0 (fst s)), (qeqb q0 (fst s')); cbn [andb]; try ring.
      destruct (snd s) as [|[|k]], (snd s') as [|[|k']]; cbn [Nat.eqb andb Nat.ltb Nat.leb]; try ring. destruct (Nat.eqb k k'); cbn [andb]; ring.
Qed.
(** One step of the sweep, with the sum over the left link done. *)
Definition gsum Vn (v : Q * nat -> R) (e : elem) : R :=
  match e_row e with
  | None => v (q0, 1)
  | Some j => let V := get_blk vmat0 (e_rq e) Vn in lsum (fun i => v (e_rq e, (i + shift (e_rq e))%nat) * conj (entry (snd V) j i)) (seq 0 (fst V))
  end.
Lemma rowf_sum Vn Vp (v : Q * nat -> R) e : elem_ok Vn Vp e -> lsum (fun r => v (e_rq e, r) * rowf Vn e r) (seq 0 (rsz Vn (e_rq e))) = gsum Vn v e.
Proof.
  intros (H1 & _ & H3 & _). unfold rowf, gsum. destruct (e_row e) as [j|].
  - cbn zeta. set (V := get_blk vmat0 (e_rq e) Vn). set (sh := shift (e_rq e)).
    transitivity (lsum (fun r => lsum (fun i => if Nat.eqb (i + sh) r then v (e_rq e, (i + sh)%nat) * conj (entry (snd V) j i) else r0) (seq 0 (fst V))) (seq 0 (sh + fst V))).
    + apply lsum_ext. intros r _. rewrite <- part_sum, <- (lsum_mul_l r0 r1 radd rmul SR). apply lsum_ext. intros i _. destruct (Nat.eqb_spec (i + sh) r) as [<-|]; ring.
    + rewrite (lsum_swap r0 r1 radd rmul SR). apply lsum_ext. intros i Hi. apply in_seq in Hi.
      apply (lsum_pick r0 r1 radd rmul SR Nat.eqb Nat.eqb_eq (fun _ => v (e_rq e, (i + sh)%nat) * conj (entry (snd V) j i))); [apply seq_NoDup|]. apply in_seq. lia.
  - rewrite (H3 eq_refl). transitivity (lsum (fun r => if Nat.eqb 1 r then v (q0, r) else r0) (seq 0 (rsz Vn q0))).
    + apply lsum_ext. intros r _. rewrite Nat.eqb_sym. destruct (Nat.eqb 1 r); ring.
    + apply (lsum_pick r0 r1 radd rmul SR Nat.eqb Nat.eqb_eq (fun r => v (q0, r))); [apply seq_NoDup|]. apply in_seq. unfold shift. rewrite (proj2 (qeqb_spec q0 q0) eq_refl). lia.
Qed.
Lemma step_sum n Vn Vp es (v : Q * nat -> R) fm s' : (forall e, In e es -> elem_ok2 Vn Vp e) -> NoDup (map fst Vn) ->
  (forall s s', went n fm s s' = idsum n s s' + lsum (esum n Vn Vp s s') es) ->
  fold_right radd r0 (map (fun s => v s * went n fm s s') (states (link_of Vn))) =
  (if (qeqb q0 (fst s') && Nat.ltb (snd s') 2)%bool then v (q0, snd s') * val n [ST "Id"%string n] else r0) +
  lsum (fun e => if qeqb (e_cq e) (fst s') then (e_coef e * gsum Vn v e) * (val n (e_ops e) * colf Vp e (snd s')) else r0) es.
Proof.
  intros He ND W. change (fold_right radd r0 (map (fun s => v s * went n fm s s') (states (link_of Vn)))) with (lsum (fun s => v s * went n fm s s') (states (link_of Vn))).
  transitivity (lsum (fun s => v s * idsum n s s') (states (link_of Vn)) + lsum (fun s => lsum (fun e => v s * esum n Vn Vp s s' e) es) (states (link_of Vn))).
  { rewrite <- (lsum_add r0 r1 radd rmul SR). apply lsum_ext. intros s _. rewrite W, (lsum_mul_l r0 r1 radd rmul SR). ring. }
  pose proof (link_keys Vn ND) as NK. f_equal.
  - transitivity (lsum (fun s : Q * nat => if qeqb q0 (fst s) then (fun r => v (q0, r) * (if (qeqb q0 (fst s') && Nat.eqb r (snd s') && Nat.ltb r 2)%bool then val n [ST "Id"%string n] else r0)) (snd s) else r0) (states (link_of Vn))).
    + apply lsum_ext. intros [q r] _. cbn [fst snd]. unfold idsum. cbn [fst snd]. destruct (qeqb q0 q) eqn:E; cbn [andb]; [|ring]. apply qeqb_spec in E. now subst q.
    + etransitivity; [exact (states_sum _ q0 (rsz Vn q0) (fun r => v (q0, r) * (if (qeqb q0 (fst s') && Nat.eqb r (snd s') && Nat.ltb r 2)%bool then val n [ST "Id"%string n] else r0)) NK (size_ok0 Vn))|]. destruct (qeqb q0 (fst s')); cbn [andb]; [|apply (lsum_zero r0 r1 radd rmul SR); intros; ring].
      destruct (Nat.ltb_spec (snd s') 2).
      * transitivity (lsum (fun r => if Nat.eqb (snd s') r then v (q0, r) * val n [ST "Id"%string n] else r0) (seq 0 (rsz Vn q0))).
        -- apply lsum_ext. intros r _. rewrite (Nat.eqb_sym r). destruct (Nat.eqb_spec (snd s') r) as [<-|]; cbn [andb]; [|ring]. destruct (Nat.ltb_spec (snd s') 2); [ring|lia].
        -- apply (lsum_pick r0 r1 radd rmul SR Nat.eqb Nat.eqb_eq (fun r => v (q0, r) * val n [ST "Id"%string n])); [apply seq_NoDup|]. apply in_seq. unfold shift. rewrite (proj2 (qeqb_spec q0 q0) eq_refl). lia.
      * apply (lsum_zero r0 r1 radd rmul SR). intros r _. destruct (Nat.eqb_spec r (snd s')); cbn [andb]; [|ring]. destruct (Nat.ltb_spec r 2); [lia|ring].
  - rewrite (lsum_swap r0 r1 radd rmul SR). apply lsum_ext. intros e Hin. destruct (He e Hin) as (O1 & O2 & O3 & O4 & O5).
    unfold esum. destruct (qeqb (e_cq e) (fst s')).
    + transitivity (lsum (fun s : Q * nat => if qeqb (e_rq e) (fst s) then (fun r => v (e_rq e, r) * rowf Vn e r * (e_coef e * (val n (e_ops e) * colf Vp e (snd s')))) (snd s) else r0) (states (link_of Vn))).
      * apply lsum_ext. intros [q r] _. cbn [fst snd]. destruct (qeqb (e_rq e) q) eqn:E; cbn [andb]; [|ring]. apply qeqb_spec in E. subst q. ring.
      * etransitivity; [exact (states_sum _ (e_rq e) (rsz Vn (e_rq e)) (fun r => v (e_rq e, r) * rowf Vn e r * (e_coef e * (val n (e_ops e) * colf Vp e (snd s')))) NK O4)|]. rewrite (lsum_mul_r r0 r1 radd rmul SR), (rowf_sum Vn Vp v e O1). ring.
    + apply (lsum_zero r0 r1 radd rmul SR). intros s _. rewrite andb_false_r. ring.
Qed.
End Sweep.
