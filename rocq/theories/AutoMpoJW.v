From Coq Require Import List Arith Bool String Lia ZArith Sorted Eqdep_dec.
From Verif Require Import Util AutoMpoModel AutoMpoSpec AutoMpoProofs SiteOpsModel.
Import ListNotations.

Lemma span_until_spec : forall p l a b, span_until p l = (a, b) ->
  l = a ++ b /\ (forall t, In t a -> p t = false) /\ (forall t b', b = t :: b' -> p t = true).
Proof.
  induction l as [|t l IH]; intros a b E; cbn in E.
  - injection E as <- <-. repeat split; [easy|discriminate].
  - destruct (p t) eqn:P.
    + injection E as <- <-. repeat split; [easy|]. intros u b' Q. injection Q as <- _. exact P.
    + destruct (span_until p l) as [x y] eqn:E2. injection E as <- <-. destruct (IH _ _ eq_refl) as [H1 [H2 H3]].
      subst l. repeat split; [|exact H3]. intros u [<-|Hu]; [exact P|now apply H2].
Qed.

Lemma decompose_spec : forall n ops l o r, StronglySorted sle ops -> decomposeTerm n ops = (l, o, r) ->
  ops = l ++ o ++ r /\ (forall t, In t l -> st_i t < n) /\ (forall t, In t o -> st_i t = n) /\ (forall t, In t r -> n < st_i t).
Proof.
  intros n ops l o r S E. unfold decomposeTerm in E.
  destruct (span_until (fun t => Nat.leb n (st_i t)) ops) as [l' rest] eqn:E1.
  destruct (span_until (fun t => Nat.ltb n (st_i t)) rest) as [o' r'] eqn:E2. injection E as <- <- <-.
  destruct (span_until_spec _ _ _ _ E1) as [A1 [A2 A3]]. destruct (span_until_spec _ _ _ _ E2) as [B1 [B2 B3]].
  subst rest ops. destruct (sorted_app_inv _ _ S) as [_ [S2 _]]. destruct (sorted_app_inv _ _ S2) as [_ [S3 _]].
  repeat split.
  - intros t Ht. specialize (A2 _ Ht). cbn in A2. now apply Nat.leb_gt in A2.
  - intros t Ht. specialize (B2 _ Ht). cbn beta in B2. apply Nat.ltb_ge in B2.
    destruct o' as [|u o']; [easy|]. specialize (A3 u (o' ++ r') eq_refl). cbn beta in A3. apply Nat.leb_le in A3.
    inversion S2 as [|? ? _ F]; subst. destruct Ht as [->|Ht]; [lia|]. rewrite Forall_forall in F.
    specialize (F t (in_or_app _ _ _ (or_introl Ht))). unfold sle in F. lia.
  - intros t Ht. destruct r' as [|u r']; [easy|]. specialize (B3 u r' eq_refl). cbn beta in B3. apply Nat.ltb_lt in B3.
    inversion S3 as [|? ? _ F]; subst. destruct Ht as [->|Ht]; [lia|]. rewrite Forall_forall in F.
    specialize (F t Ht). unfold sle in F. lia.
Qed.

Lemma ferm_rewrite_isF : forall op, rewrite_tab
  [("Cdagup", "Adagup"); ("Cup", "Aup"); ("Cdagdn", "Adagdn*Fup"); ("Cdn", "Adn*Fup"); ("C", "A"); ("Cdag", "Adag")]%string op = fermionicTerm op.
Proof. reflexivity. Qed.

Section JWP.
Context {L : Type} (lone : L) (lmul : L -> L -> L).
Context (assoc : forall x y z, lmul x (lmul y z) = lmul (lmul x y) z).
Context (one_l : forall x, lmul lone x = x) (one_r : forall x, lmul x lone = x).
Context (loc : nat -> string -> L).
Context (FF : forall n, lmul (loc n "F"%string) (loc n "F"%string) = lone).
Context (ID : forall n, loc n "Id"%string = lone).
Context (RW : forall n s, loc n (fermionicTerm s) = loc n s).

Definition lprod (l : list L) : L := fold_right lmul lone l.
Lemma lprod_app : forall a b, lprod (a ++ b) = lmul (lprod a) (lprod b).
Proof. induction a as [|x a IH]; intros b; cbn; [now rewrite one_l|]. rewrite IH. apply assoc. Qed.

Notation image := (jw_image lone lmul loc).
Lemma image_app : forall a b n, image (a ++ b) n = lmul (image a n) (image b n).
Proof. intros. unfold jw_image. rewrite map_app. apply lprod_app. Qed.
Lemma image_left : forall l n, (forall t, In t l -> st_i t < n) -> image l n = lone.
Proof.
  intros l n H. unfold jw_image. induction l as [|t l IH]; [reflexivity|]. cbn.
  rewrite IH by (intros; apply H; now right). rewrite one_r. specialize (H t (or_introl eq_refl)).
  unfold jw_local. destruct (Nat.eqb_spec n (st_i t)), (Nat.ltb_spec n (st_i t)); try lia. reflexivity.
Qed.
Lemma image_onsite : forall l n, (forall t, In t l -> st_i t = n) -> image l n = lprod (map (fun t => loc n (st_op t)) l).
Proof.
  intros l n H. unfold jw_image. induction l as [|t l IH]; [reflexivity|]. cbn.
  rewrite IH by (intros; apply H; now right). f_equal. specialize (H t (or_introl eq_refl)).
  unfold jw_local. destruct (Nat.eqb_spec n (st_i t)); [reflexivity|lia].
Qed.
Lemma image_right : forall l n, (forall t, In t l -> n < st_i t) -> image l n = if par l then loc n "F"%string else lone.
Proof.
  intros l n H. unfold jw_image. induction l as [|t l IH]; [reflexivity|]. cbn.
  rewrite IH by (intros; apply H; now right). specialize (H t (or_introl eq_refl)).
  unfold jw_local. destruct (Nat.eqb_spec n (st_i t)), (Nat.ltb_spec n (st_i t)); try lia. cbn [andb].
  destruct (fermionic t), (par l); cbn; rewrite ?FF, ?one_l, ?one_r; reflexivity.
Qed.

Lemma siteProd_image : forall ops n, StronglySorted sle ops -> Nat.even (nfermi ops) = true ->
  exists p, siteProd ops n = Ok p /\ (forall t, In t p -> st_i t = n) /\ p <> [] /\
    lprod (map (fun t => loc n (st_op t)) p) = image ops n.
Proof.
  intros ops n S EV. unfold siteProd. destruct (decomposeTerm n ops) as [[l o] r] eqn:E.
  destruct (decompose_spec _ _ _ _ _ S E) as [H1 [H2 [H3 H4]]].
  assert (PR : par r = xorb (par l) (par o)).
  { rewrite <- Nat.negb_odd, <- par_nfermi in EV. rewrite H1, !par_app in EV.
    destruct (par l), (par o), (par r); cbn in *; congruence. }
  rewrite H1, !image_app, (image_left l n H2), (image_onsite o n H3), (image_right r n H4), one_l, PR.
  rewrite isFp_par. destruct o as [|o0 o].
  - cbn [par]. eexists. split; [reflexivity|]. cbn [map lprod fold_right st_op st_i]. rewrite one_r, one_l.
    split; [intros t [<-|[]]; reflexivity|]. split; [discriminate|].
    rewrite xorb_false_r. destruct (par l); [reflexivity|apply ID].
  - unfold rewriteFermionic.
    replace (existsb (fun t => negb (Nat.eqb (st_i t) (st_i o0))) (o0 :: o)) with false.
    2:{ symmetry. apply not_true_is_false. intros X. apply existsb_exists in X. destruct X as [t [Ht X]].
        rewrite (H3 t Ht), (H3 o0 (or_introl eq_refl)), Nat.eqb_refl in X. discriminate. }
    rewrite isFp_par. set (oo := o0 :: o) in *.
    set (p1 := if par oo then map (fun t => if isF t then ST (fermionicTerm (st_op t)) (st_i t) else t) oo else oo).
    assert (P1 : map (fun t => loc n (st_op t)) p1 = map (fun t => loc n (st_op t)) oo).
    { unfold p1. destruct (par oo); [|reflexivity]. rewrite map_map. apply map_ext. intros t.
      destruct (isF t); [cbn [st_op]; apply RW|reflexivity]. }
    assert (P2 : forall t, In t p1 -> st_i t = n).
    { unfold p1. destruct (par oo); [|exact H3]. intros t Ht. apply in_map_iff in Ht. destruct Ht as [u [<- Hu]].
      destruct (isF u); cbn [st_i]; now apply H3. }
    assert (P3 : p1 <> []) by (unfold p1, oo; destruct (par (o0 :: o)); discriminate).
    eexists. split; [reflexivity|].
    replace (par l && negb (par oo) || negb (par l) && par oo) with (xorb (par l) (par oo)) by (destruct (par l), (par oo); reflexivity).
    destruct (xorb (par l) (par oo)).
    + split; [|split].
      * intros t Ht. apply in_app_or in Ht. destruct Ht as [Ht|[<-|[]]]; [now apply P2|]. cbn. apply H3. now left.
      * destruct p1; discriminate.
      * rewrite map_app, lprod_app, P1. cbn. now rewrite one_r.
    + split; [exact P2|]. split; [exact P3|]. rewrite P1. now rewrite one_r.
Qed.

Lemma image_outside : forall ops n, Nat.even (nfermi ops) = true ->
  ((forall t, In t ops -> st_i t < n) \/ (forall t, In t ops -> n < st_i t)) -> image ops n = lone.
Proof.
  intros ops n EV [H|H]; [now apply image_left|]. rewrite image_right by exact H.
  rewrite <- Nat.negb_odd, <- par_nfermi in EV. now destruct (par ops).
Qed.
End JWP.

(** *** square integer matrices of fixed shape *)
Definition shape (d : nat) (m : mat) : bool := Nat.eqb (List.length m) d && forallb (fun r => Nat.eqb (List.length r) d) m.
Definition L (d : nat) := { m : mat | shape d m = true }.
Lemma L_eq : forall d (a b : L d), proj1_sig a = proj1_sig b -> a = b.
Proof.
  intros d [a pa] [b pb] H. cbn in H. subst b. f_equal. apply UIP_dec. apply bool_dec.
Qed.
Lemma shape_table : forall d (f : nat -> nat -> Z), shape d (map (fun r => map (f r) (seq 0 d)) (seq 0 d)) = true.
Proof.
  intros d f. unfold shape. rewrite map_length, seq_length, Nat.eqb_refl. cbn [andb]. apply forallb_forall.
  intros x Hx. apply in_map_iff in Hx. destruct Hx as [r [<- _]]. rewrite map_length, seq_length. apply Nat.eqb_refl.
Qed.
Definition lmk {d} (m : mat) : L d :=
  match bool_dec (shape d m) true with
  | left p => exist _ m p
  | right _ => exist _ (mid d) (shape_table d _)
  end.
Definition l1 {d} : L d := exist _ (mid d) (shape_table d _).
Definition lm {d} (a b : L d) : L d := exist _ (mmul d (proj1_sig a) (proj1_sig b)) (shape_table d _).
(** operator of the site set as a matrix; names it does not know give the identity here *)
Definition lop {d} (t : optable) (s : string) : L d :=
  match site_op (String.length s) d t s with Ok m => lmk m | _ => l1 end.

Ltac meq := repeat (match goal with |- _ :: _ = _ :: _ => apply f_equal2 | |- [] = [] => reflexivity end); ring.

Lemma shape4 : forall m, shape 4 m = true -> exists a b c d e f g h i j k l n o p q,
  m = [[a;b;c;d];[e;f;g;h];[i;j;k;l];[n;o;p;q]].
Proof.
  intros m H. unfold shape in H. apply andb_true_iff in H. destruct H as [H1 H2]. apply Nat.eqb_eq in H1.
  destruct m as [|x0 [|x1 [|x2 [|x3 [|]]]]]; try discriminate. cbn in H2.
  repeat (apply andb_true_iff in H2; destruct H2 as [?H H2]). apply Nat.eqb_eq in H, H0, H3, H4.
  destruct x0 as [|? [|? [|? [|? [|]]]]]; try discriminate. destruct x1 as [|? [|? [|? [|? [|]]]]]; try discriminate.
  destruct x2 as [|? [|? [|? [|? [|]]]]]; try discriminate. destruct x3 as [|? [|? [|? [|? [|]]]]]; try discriminate.
  repeat eexists.
Qed.
Lemma shape2 : forall m, shape 2 m = true -> exists a b c d, m = [[a;b];[c;d]].
Proof.
  intros m H. unfold shape in H. apply andb_true_iff in H. destruct H as [H1 H2]. apply Nat.eqb_eq in H1.
  destruct m as [|x0 [|x1 [|]]]; try discriminate. cbn in H2.
  repeat (apply andb_true_iff in H2; destruct H2 as [?H H2]). apply Nat.eqb_eq in H, H0.
  destruct x0 as [|? [|? [|]]]; try discriminate. destruct x1 as [|? [|? [|]]]; try discriminate.
  repeat eexists.
Qed.

Lemma lm4_assoc : forall x y z : L 4, lm x (lm y z) = lm (lm x y) z.
Proof.
  intros [x px] [y py] [z pz]. apply L_eq. cbn [proj1_sig lm].
  apply shape4 in px, py, pz. do 16 destruct px as [? px]. do 16 destruct py as [? py]. do 16 destruct pz as [? pz]. subst.
  cbv [mmul mget map seq nth fold_left]. meq.
Qed.
Lemma lm4_one_l : forall x : L 4, lm l1 x = x.
Proof.
  intros [x px]. apply L_eq. cbn [proj1_sig lm l1]. apply shape4 in px. do 16 destruct px as [? px]. subst.
  cbn -[Z.mul Z.add]. meq.
Qed.
Lemma lm4_one_r : forall x : L 4, lm x l1 = x.
Proof.
  intros [x px]. apply L_eq. cbn [proj1_sig lm l1]. apply shape4 in px. do 16 destruct px as [? px]. subst.
  cbn -[Z.mul Z.add]. meq.
Qed.
Lemma lm2_assoc : forall x y z : L 2, lm x (lm y z) = lm (lm x y) z.
Proof.
  intros [x px] [y py] [z pz]. apply L_eq. cbn [proj1_sig lm].
  apply shape2 in px, py, pz. do 4 destruct px as [? px]. do 4 destruct py as [? py]. do 4 destruct pz as [? pz]. subst.
  cbv [mmul mget map seq nth fold_left]. meq.
Qed.
Lemma lm2_one_l : forall x : L 2, lm l1 x = x.
Proof.
  intros [x px]. apply L_eq. cbn [proj1_sig lm l1]. apply shape2 in px. do 4 destruct px as [? px]. subst.
  cbn -[Z.mul Z.add]. meq.
Qed.
Lemma lm2_one_r : forall x : L 2, lm x l1 = x.
Proof.
  intros [x px]. apply L_eq. cbn [proj1_sig lm l1]. apply shape2 in px. do 4 destruct px as [? px]. subst.
  cbn -[Z.mul Z.add]. meq.
Qed.

Lemma rewrite_tab_all : forall {X} (f : string -> X) tab, (forall p, In p tab -> f (snd p) = f (fst p)) ->
  forall s, f (rewrite_tab tab s) = f s.
Proof.
  intros X f tab H s. induction tab as [|[a b] tab IH]; [reflexivity|]. cbn.
  destruct (String.eqb_spec a s) as [->|_]; [apply (H (s, b)); now left|]. apply IH. intros; apply H; now right.
Qed.
Lemma electron_RW : forall s, @lop 4 electron_ops (fermionicTerm s) = lop electron_ops s.
Proof.
  apply rewrite_tab_all. intros p Hp. apply L_eq. repeat (destruct Hp as [<-|Hp]; [vm_compute; reflexivity|]). easy.
Qed.
Lemma fermion_RW : forall s, @lop 2 fermion_ops (fermionicTerm s) = lop fermion_ops s.
Proof.
  apply rewrite_tab_all. intros p Hp. apply L_eq. repeat (destruct Hp as [<-|Hp]; [vm_compute; reflexivity|]). easy.
Qed.
