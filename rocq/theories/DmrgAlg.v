(** A two-site tensor in the middle of an orthogonal chain: inner products and matrix
    elements of the tensor are those of the whole state. *)
From Coq Require Import ZArith List Bool Arith Lia Ring.
From Verif Require Import Util BigSum MpsModel MpsTensor MpsSpec MpsProofs LocalModel LocalSpec LocalTensor LocalMeaning LocalSem.
Import ListNotations.

Section Alg.
Context {R : Type} (r0 r1 : R) (radd rmul rsub : R -> R -> R) (ropp : R -> R) (conj : R -> R).
Context (RT : ring_theory r0 r1 radd rmul rsub ropp eq).
Hypothesis conj0 : conj r0 = r0.
Hypothesis conj1 : conj r1 = r1.
Hypothesis conj_add : forall x y, conj (radd x y) = radd (conj x) (conj y).
Hypothesis conj_mul : forall x y, conj (rmul x y) = rmul (conj x) (conj y).
Hypothesis conj_conj : forall x, conj (conj x) = x.
Add Ring RRdm : RT.
Notation tensor := (@tensor R).
Notation wten := (wten R).
Notation bsum := (bsum r0 radd).
Notation csum := (csum r0 radd).
Notation lsum := (lsum r0 radd).
Notation chain := (chain r0 r1 radd rmul).
Notation delta := (delta r0 r1).
Notation wchain := (wchain r0 r1 radd rmul).
Notation insert := (insert r0 r1 radd rmul).
Notation matrix_element := (matrix_element r0 r1 radd rmul conj).
Notation energy := (energy r0 r1 radd rmul conj).
Notation "x + y" := (radd x y). Notation "x * y" := (rmul x y).

(** dag(u)*v for tensors with a left link, sites and a right link. *)
Definition tdot (dl : nat) (ps : list nat) (dr : nat) (u v : nat -> list nat -> nat -> R) : R :=
  bsum dl (fun a => csum ps (fun c => bsum dr (fun b => conj (u a c b) * v a c b))).

Notation bl := (bsum_lsum r0 r1 radd rmul rsub ropp RT).
Notation cl := (csum_lsum r0 r1 radd rmul rsub ropp RT).

Lemma lsum_scale {A} (l : list A) k f : lsum l (fun x => k * f x) = k * lsum l f.
Proof. induction l as [|x l IH]; cbn [LocalSem.lsum]; [ring|]. rewrite IH. ring. Qed.

Lemma lsum_conj' {A} (l : list A) f : conj (lsum l f) = lsum l (fun x => conj (f x)).
Proof. apply (lsum_conj r0 radd conj conj0 conj_add). Qed.

Lemma lsum_delta n i (f : nat -> R) : (i < n)%nat -> lsum (seq 0 n) (fun j => delta i j * f j) = f i.
Proof. intros H. rewrite <- bl. now apply (bsum_delta r0 r1 radd rmul rsub ropp RT). Qed.

(** The chains on both sides are isometries, so that the inner product of two states that
    differ in the middle only is the inner product of the middles. *)
Lemma insert_dot tsL tsR dl dr ps chi phi :
  linked 1 tsL dl -> linked dr tsR 1 ->
  Forall (left_orth r0 r1 radd rmul conj) tsL -> Forall (right_orth r0 r1 radd rmul conj) tsR ->
  csum (sites tsL) (fun cL => csum ps (fun c => csum (sites tsR) (fun cR =>
    conj (insert tsL tsR dl dr chi cL c cR) * insert tsL tsR dl dr phi cL c cR)))
  = tdot dl ps dr chi phi.
Proof.
  intros LL LR OL OR.
  set (GL := fun a a' => csum (sites tsL) (fun g => conj (chain tsL g 0 a) * chain tsL g 0 a')).
  set (GR := fun b b' => csum (sites tsR) (fun g => conj (chain tsR g b 0) * chain tsR g b' 0)).
  assert (HL : forall a a', a < dl -> a' < dl -> GL a a' = delta a a').
  { intros a a' Ha Ha'. pose proof (left_chain r0 r1 radd rmul rsub ropp conj RT conj_add conj_mul conj0 conj1 tsL 1 dl a a' LL OL Ha Ha') as Q.
    rewrite (bsum_1 r0 r1 radd rmul rsub ropp RT) in Q. exact Q. }
  assert (HR : forall b b', b < dr -> b' < dr -> GR b b' = delta b b').
  { intros b b' Hb Hb'. pose proof (right_chain r0 r1 radd rmul rsub ropp conj RT conj_add conj_mul conj0 conj1 tsR dr 1 b b' LR OR Hb Hb') as Q.
    rewrite (bsum_1 r0 r1 radd rmul rsub ropp RT) in Q. exact Q. }
  transitivity (lsum (confs ps) (fun c => lsum (seq 0 dl) (fun a => lsum (seq 0 dr) (fun b => lsum (seq 0 dl) (fun a' => lsum (seq 0 dr) (fun b' =>
    conj (chi a c b) * phi a' c b' * GL a a' * GR b b')))))).
  - unfold GL, GR, LocalMeaning.insert.
    transitivity (lsum (confs (sites tsL)) (fun cL => lsum (confs ps) (fun c => lsum (confs (sites tsR)) (fun cR =>
      lsum (seq 0 dl) (fun a => lsum (seq 0 dr) (fun b => lsum (seq 0 dl) (fun a' => lsum (seq 0 dr) (fun b' =>
        conj (chi a c b) * phi a' c b' * (conj (chain tsL cL 0 a) * chain tsL cL 0 a') * (conj (chain tsR cR b 0) * chain tsR cR b' 0))))))))).
    + rewrite cl. apply lsum_ext. intros cL _. rewrite cl. apply lsum_ext. intros c _. rewrite cl. apply lsum_ext. intros cR _.
      rewrite !bl, lsum_conj', (lsum_mul_r r0 r1 radd rmul rsub ropp RT). apply lsum_ext. intros a _.
      rewrite bl, lsum_conj', (lsum_mul_r r0 r1 radd rmul rsub ropp RT). apply lsum_ext. intros b _.
      rewrite (lsum_mul_l r0 r1 radd rmul rsub ropp RT). apply lsum_ext. intros a' _.
      rewrite bl, (lsum_mul_l r0 r1 radd rmul rsub ropp RT). apply lsum_ext. intros b' _. rewrite !conj_mul. ring.
    + rewrite (lsum_swap r0 r1 radd rmul rsub ropp RT). apply lsum_ext. intros c _.
      etransitivity; [apply lsum_ext; intros; apply (lsum_swap r0 r1 radd rmul rsub ropp RT)|].
      rewrite (lsum_swap r0 r1 radd rmul rsub ropp RT). apply lsum_ext. intros a _.
      etransitivity; [apply lsum_ext; intros; apply (lsum_swap r0 r1 radd rmul rsub ropp RT)|].
      rewrite (lsum_swap r0 r1 radd rmul rsub ropp RT). apply lsum_ext. intros b _.
      etransitivity; [apply lsum_ext; intros; apply (lsum_swap r0 r1 radd rmul rsub ropp RT)|].
      rewrite (lsum_swap r0 r1 radd rmul rsub ropp RT). apply lsum_ext. intros a' _.
      etransitivity; [apply lsum_ext; intros; apply (lsum_swap r0 r1 radd rmul rsub ropp RT)|].
      rewrite (lsum_swap r0 r1 radd rmul rsub ropp RT). apply lsum_ext. intros b' _.
      rewrite !cl.
      transitivity (lsum (confs (sites tsL)) (fun cL => (conj (chi a c b) * phi a' c b') * (conj (chain tsL cL 0 a) * chain tsL cL 0 a') *
         lsum (confs (sites tsR)) (fun cR => conj (chain tsR cR b 0) * chain tsR cR b' 0))).
      { apply lsum_ext. intros cL _. rewrite <- lsum_scale. reflexivity. }
      set (y := lsum (confs (sites tsR)) _). rewrite (lsum_mul_l r0 r1 radd rmul rsub ropp RT), (lsum_mul_r r0 r1 radd rmul rsub ropp RT). reflexivity.
  - unfold tdot. rewrite bl. rewrite (lsum_swap r0 r1 radd rmul rsub ropp RT). apply lsum_ext. intros a Ha. apply lin1 in Ha. rewrite cl.
    apply lsum_ext. intros c _. rewrite bl. apply lsum_ext. intros b Hb. apply lin1 in Hb.
    transitivity (lsum (seq 0 dl) (fun a' => delta a a' * (conj (chi a c b) * phi a' c b))); [|apply (lsum_delta dl a (fun a' => conj (chi a c b) * phi a' c b) Ha)].
    apply lsum_ext. intros a' Ha'. apply lin1 in Ha'.
    transitivity (lsum (seq 0 dr) (fun b' => delta b b' * (delta a a' * (conj (chi a c b) * phi a' c b'))));
      [|apply (lsum_delta dr b (fun b' => delta a a' * (conj (chi a c b) * phi a' c b')) Hb)].
    apply lsum_ext. intros b' Hb'. apply lin1 in Hb'. rewrite HL, HR by assumption. ring.
Qed.

(** matrix_element is linear in phi. *)
Lemma insert_add tsL tsR dl dr u v cL c cR :
  insert tsL tsR dl dr (fun a c b => u a c b + v a c b) cL c cR = insert tsL tsR dl dr u cL c cR + insert tsL tsR dl dr v cL c cR.
Proof.
  unfold LocalMeaning.insert. rewrite <- (bsum_add r0 r1 radd rmul rsub ropp RT). apply (bsum_ext r0 radd). intros a _.
  rewrite <- (bsum_add r0 r1 radd rmul rsub ropp RT). apply (bsum_ext r0 radd). intros b _. ring.
Qed.
Lemma insert_scale tsL tsR dl dr k v cL c cR :
  insert tsL tsR dl dr (fun a c b => k * v a c b) cL c cR = k * insert tsL tsR dl dr v cL c cR.
Proof.
  unfold LocalMeaning.insert. rewrite <- (bsum_mul_l r0 r1 radd rmul rsub ropp RT). apply (bsum_ext r0 radd). intros a _.
  rewrite <- (bsum_mul_l r0 r1 radd rmul rsub ropp RT). apply (bsum_ext r0 radd). intros b _. ring.
Qed.

(** The amplitude of a full configuration of a state with phi in the middle. *)
Definition whole (tsL tsR : list tensor) (k : nat) (dl dr : nat) (phi : nat -> list nat -> nat -> R) (c : list nat) : R :=
  insert tsL tsR dl dr phi (firstn (length tsL) c) (firstn k (skipn (length tsL) c)) (skipn k (skipn (length tsL) c)).

Lemma whole_app tsL tsR k dl dr phi cL c cR : length cL = length tsL -> length c = k ->
  whole tsL tsR k dl dr phi (cL ++ c ++ cR) = insert tsL tsR dl dr phi cL c cR.
Proof.
  intros H1 H2. unfold whole. rewrite <- H1, <- H2.
  rewrite firstn_app, Nat.sub_diag, firstn_all. cbn [firstn]. rewrite app_nil_r.
  rewrite skipn_app, Nat.sub_diag, skipn_all. cbn [skipn app].
  rewrite firstn_app, Nat.sub_diag, firstn_all. cbn [firstn]. rewrite app_nil_r.
  rewrite skipn_app, Nat.sub_diag, skipn_all. reflexivity.
Qed.

(** Sums over all configurations of a function and of a matrix. *)
Definition wnorm (dims : list nat) (f g : list nat -> R) : R := csum dims (fun c => conj (f c) * g c).
Definition wform (dims : list nat) (H : list nat -> list nat -> R) (f g : list nat -> R) : R :=
  csum dims (fun c => csum dims (fun c' => conj (f c') * H c c' * g c)).

Lemma wform_add dims H f u v : wform dims H f (fun c => u c + v c) = wform dims H f u + wform dims H f v.
Proof.
  unfold wform. rewrite <- (csum_add r0 r1 radd rmul rsub ropp RT). apply (csum_ext r0 radd). intros c _.
  rewrite <- (csum_add r0 r1 radd rmul rsub ropp RT). apply (csum_ext r0 radd). intros c' _. ring.
Qed.
Lemma wform_scale dims H f k v : wform dims H f (fun c => k * v c) = k * wform dims H f v.
Proof.
  unfold wform. rewrite <- (csum_mul_l r0 r1 radd rmul rsub ropp RT). apply (csum_ext r0 radd). intros c _.
  rewrite <- (csum_mul_l r0 r1 radd rmul rsub ropp RT). apply (csum_ext r0 radd). intros c' _. ring.
Qed.
Lemma wform_ext dims H f f' g g' : (forall c, Forall2 lt c dims -> f c = f' c) -> (forall c, Forall2 lt c dims -> g c = g' c) ->
  wform dims H f g = wform dims H f' g'.
Proof.
  intros Hf Hg. unfold wform. apply (csum_ext r0 radd). intros c Hc. apply (csum_ext r0 radd). intros c' Hc'. rewrite Hf, Hg by assumption. reflexivity.
Qed.
Lemma wform_conj dims H f g : (forall c c', Forall2 lt c dims -> Forall2 lt c' dims -> H c c' = conj (H c' c)) ->
  wform dims H f g = conj (wform dims H g f).
Proof.
  intros HH. unfold wform. rewrite !cl, lsum_conj'.
  transitivity (lsum (confs dims) (fun c => lsum (confs dims) (fun c' => conj (f c') * H c c' * g c))).
  { apply lsum_ext. intros. apply cl. }
  rewrite (lsum_swap r0 r1 radd rmul rsub ropp RT). apply lsum_ext. intros c' Hc'. rewrite cl, lsum_conj'. apply lsum_ext. intros c Hc.
  rewrite !conj_mul, conj_conj, (HH c c') by (apply in_confs; assumption). ring.
Qed.

Lemma confs_app_sum d1 d2 d3 (f : list nat -> R) :
  csum (d1 ++ d2 ++ d3) f = csum d1 (fun a => csum d2 (fun b => csum d3 (fun c => f (a ++ b ++ c)))).
Proof. rewrite (csum_app r0 radd). apply (csum_ext r0 radd). intros a _. rewrite (csum_app r0 radd). reflexivity. Qed.

Lemma F2len (c : list nat) dims : Forall2 lt c dims -> length c = length dims.
Proof. intros H. induction H; cbn; congruence. Qed.

Lemma me_whole tsL tsR wsL ws wsR dl dr chi phi :
  matrix_element tsL tsR wsL ws wsR dl dr chi phi =
  wform (sites tsL ++ wsites ws ++ sites tsR) (fun c c' => wchain (wsL ++ ws ++ wsR) c c' 0 0)
    (whole tsL tsR (length ws) dl dr chi) (whole tsL tsR (length ws) dl dr phi).
Proof.
  unfold LocalMeaning.matrix_element, wform. symmetry.
  rewrite confs_app_sum. apply (csum_ext r0 radd). intros cL HL. apply (csum_ext r0 radd). intros c Hc. apply (csum_ext r0 radd). intros cR HR.
  rewrite confs_app_sum. apply (csum_ext r0 radd). intros cL' HL'. apply (csum_ext r0 radd). intros c' Hc'. apply (csum_ext r0 radd). intros cR' HR'.
  apply F2len in HL, Hc, HR, HL', Hc', HR'. unfold sites, wsites in *. rewrite map_length in *.
  rewrite !whole_app by assumption. reflexivity.
Qed.

Lemma dot_whole tsL tsR ps dl dr chi phi :
  linked 1 tsL dl -> linked dr tsR 1 ->
  Forall (left_orth r0 r1 radd rmul conj) tsL -> Forall (right_orth r0 r1 radd rmul conj) tsR ->
  wnorm (sites tsL ++ ps ++ sites tsR) (whole tsL tsR (length ps) dl dr chi) (whole tsL tsR (length ps) dl dr phi) = tdot dl ps dr chi phi.
Proof.
  intros LL LR OL OR. rewrite <- (insert_dot tsL tsR dl dr ps chi phi LL LR OL OR). unfold wnorm. rewrite confs_app_sum.
  apply (csum_ext r0 radd). intros cL HL. apply (csum_ext r0 radd). intros c Hc. apply (csum_ext r0 radd). intros cR HR.
  apply F2len in HL, Hc. unfold sites in HL. rewrite map_length in HL. rewrite !whole_app by assumption. reflexivity.
Qed.

(** Two tensors in the middle: the state of the chain. *)
Lemma whole_chain tsL ts tsR dl dr c :
  linked 1 tsL dl -> linked dl ts dr -> Forall2 lt c (sites tsL ++ sites ts ++ sites tsR) ->
  whole tsL tsR (length ts) dl dr (fun a c b => chain ts c a b) c = amplitude r0 r1 radd rmul (tsL ++ ts ++ tsR) c.
Proof.
  intros LL LM H. apply Forall2_app_inv_r in H as (cL & c1 & HL & H & ->). apply Forall2_app_inv_r in H as (cM & cR & HM & HR & ->).
  apply F2len in HL, HM. unfold sites in HL, HM. rewrite map_length in HL, HM.
  rewrite whole_app by assumption. now apply (insert_chain r0 r1 radd rmul rsub ropp RT).
Qed.
Lemma norm2_whole ts : norm2 r0 r1 radd rmul conj ts = wnorm (sites ts) (amplitude r0 r1 radd rmul ts) (amplitude r0 r1 radd rmul ts).
Proof. reflexivity. Qed.
Lemma energy_whole ts ws : energy ts ws = wform (sites ts) (fun c c' => wchain ws c c' 0 0) (amplitude r0 r1 radd rmul ts) (amplitude r0 r1 radd rmul ts).
Proof. reflexivity. Qed.
Lemma wnorm_ext dims f f' g g' : (forall c, Forall2 lt c dims -> f c = f' c) -> (forall c, Forall2 lt c dims -> g c = g' c) ->
  wnorm dims f g = wnorm dims f' g'.
Proof. intros Hf Hg. unfold wnorm. apply (csum_ext r0 radd). intros c Hc. rewrite Hf, Hg by assumption. reflexivity. Qed.

(** tdot is an inner product. *)
Lemma tdot_add dl ps dr u v w : tdot dl ps dr u (fun a c b => v a c b + w a c b) = tdot dl ps dr u v + tdot dl ps dr u w.
Proof.
  unfold tdot. rewrite <- (bsum_add r0 r1 radd rmul rsub ropp RT). apply (bsum_ext r0 radd). intros a _.
  rewrite <- (csum_add r0 r1 radd rmul rsub ropp RT). apply (csum_ext r0 radd). intros c _.
  rewrite <- (bsum_add r0 r1 radd rmul rsub ropp RT). apply (bsum_ext r0 radd). intros b _. ring.
Qed.
Lemma tdot_scale dl ps dr k u v : tdot dl ps dr u (fun a c b => k * v a c b) = k * tdot dl ps dr u v.
Proof.
  unfold tdot. rewrite <- (bsum_mul_l r0 r1 radd rmul rsub ropp RT). apply (bsum_ext r0 radd). intros a _.
  rewrite <- (csum_mul_l r0 r1 radd rmul rsub ropp RT). apply (csum_ext r0 radd). intros c _.
  rewrite <- (bsum_mul_l r0 r1 radd rmul rsub ropp RT). apply (bsum_ext r0 radd). intros b _. ring.
Qed.
Lemma tdot_conj dl ps dr u v : tdot dl ps dr v u = conj (tdot dl ps dr u v).
Proof.
  unfold tdot. rewrite !bl, lsum_conj'. apply lsum_ext. intros a _. rewrite !cl, lsum_conj'. apply lsum_ext. intros c _.
  rewrite !bl, lsum_conj'. apply lsum_ext. intros b _. rewrite conj_mul, conj_conj. ring.
Qed.
Lemma tdot_ext dl ps dr u u' v v' :
  (forall a c b, a < dl -> Forall2 lt c ps -> b < dr -> u a c b = u' a c b) ->
  (forall a c b, a < dl -> Forall2 lt c ps -> b < dr -> v a c b = v' a c b) -> tdot dl ps dr u v = tdot dl ps dr u' v'.
Proof.
  intros Hu Hv. unfold tdot. apply (bsum_ext r0 radd). intros a Ha. apply (csum_ext r0 radd). intros c Hc. apply (bsum_ext r0 radd). intros b Hb.
  rewrite Hu, Hv by assumption. reflexivity.
Qed.
Lemma whole_ext tsL tsR k dl dr u u' c ps : length ps = k -> Forall2 lt c (sites tsL ++ ps ++ sites tsR) ->
  (forall a c b, a < dl -> Forall2 lt c ps -> b < dr -> u a c b = u' a c b) ->
  whole tsL tsR k dl dr u c = whole tsL tsR k dl dr u' c.
Proof.
  intros Hk H Hu. apply Forall2_app_inv_r in H as (cL & c1 & HL & H & ->). apply Forall2_app_inv_r in H as (cM & cR & HM & HR & ->).
  pose proof (F2len _ _ HL) as L1. pose proof (F2len _ _ HM) as L2. unfold sites in L1. rewrite map_length in L1.
  rewrite !whole_app by congruence. unfold LocalMeaning.insert. apply (bsum_ext r0 radd). intros a Ha. apply (bsum_ext r0 radd). intros b Hb.
  rewrite Hu by assumption. reflexivity.
Qed.
End Alg.
