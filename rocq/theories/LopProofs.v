(** Proofs about LopModel. *)
From Coq Require Import ZArith List Bool Arith Lia Ring.
From Verif Require Import Util BigSum MpsModel MpsTensor MpsSpec MpsProofs LocalModel LocalTensor LocalMeaning LocalSem LopModel.
Import ListNotations.

(** The basis vector at left link a0, centre sites c0 and right link b0. *)
Definition basis {R} (r0 r1 : R) (a0 : nat) (c0 : list nat) (b0 : nat) : nat -> list nat -> nat -> R :=
  fun a c b => if Nat.eqb a a0 && (if list_eq_dec Nat.eq_dec c c0 then true else false) && Nat.eqb b b0 then r1 else r0.

Section LopProofs.
Context {R : Type} (r0 r1 : R) (radd rmul rsub : R -> R -> R) (ropp : R -> R) (conj re : R -> R).
Context (RT : ring_theory r0 r1 radd rmul rsub ropp eq).
Add Ring RR : RT.
Notation wten := (wten R).
Notation edge := (@edge R).
Notation bsum := (bsum r0 radd).
Notation csum := (csum r0 radd).
Notation wchain := (wchain r0 r1 radd rmul).
Notation eval := (edge_val r1).
Notation effective := (effective r0 r1 radd rmul).
Notation basis := (basis r0 r1).
Infix "*" := rmul.

Lemma bsum_pick : forall n i f, i < n -> (forall j, j < n -> j <> i -> f j = r0) -> bsum n f = f i.
Proof.
  intros n i f Hi H. rewrite <- (bsum_delta r0 r1 radd rmul rsub ropp RT n i f Hi). apply (bsum_ext r0 radd). intros j Hj.
  unfold delta. destruct (Nat.eqb_spec i j) as [->|N]; [ring|]. rewrite H by congruence. ring.
Qed.
Lemma csum_zero : forall dims f, (forall c, f c = r0) -> csum dims f = r0.
Proof.
  induction dims as [|p ps IH]; intros f H; cbn [BigSum.csum]; [apply H|].
  apply (bsum_zero r0 r1 radd rmul rsub ropp RT). intros i _. apply IH. intros c. apply H.
Qed.
Lemma csum_pick : forall dims c0 f, Forall2 lt c0 dims -> (forall c, c <> c0 -> f c = r0) -> csum dims f = f c0.
Proof.
  induction dims as [|p ps IH]; intros c0 f V H; inversion V as [|x y l l' Hx Hl]; subst; cbn [BigSum.csum]; [reflexivity|].
  rewrite (bsum_pick p x).
  - apply (IH l (fun c => f (x :: c))); [exact Hl|]. intros c Hc. apply H. congruence.
  - exact Hx.
  - intros j _ Hj. apply csum_zero. intros c. apply H. congruence.
Qed.

Lemma basis_self : forall a c b, basis a c b a c b = r1.
Proof. intros. unfold LopProofs.basis. rewrite !Nat.eqb_refl. destruct (list_eq_dec Nat.eq_dec c c); [reflexivity|congruence]. Qed.
Lemma basis_a : forall a c b x y z, x <> a -> basis a c b x y z = r0.
Proof. intros. unfold LopProofs.basis. apply Nat.eqb_neq in H. now rewrite H. Qed.
Lemma basis_b : forall a c b x y z, z <> b -> basis a c b x y z = r0.
Proof. intros. unfold LopProofs.basis. apply Nat.eqb_neq in H. now rewrite H, andb_false_r. Qed.
Lemma basis_c : forall a c b x y z, y <> c -> basis a c b x y z = r0.
Proof. intros. unfold LopProofs.basis. destruct (list_eq_dec Nat.eq_dec y c); [congruence|]. now rewrite andb_false_r. Qed.

Lemma eff_basis : forall ws dl dw dv dr L Rt a c b, a < dl -> b < dr -> Forall2 lt c (wsites ws) ->
  effective ws dl dw dv dr L Rt (basis a c b) a c b = bsum dw (fun w => bsum dv (fun v => L a w a * wchain ws c c w v * Rt b v b)).
Proof.
  intros ws dl dw dv dr L Rt a c b Ha Hb Hc. unfold LocalSem.effective.
  rewrite (bsum_pick dl a); [|exact Ha|].
  - apply (bsum_ext r0 radd); intros w _. apply (bsum_ext r0 radd); intros v _.
    rewrite (bsum_pick dr b); [|exact Hb|].
    + rewrite (csum_pick (wsites ws) c); [|exact Hc|].
      * rewrite basis_self. ring.
      * intros y Hy. rewrite basis_c by exact Hy. ring.
    + intros z _ Hz. apply csum_zero. intros y. rewrite basis_b by exact Hz. ring.
  - intros x _ Hx. apply (bsum_zero r0 r1 radd rmul rsub ropp RT). intros w _. apply (bsum_zero r0 r1 radd rmul rsub ropp RT). intros v _.
    apply (bsum_zero r0 r1 radd rmul rsub ropp RT). intros z _. apply csum_zero. intros y. rewrite basis_a by exact Hx. ring.
Qed.

(** What diag sums, with a null edge read as 1. *)
Lemma diag_val : forall L Rt ws dw dv, wlinked dw ws dv -> length ws <= 2 ->
  (L = None -> dw = 1) -> (Rt = None -> dv = 1) -> (L <> None \/ Rt <> None) ->
  exists d, diag r0 radd rmul conj re L Rt ws dw dv = Ok d /\
    forall a c b, Forall2 lt c (wsites ws) ->
      d a c b = re (conj (bsum dw (fun w => bsum dv (fun v => eval L a w a * wchain ws c c w v * eval Rt b v b)))).
Proof.
  intros L Rt ws dw dv K Hlen HL HR HB.
  assert (Ed : diag r0 radd rmul conj re L Rt ws dw dv <> Err) by (unfold diag; destruct L, Rt; try discriminate; destruct HB; congruence).
  unfold diag in *. 
  assert (B1 : forall f : nat -> R, bsum 1 f = f 0) by (intros; apply (bsum_1 r0 r1 radd rmul rsub ropp RT)).
  assert (Dops : forall c, Forall2 lt c (wsites ws) ->
    match diag_ops r0 radd rmul ws c with
    | Some d => forall w v, v < dv -> wchain ws c c w v = d w v
    | None => ws = [] /\ c = [] end).
  { intros c V. destruct ws as [|W1 [|W2 [|? ?]]]; cbn in Hlen; [| | |lia]; cbn [wsites map] in V; unfold diag_ops.
    - inversion V. auto.
    - inversion V as [|s ? c1 ? Hs V1]; subst. inversion V1; subst. intros w v Hv. cbn [nth]. cbn in K. destruct K as (_ & K).
      apply (wchain_one r0 r1 radd rmul rsub ropp RT). lia.
    - inversion V as [|s ? c1 ? Hs V1]; subst. inversion V1 as [|s2 ? c2 ? Hs2 V2]; subst. inversion V2; subst. intros w v Hv. cbn [nth].
      cbn in K. destruct K as (_ & K1 & K2). change (wchain [W1; W2] [s; s2] [s; s2] w v) with (bsum (wtr W1) (fun u => wte W1 w s s u * wchain [W2] [s2] [s2] u v)).
      apply (bsum_ext r0 radd). intros u _. f_equal. apply (wchain_one r0 r1 radd rmul rsub ropp RT). lia. }
  destruct L as [l|], Rt as [r|]; [| | |congruence]; (eexists; split; [reflexivity|]; intros a c b V; cbv beta zeta; apply (f_equal re); apply (f_equal conj); specialize (Dops c V);
    destruct (diag_ops r0 radd rmul ws c) as [d|]; cbn [edge_val]).
  - rewrite (bsum_swap r0 r1 radd rmul rsub ropp RT). apply (bsum_ext r0 radd); intros v Hv. rewrite <- (bsum_mul_r r0 r1 radd rmul rsub ropp RT).
    apply (bsum_ext r0 radd); intros w _. rewrite Dops by exact Hv. ring.
  - destruct Dops as (-> & ->). cbn in K. subst dv. apply (bsum_ext r0 radd); intros w Hw. cbn [LocalMeaning.wchain].
    rewrite (bsum_pick dw w); [|exact Hw|].
    + unfold delta. rewrite Nat.eqb_refl. ring.
    + intros j _ Hj. unfold delta. destruct (Nat.eqb_spec w j); [congruence|ring].
  - rewrite (HR eq_refl) in *. apply (bsum_ext r0 radd); intros w _. rewrite B1, Dops by lia. ring.
  - destruct Dops as (-> & ->). cbn in K. rewrite (HR eq_refl) in *. subst dw. rewrite !B1. cbn [LocalMeaning.wchain]. unfold delta. cbn. ring.
  - rewrite (HL eq_refl), B1. apply (bsum_ext r0 radd); intros v Hv. rewrite Dops by exact Hv. ring.
  - destruct Dops as (-> & ->). cbn in K. rewrite (HL eq_refl) in *. subst dv. rewrite !B1. cbn [LocalMeaning.wchain]. unfold delta. cbn. ring.
Qed.

Lemma conj_csum : (forall x y, conj (radd x y) = radd (conj x) (conj y)) -> conj r0 = r0 ->
  forall dims f, conj (csum dims f) = csum dims (fun c => conj (f c)).
Proof.
  intros Ca C0. induction dims as [|p ps IH]; intros f; cbn [BigSum.csum]; [reflexivity|].
  rewrite (MpsProofs.conj_bsum r0 radd conj Ca C0). apply (bsum_ext r0 radd). intros i _. apply IH.
Qed.
End LopProofs.

(** * Counting labels *)
Lemma f2_len : forall (l l' : list nat), Forall2 lt l l' -> length l = length l'.
Proof. induction 1; cbn; congruence. Qed.
Definition pairs {A B C} (f : A -> B -> C) (l : list A) (l' : list B) : list C := flat_map (fun a => map (f a) l') l.
Lemma pairs_in {A B C} (f : A -> B -> C) l l' x : In x (pairs f l l') <-> exists a b, In a l /\ In b l' /\ x = f a b.
Proof.
  unfold pairs. rewrite in_flat_map. split.
  - intros (a & Ha & H). apply in_map_iff in H. destruct H as (b & <- & Hb). eauto.
  - intros (a & b & Ha & Hb & ->). exists a. split; [exact Ha|]. now apply in_map.
Qed.
Lemma pairs_len {A B C} (f : A -> B -> C) l l' : length (pairs f l l') = length l * length l'.
Proof. unfold pairs. induction l as [|a l IH]; cbn; [reflexivity|]. rewrite app_length, map_length, IH. reflexivity. Qed.
Lemma pairs_nodup {A B C} (f : A -> B -> C) : (forall a b a' b', f a b = f a' b' -> a = a' /\ b = b') ->
  forall l l', NoDup l -> NoDup l' -> NoDup (pairs f l l').
Proof.
  intros Hf l l' Hl Hl'. induction Hl as [|a l N ND IH]; cbn; [constructor|].
  assert (M : NoDup (map (f a) l')).
  { clear -Hf Hl'. induction Hl' as [|b l' N ND IH]; cbn; constructor; [|exact IH]. intros H. apply in_map_iff in H.
    destruct H as (b' & E & Hb). destruct (Hf _ _ _ _ E) as (_ & <-). contradiction. }
  assert (D : forall x, In x (map (f a) l') -> ~ In x (pairs f l l')).
  { intros x Hx Hy. apply in_map_iff in Hx. destruct Hx as (b & <- & _). apply pairs_in in Hy. destruct Hy as (a' & b' & Ha & _ & E).
    destruct (Hf _ _ _ _ E) as (-> & _). contradiction. }
  revert M D IH. unfold pairs. generalize (flat_map (fun a0 => map (f a0) l') l). generalize (map (f a) l'). clear.
  induction l as [|x l IH]; intros m M D I; cbn; [exact I|]. inversion M; subst. constructor.
  - rewrite in_app_iff. intros [H|H]; [contradiction|]. exact (D x (or_introl eq_refl) H).
  - apply IH; [assumption| |assumption]. intros y Hy. apply D. now right.
Qed.
Fixpoint tuples (dims : list nat) : list (list nat) :=
  match dims with [] => [[]] | p :: ps => pairs cons (seq 0 p) (tuples ps) end.
Lemma tuples_in : forall dims c, In c (tuples dims) <-> Forall2 lt c dims.
Proof.
  induction dims as [|p ps IH]; intros c; cbn [tuples].
  - split; [intros [<-|[]]; constructor|]. intros H. inversion H. now left.
  - rewrite pairs_in. split.
    + intros (s & c1 & Hs & Hc & ->). apply in_seq in Hs. constructor; [lia|]. now apply IH.
    + intros H. inversion H; subst. do 2 eexists. split; [|split; [apply IH; eassumption|reflexivity]]. apply in_seq. lia.
Qed.
Lemma tuples_nodup : forall dims, NoDup (tuples dims).
Proof.
  induction dims as [|p ps IH]; cbn [tuples]; [repeat constructor; intros []|].
  apply pairs_nodup; [|apply seq_NoDup|exact IH]. intros a b a' b' E. injection E; auto.
Qed.
