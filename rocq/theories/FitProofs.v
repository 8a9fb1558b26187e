(** Proofs for property C71. *)
From Coq Require Import ZArith List Bool Arith Lia Ring Field.
From Verif Require Import Util BigSum MpsModel MpsTensor MpsSpec MpsProofs LocalSem OrtSpec OrtModel OrtProofs FitSpec FitModel.
Import ListNotations.
Local Open Scope outcome_scope.

Section FitProofs.
Context {R : Type} (r0 r1 : R) (radd rmul rsub : R -> R -> R) (ropp : R -> R) (rdiv : R -> R -> R) (rinv : R -> R) (conj : R -> R).
Context (FT : field_theory r0 r1 radd rmul rsub ropp rdiv rinv eq).
Context (conj0 : conj r0 = r0) (conj1 : conj r1 = r1)
  (conj_add : forall x y, conj (radd x y) = radd (conj x) (conj y))
  (conj_mul : forall x y, conj (rmul x y) = rmul (conj x) (conj y))
  (conj_conj : forall x, conj (conj x) = x).
Let RT := F_R FT.
Add Field FTfit : FT.
Notation tensor := (@tensor R).
Notation bsum := (bsum r0 radd).
Notation csum := (csum r0 radd).
Notation chain := (chain r0 r1 radd rmul).
Notation amp := (amplitude r0 r1 radd rmul).
Notation overlap := (overlap r0 radd rmul conj).
Notation dist2 := (dist2 r0 radd rmul rsub conj).
Notation RO := (right_orth r0 r1 radd rmul conj).
Notation fit_right := (fit_right r0 radd rmul conj).
Notation "x + y" := (radd x y). Notation "x * y" := (rmul x y).

Lemma bconj n f : conj (bsum n f) = bsum n (fun i => conj (f i)).
Proof. induction n as [|n IH]; cbn; [exact conj0|]. now rewrite conj_add, IH. Qed.
Lemma cconj ds f : conj (csum ds f) = csum ds (fun c => conj (f c)).
Proof. revert f. induction ds as [|d ds IH]; intros f; cbn [BigSum.csum]; [reflexivity|]. rewrite bconj. apply bsum_ext. intros. apply IH. Qed.

Lemma prod_sum ds n m (al be : nat -> R) (F G : list nat -> nat -> R) :
  csum ds (fun c => bsum n (fun b => al b * F c b) * conj (bsum m (fun e => be e * G c e))) =
  bsum n (fun b => bsum m (fun e => al b * conj (be e) * csum ds (fun c => F c b * conj (G c e)))).
Proof.
  transitivity (csum ds (fun c => bsum n (fun b => bsum m (fun e => al b * conj (be e) * (F c b * conj (G c e)))))).
  { apply (csum_ext r0 radd). intros c _. rewrite bconj, <- (bsum_mul_r r0 r1 radd rmul rsub ropp RT).
    apply bsum_ext. intros b _. rewrite <- (bsum_mul_l r0 r1 radd rmul rsub ropp RT). apply bsum_ext. intros e _.
    rewrite conj_mul. ring. }
  rewrite (csum_bsum r0 r1 radd rmul rsub ropp RT). apply bsum_ext. intros b _.
  rewrite (csum_bsum r0 r1 radd rmul rsub ropp RT). apply bsum_ext. intros e _.
  apply (csum_mul_l r0 r1 radd rmul rsub ropp RT).
Qed.

(** <g_(b')|f_b> for the tails that start at link values b and b'. *)
Definition gram (fs gs : list tensor) (b b' : nat) : R :=
  csum (sites fs) (fun c => chain fs c b 0 * conj (chain gs c b' 0)).

Lemma gram_cons f g fs gs a a' : tp f = tp g ->
  gram (f :: fs) (g :: gs) a a' =
  bsum (tp f) (fun s => bsum (tr f) (fun b => bsum (tr g) (fun b' => te f a s b * conj (te g a' s b') * gram fs gs b b'))).
Proof.
  intros E. unfold gram. cbn [sites map BigSum.csum]. apply bsum_ext. intros s _. cbn [MpsSpec.chain]. apply prod_sum.
Qed.

Lemma fit_right_ok fs : forall gs d d', fs <> [] -> linked d fs 1 -> linked d' gs 1 -> sites fs = sites gs ->
  forall b b', fit_right fs gs b b' = gram fs gs b b'.
Proof.
  induction fs as [|f fs IH]; intros gs d d' Nn L L' S b b'; [congruence|].
  destruct gs as [|g gs]; [discriminate|]. cbn [sites map] in S. injection S as Sp S.
  destruct L as [<- L]. destruct L' as [<- L'].
  rewrite gram_cons by assumption. destruct fs as [|f' fs].
  - destruct gs; [|discriminate]. cbn in L, L'. cbn [FitModel.fit_right]. unfold fit_last. rewrite L, L'.
    apply bsum_ext. intros s _. cbn. rewrite conj1. ring.
  - assert (X : f' :: fs <> []) by discriminate. cbn [FitModel.fit_right]. unfold fit_step.
    rewrite (bsum_swap r0 r1 radd rmul rsub ropp RT). apply bsum_ext. intros s _. apply bsum_ext. intros c _.
    rewrite <- (bsum_mul_r r0 r1 radd rmul rsub ropp RT). apply bsum_ext. intros c' _.
    change ((fix fit_right (fs gs : list tensor) {struct fs} : nat -> nat -> R :=
      match fs, gs with
      | f :: fs', g :: gs' => match fs' with [] => fit_last r0 radd rmul conj f g | _ => fit_step r0 radd rmul conj (fit_right fs' gs') f g end
      | _, _ => fun _ _ => r0
      end) (f' :: fs) gs c c') with (fit_right (f' :: fs) gs c c').
    rewrite (IH gs (tr f) (tr g) X L L' S). ring.
Qed.

(** The inner product of two first tensors. *)
Definition tdot (x y : tensor) : R :=
  bsum (tp y) (fun s => bsum (tr y) (fun e => conj (te x 0 s e) * te y 0 s e)).
(** fit_first for at least two sites *)
Definition proj (f g : tensor) (fs gs : list tensor) : tensor :=
  mkT (tl g) (tp f) (tr g) (tj g) (fun a s b' => bsum (tr f) (fun b => te f a s b * fit_right fs gs b b')).

Section Two.
Context (f g : tensor) (fs gs : list tensor) (NE : fs <> []) (Pf : proper (f :: fs)) (Pg : proper (g :: gs))
  (S : sites (f :: fs) = sites (g :: gs)).
Let A := proj f g fs gs.

Lemma overlap_fit x : same_inds g x -> overlap (sites (f :: fs)) (amp (x :: gs)) (amp (f :: fs)) = tdot x A.
Proof.
  intros (X1 & X2 & X3). unfold FitSpec.overlap, tdot, A. cbn [proj tp tr te].
  transitivity (csum (sites (f :: fs)) (fun c => amp (f :: fs) c * conj (amp (x :: gs) c))).
  { apply (csum_ext r0 radd). intros. ring. }
  destruct Pf as [F1 F2]. destruct Pg as [G1 G2]. cbn [sites map] in S. injection S as Sp S'.
  fold (sites fs) in S'. fold (sites gs) in S'.
  change (csum (sites (f :: fs)) (fun c => amp (f :: fs) c * conj (amp (x :: gs) c))) with (gram (f :: fs) (x :: gs) 0 0).
  rewrite gram_cons by congruence. apply bsum_ext. intros s _.
  rewrite (bsum_swap r0 r1 radd rmul rsub ropp RT). rewrite X3. apply bsum_ext. intros e He.
  rewrite <- (bsum_mul_l r0 r1 radd rmul rsub ropp RT). apply bsum_ext. intros b _.
  rewrite (fit_right_ok fs gs (tr f) (tr g) NE F2 G2 S'). ring.
Qed.

Lemma overlap_tail x y : Forall RO gs -> same_inds g x -> same_inds g y ->
  overlap (sites (f :: fs)) (amp (x :: gs)) (amp (y :: gs)) = tdot x y.
Proof.
  intros O (X1 & X2 & X3) (Y1 & Y2 & Y3). unfold FitSpec.overlap, tdot.
  transitivity (csum (sites (f :: fs)) (fun c => amp (y :: gs) c * conj (amp (x :: gs) c))).
  { apply (csum_ext r0 radd). intros. ring. }
  rewrite S. destruct Pg as [G1 G2].
  transitivity (gram (y :: gs) (x :: gs) 0 0).
  { unfold gram. cbn [sites map]. rewrite Y2. reflexivity. }
  rewrite gram_cons by congruence. apply bsum_ext. intros s _.
  rewrite Y3, X3.
  transitivity (bsum (tr g) (fun b => bsum (tr g) (fun e => BigSum.delta r0 r1 b e * (te y 0 s b * conj (te x 0 s e))))).
  { apply bsum_ext. intros b Hb. apply bsum_ext. intros e He.
    assert (Q := right_chain r0 r1 radd rmul rsub ropp conj RT conj_add conj_mul conj0 conj1 gs (tr g) 1 e b G2 O He Hb).
    rewrite (bsum_1 r0 r1 radd rmul rsub ropp RT) in Q. unfold gram.
    replace (csum (sites gs) (fun c => chain gs c b 0 * conj (chain gs c e 0))) with (BigSum.delta r0 r1 e b).
    - unfold BigSum.delta. rewrite Nat.eqb_sym. ring.
    - rewrite <- Q. apply (csum_ext r0 radd). intros. ring. }
  apply bsum_ext. intros b Hb. rewrite (bsum_delta r0 r1 radd rmul rsub ropp RT) by assumption. ring.
Qed.
End Two.

Lemma amp_divide x c gs k : k <> [] -> amp (divide rmul rinv x c :: gs) k = amp (x :: gs) k * rinv c.
Proof.
  intros N. destruct k as [|s k]; [congruence|]. unfold amplitude. cbn [MpsSpec.chain divide tr te].
  rewrite <- (bsum_mul_r r0 r1 radd rmul rsub ropp RT). apply bsum_ext. intros. ring.
Qed.
Definition tsub (x y : tensor) : tensor := mkT (tl x) (tp x) (tr x) (tj x) (fun a s b => rsub (te x a s b) (te y a s b)).
Lemma amp_sub x y gs k : k <> [] -> tr x = tr y -> amp (tsub x y :: gs) k = rsub (amp (x :: gs) k) (amp (y :: gs) k).
Proof.
  intros N E. destruct k as [|s k]; [congruence|]. unfold amplitude. cbn [MpsSpec.chain tsub tr te]. rewrite <- E.
  set (n := tr x). clearbody n. induction n as [|n IH]; cbn; [ring|]. rewrite IH. ring.
Qed.
Lemma tdot_conj x y : tp x = tp y -> tr x = tr y -> conj (tdot x y) = tdot y x.
Proof.
  intros E1 E2. unfold tdot. rewrite bconj, E1, E2. apply bsum_ext. intros s _. rewrite bconj. apply bsum_ext. intros e _.
  rewrite conj_mul, conj_conj. ring.
Qed.
Lemma conj_sub x y : conj (rsub x y) = rsub (conj x) (conj y).
Proof.
  assert (H : conj (rsub x y) + conj y = conj x) by (rewrite <- conj_add; f_equal; ring). rewrite <- H. ring.
Qed.
Lemma overlap_conj ds u v : conj (overlap ds u v) = overlap ds v u.
Proof. unfold FitSpec.overlap. rewrite cconj. apply (csum_ext r0 radd). intros. rewrite conj_mul, conj_conj. ring. Qed.

(** Pythagoras. *)
Lemma pythagoras ds u p x : overlap ds (fun c => rsub (p c) (x c)) u = overlap ds (fun c => rsub (p c) (x c)) p ->
  dist2 ds u x = dist2 ds u p + dist2 ds p x.
Proof.
  intros H.
  assert (H0 : csum ds (fun c => conj (rsub (p c) (x c)) * rsub (u c) (p c)) = r0).
  { transitivity (csum ds (fun c => conj (rsub (p c) (x c)) * u c + ropp r1 * (conj (rsub (p c) (x c)) * p c))).
    - apply (csum_ext r0 radd). intros. ring.
    - rewrite (csum_add r0 r1 radd rmul rsub ropp RT), (csum_mul_l r0 r1 radd rmul rsub ropp RT).
      unfold FitSpec.overlap in H. rewrite H. ring. }
  assert (H1 : csum ds (fun c => conj (rsub (u c) (p c)) * rsub (p c) (x c)) = r0).
  { transitivity (conj (csum ds (fun c => conj (rsub (p c) (x c)) * rsub (u c) (p c)))); [|rewrite H0; exact conj0].
    rewrite cconj. apply (csum_ext r0 radd). intros. rewrite conj_mul, conj_conj. ring. }
  unfold FitSpec.dist2.
  transitivity (csum ds (fun c => (conj (rsub (u c) (p c)) * rsub (u c) (p c) + conj (rsub (p c) (x c)) * rsub (p c) (x c)) +
    (conj (rsub (p c) (x c)) * rsub (u c) (p c) + conj (rsub (u c) (p c)) * rsub (p c) (x c)))).
  { apply (csum_ext r0 radd). intros c _. rewrite !conj_sub. ring. }
  rewrite !(csum_add r0 r1 radd rmul rsub ropp RT), H0, H1. ring.
Qed.
End FitProofs.
