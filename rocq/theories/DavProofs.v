(** Proofs about the Davidson model. *)
From Coq Require Import List Arith Lia Bool Ring Field.
From Verif Require Import Util DavSpec DavModel.
Import ListNotations.
Local Open Scope outcome_scope.
Local Arguments Nat.sub : simpl never.

Section Ord.
Context {F : Type} (f0 f1 : F) (fadd fmul fsub : F -> F -> F) (fopp : F -> F)
  (fdiv : F -> F -> F) (finv : F -> F) (fltb : F -> F -> bool)
  (OF : ordered_field f0 f1 fadd fmul fsub fopp fdiv finv fltb).
Let FT := of_field _ _ _ _ _ _ _ _ _ OF.
Add Field FFdav : FT.
Infix "+" := fadd. Infix "*" := fmul. Infix "-" := fsub. Notation "- x" := (fopp x).
Notation le x y := (fltb y x = false).
Notation lt x y := (fltb x y = true).

Lemma le_refl x : le x x.
Proof. apply (of_irrefl _ _ _ _ _ _ _ _ _ OF). Qed.

Lemma lt_le x y : lt x y -> le x y.
Proof.
  intros H. destruct (fltb y x) eqn:E; [|reflexivity].
  pose proof (of_trans _ _ _ _ _ _ _ _ _ OF _ _ _ H E) as T.
  rewrite (of_irrefl _ _ _ _ _ _ _ _ _ OF) in T. discriminate.
Qed.

Lemma le_cases x y : le x y -> lt x y \/ x = y.
Proof.
  intros H. destruct (fltb x y) eqn:E; [now left|right]. now apply (of_total _ _ _ _ _ _ _ _ _ OF).
Qed.

Lemma le_trans x y z : le x y -> le y z -> le x z.
Proof.
  intros H1 H2. destruct (le_cases _ _ H1) as [L1 | ->]; [|assumption].
  destruct (le_cases _ _ H2) as [L2 | <-]; [|assumption].
  apply lt_le. exact (of_trans _ _ _ _ _ _ _ _ _ OF _ _ _ L1 L2).
Qed.

Lemma le_add x y z : le x y -> le (x + z) (y + z).
Proof.
  intros H. destruct (le_cases _ _ H) as [L | ->]; [|apply le_refl].
  apply lt_le. now apply (of_add _ _ _ _ _ _ _ _ _ OF).
Qed.

Lemma le_add2 x y u v : le x y -> le u v -> le (x + u) (y + v).
Proof.
  intros H1 H2. apply le_trans with (y + u); [now apply le_add|].
  replace (y + u) with (u + y) by ring. replace (y + v) with (v + y) by ring. now apply le_add.
Qed.

Lemma lt_add_iff x y z : lt (x + z) (y + z) -> lt x y.
Proof.
  intros H. apply (of_add _ _ _ _ _ _ _ _ _ OF) with (z := - z) in H.
  replace (x + z + - z) with x in H by ring. now replace (y + z + - z) with y in H by ring.
Qed.

Lemma le_sub x y : le x y <-> le f0 (y - x).
Proof.
  split; intros H.
  - apply le_add with (z := - x) in H. replace (x + - x) with f0 in H by ring. now replace (y - x) with (y + - x) by ring.
  - apply le_add with (z := x) in H. replace (f0 + x) with x in H by ring. now replace (y - x + x) with y in H by ring.
Qed.

Lemma mul_nonneg x y : le f0 x -> le f0 y -> le f0 (x * y).
Proof.
  intros H1 H2. destruct (le_cases _ _ H1) as [L1 | <-].
  - destruct (le_cases _ _ H2) as [L2 | <-].
    + apply lt_le. now apply (of_mul _ _ _ _ _ _ _ _ _ OF).
    + replace (x * f0) with f0 by ring. apply le_refl.
  - replace (f0 * y) with f0 by ring. apply le_refl.
Qed.

Lemma neg_pos x : lt x f0 -> lt f0 (- x).
Proof.
  intros H. apply (of_add _ _ _ _ _ _ _ _ _ OF) with (z := - x) in H.
  replace (x + - x) with f0 in H by ring. now replace (f0 + - x) with (- x) in H by ring.
Qed.

Lemma sq_nonneg x : le f0 (x * x).
Proof.
  destruct (fltb x f0) eqn:E.
  - apply neg_pos in E. replace (x * x) with ((- x) * (- x)) by ring. apply mul_nonneg; apply lt_le; assumption.
  - now apply mul_nonneg.
Qed.

Lemma mul_le x y z : le f0 z -> le x y -> le (z * x) (z * y).
Proof.
  intros Hz H. apply le_sub. replace (z * y - z * x) with (z * (y - x)) by ring.
  apply mul_nonneg; [assumption|]. apply (proj1 (le_sub _ _)). exact H.
Qed.

Lemma lt_neq x : lt f0 x -> x <> f0.
Proof. intros H ->. rewrite (of_irrefl _ _ _ _ _ _ _ _ _ OF) in H. discriminate. Qed.

Lemma lt_le_trans x y z : lt x y -> le y z -> lt x z.
Proof.
  intros H1 H2. destruct (le_cases _ _ H2) as [L | <-]; [|assumption].
  exact (of_trans _ _ _ _ _ _ _ _ _ OF _ _ _ H1 L).
Qed.

Lemma lt_mul_pos x y z : lt f0 z -> lt x y -> lt (z * x) (z * y).
Proof.
  intros Hz H. apply lt_add_iff with (z := - (z * x)).
  replace (z * x + - (z * x)) with f0 by ring. replace (z * y + - (z * x)) with (z * (y + - x)) by ring.
  apply (of_mul _ _ _ _ _ _ _ _ _ OF); [assumption|].
  apply (of_add _ _ _ _ _ _ _ _ _ OF) with (z := - x) in H. now replace (x + - x) with f0 in H by ring.
Qed.

(** Sums of field elements. *)
Fixpoint fsum (n : nat) (f : nat -> F) : F := match n with O => f0 | S m => fsum m f + f m end.

Lemma fsum_ext n f g : (forall k, k < n -> f k = g k) -> fsum n f = fsum n g.
Proof. induction n as [|n IH]; intros H; cbn [fsum]; [reflexivity|]. rewrite IH, (H n) by (intros; auto with arith). reflexivity. Qed.

Lemma fsum_le n f g : (forall k, k < n -> le (f k) (g k)) -> le (fsum n f) (fsum n g).
Proof.
  induction n as [|n IH]; intros H; cbn [fsum]; [apply le_refl|]. apply le_add2; [apply IH; intros; apply H; lia|apply H; lia].
Qed.

Lemma fsum_scale n c f : fsum n (fun k => c * f k) = c * fsum n f.
Proof. induction n as [|n IH]; cbn [fsum]; [ring|]. rewrite IH. ring. Qed.

(** Complex numbers. *)
Notation K := (@cplx F).
Notation c0 := (c0 f0). Notation c1 := (c1 f0 f1). Notation cof := (cof f0).
Notation cadd := (cadd fadd). Notation cmul := (cmul fadd fmul fsub). Notation copp := (copp fopp).
Notation csub := (csub fsub). Notation cconj := (cconj fopp).
Notation csum := (csum f0 fadd).

Lemma cring : ring_theory c0 c1 cadd cmul csub copp eq.
Proof.
  constructor; intros; repeat (match goal with x : K |- _ => destruct x end);
    unfold DavSpec.cadd, DavSpec.cmul, DavSpec.csub, DavSpec.copp, DavSpec.c0, DavSpec.c1; cbn [fst snd]; f_equal; ring.
Qed.
Add Ring CRdav : cring.

Ltac cplx_tac := repeat (match goal with x : K |- _ => destruct x end);
    unfold DavSpec.cadd, DavSpec.cmul, DavSpec.csub, DavSpec.copp, DavSpec.c0, DavSpec.c1, DavSpec.cof, DavSpec.cconj; cbn [fst snd]; f_equal; ring.

Lemma conj_add a b : cconj (cadd a b) = cadd (cconj a) (cconj b). Proof. cplx_tac. Qed.
Lemma conj_mul a b : cconj (cmul a b) = cmul (cconj a) (cconj b). Proof. cplx_tac. Qed.
Lemma conj_conj a : cconj (cconj a) = a. Proof. cplx_tac. Qed.
Lemma conj_0 : cconj c0 = c0. Proof. cplx_tac. Qed.
Lemma conj_1 : cconj c1 = c1. Proof. cplx_tac. Qed.
Lemma conj_of x : cconj (cof x) = cof x. Proof. cplx_tac. Qed.
Lemma conj_opp a : cconj (copp a) = copp (cconj a). Proof. cplx_tac. Qed.
Lemma opp_opp a : copp (copp a) = a. Proof. cplx_tac. Qed.
Lemma of_mul' x y : cof (x * y) = cmul (cof x) (cof y). Proof. cplx_tac. Qed.
Lemma of_add' x y : cof (x + y) = cadd (cof x) (cof y). Proof. cplx_tac. Qed.
Lemma of_1 : cof f1 = c1. Proof. cplx_tac. Qed.
Lemma of_0 : cof f0 = c0. Proof. cplx_tac. Qed.
Lemma of_opp x : cof (- x) = copp (cof x). Proof. cplx_tac. Qed.

Lemma csum_ext n f g : (forall k, k < n -> f k = g k) -> csum n f = csum n g.
Proof. induction n as [|n IH]; intros H; cbn [DavSpec.csum]; [reflexivity|]. rewrite IH, (H n) by (intros; auto with arith). reflexivity. Qed.

Lemma csum_scale n c f : csum n (fun k => cmul c (f k)) = cmul c (csum n f).
Proof. induction n as [|n IH]; cbn [DavSpec.csum]; [ring|]. rewrite IH. ring. Qed.

Lemma csum_scale_r n c f : csum n (fun k => cmul (f k) c) = cmul (csum n f) c.
Proof. induction n as [|n IH]; cbn [DavSpec.csum]; [ring|]. rewrite IH. ring. Qed.

Lemma csum_add n f g : csum n (fun k => cadd (f k) (g k)) = cadd (csum n f) (csum n g).
Proof. induction n as [|n IH]; cbn [DavSpec.csum]; [ring|]. rewrite IH. ring. Qed.

Lemma csum_conj n f : cconj (csum n f) = csum n (fun k => cconj (f k)).
Proof. induction n as [|n IH]; cbn [DavSpec.csum]; [apply conj_0|]. now rewrite conj_add, IH. Qed.

Lemma csum_swap n m f : csum n (fun i => csum m (fun j => f i j)) = csum m (fun j => csum n (fun i => f i j)).
Proof.
  induction n as [|n IH]; cbn [DavSpec.csum].
  - induction m as [|m IHm]; cbn [DavSpec.csum]; [reflexivity|]. rewrite <- IHm. ring.
  - rewrite IH. now rewrite csum_add.
Qed.

Lemma csum_zero n : csum n (fun _ => c0) = c0.
Proof. induction n as [|n IH]; cbn [DavSpec.csum]; [reflexivity|]. rewrite IH. ring. Qed.

Lemma csum_delta n i f : i < n -> csum n (fun k => cmul (if i =? k then c1 else c0) (f k)) = f i.
Proof.
  induction n as [|n IH]; intros H; [lia|]. cbn [DavSpec.csum].
  destruct (Nat.eq_dec i n) as [->|N].
  - rewrite Nat.eqb_refl. rewrite (csum_ext _ _ (fun _ => c0)).
    + rewrite csum_zero. ring.
    + intros k Hk. destruct (Nat.eqb_spec n k); [lia|ring].
  - rewrite IH by lia. destruct (Nat.eqb_spec i n); [lia|ring].
Qed.

Lemma csum_of n f : csum n (fun k => cof (f k)) = cof (fsum n f).
Proof. induction n as [|n IH]; cbn [DavSpec.csum fsum]; [reflexivity|]. now rewrite IH, of_add'. Qed.

(** The value |z|^2. *)
Definition abs2 (z : K) : F := fst z * fst z + snd z * snd z.
Lemma abs2_conj z : cmul (cconj z) z = cof (abs2 z).
Proof. destruct z. unfold abs2. cplx_tac. Qed.
Lemma abs2_conj' z : cmul z (cconj z) = cof (abs2 z).
Proof. destruct z. unfold abs2. cplx_tac. Qed.
Lemma abs2_nonneg z : le f0 (abs2 z).
Proof. unfold abs2. replace f0 with (f0 + f0) by ring. apply le_add2; apply sq_nonneg. Qed.
Lemma cof_inj x y : cof x = cof y -> x = y.
Proof. unfold DavSpec.cof. congruence. Qed.

(** Spectral facts about one Hermitian matrix. *)
Section Spectral.
Context (heev : nat -> (nat -> nat -> K) -> outcome ((nat -> nat -> K) * (nat -> F)))
  (HEEV : heev_ok f0 f1 fadd fmul fsub fopp fltb heev).

Lemma diag_facts n M U D : (forall i j, i < n -> j < n -> M j i = cconj (M i j)) ->
  diagHermitian fopp heev n (fun i j => copp (M i j)) = Ok (U, D) ->
  let w := fun i => - (D i) in
    (forall i j, i < j -> j < n -> le (w i) (w j)) /\
    (forall i j, i < n -> j < n -> csum n (fun k => cmul (cconj (U k i)) (U k j)) = if i =? j then c1 else c0) /\
    (forall i j, i < n -> j < n -> csum n (fun k => cmul (U i k) (cconj (U j k))) = if i =? j then c1 else c0) /\
    (forall i j, i < n -> j < n -> csum n (fun k => cmul (M i k) (U k j)) = cmul (U i j) (cof (w j))).
Proof.
  intros HM. unfold diagHermitian. destruct (n =? 0) eqn:En; [discriminate|].
  destruct (heev n _) as [[U' w']| |] eqn:E; cbn [obind]; try discriminate. intros [= -> <-].
  apply HEEV in E.
  - destruct E as (S1 & S2 & S3 & S4). repeat split.
    + intros i j Hij Hj. replace (- - w' i) with (w' i) by ring. replace (- - w' j) with (w' j) by ring. now apply S1.
    + exact S2.
    + exact S3.
    + intros i j Hi Hj. replace (- - w' j) with (w' j) by ring. rewrite <- S4 by assumption.
      apply csum_ext. intros k Hk. now rewrite opp_opp.
  - intros i j Hi Hj. rewrite !opp_opp. now apply HM.
Qed.

(** The expectation value of the matrix in column t is the t-th eigenvalue. *)
Lemma column_energy n M U w t : t < n ->
  (forall i j, i < n -> j < n -> csum n (fun k => cmul (cconj (U k i)) (U k j)) = if i =? j then c1 else c0) ->
  (forall i j, i < n -> j < n -> csum n (fun k => cmul (M i k) (U k j)) = cmul (U i j) (cof (w j))) ->
  csum n (fun i => cmul (cconj (U i t)) (csum n (fun k => cmul (M i k) (U k t)))) = cof (w t).
Proof.
  intros Ht UU MU. rewrite (csum_ext _ _ (fun i => cmul (cmul (cconj (U i t)) (U i t)) (cof (w t)))).
  - rewrite csum_scale_r, UU by assumption. rewrite Nat.eqb_refl. ring.
  - intros i Hi. rewrite MU by assumption. ring.
Qed.

(** The lowest eigenvalue is at most the first diagonal element. *)
Lemma lowest_le n M U w : 0 < n ->
  (forall i j, i < j -> j < n -> le (w i) (w j)) ->
  (forall i j, i < n -> j < n -> csum n (fun k => cmul (U i k) (cconj (U j k))) = if i =? j then c1 else c0) ->
  (forall i j, i < n -> j < n -> csum n (fun k => cmul (M i k) (U k j)) = cmul (U i j) (cof (w j))) ->
  forall x, M 0 0 = cof x -> le (w 0) x.
Proof.
  intros Hn So UU MU x Hx.
  assert (E : cof x = csum n (fun j => cof (abs2 (U 0 j) * w j))).
  { rewrite <- Hx.
    transitivity (csum n (fun k => cmul (if 0 =? k then c1 else c0) (M 0 k))); [now rewrite csum_delta|].
    rewrite (csum_ext _ _ (fun k => csum n (fun j => cmul (cmul (M 0 k) (U k j)) (cconj (U 0 j))))).
    - rewrite csum_swap. apply csum_ext. intros j Hj.
      rewrite csum_scale_r, MU by lia. rewrite of_mul', <- abs2_conj'. ring.
    - intros k Hk. rewrite (csum_ext _ _ (fun j => cmul (M 0 k) (cmul (U k j) (cconj (U 0 j))))) by (intros; ring).
      rewrite csum_scale, UU by lia. destruct (Nat.eqb_spec k 0); destruct (Nat.eqb_spec 0 k); try lia; ring. }
  rewrite csum_of in E. apply cof_inj in E. subst x.
  assert (N1 : fsum n (fun j => abs2 (U 0 j)) = f1).
  { apply cof_inj. rewrite <- csum_of, of_1.
    transitivity (csum n (fun k => cmul (U 0 k) (cconj (U 0 k)))); [|now apply (UU 0 0)].
    apply csum_ext. intros j Hj. now rewrite abs2_conj'. }
  replace (w 0) with (fsum n (fun j => w 0 * abs2 (U 0 j))) by (rewrite fsum_scale, N1; ring).
  apply fsum_le. intros k Hk. replace (w 0 * abs2 (U 0 k)) with (abs2 (U 0 k) * w 0) by ring.
  apply mul_le; [apply abs2_nonneg|]. destruct k as [|k]; [apply le_refl|]. apply So; lia.
Qed.
End Spectral.

End Ord.
