(** Lists of n complex numbers are a space with an inner product, and the product with a
    Hermitian matrix is a Hermitian operator on it: the spaces davidson works on. *)
From Coq Require Import List Arith Lia Bool Ring Field.
From Verif Require Import Util DavSpec DavModel DavProofs.
Import ListNotations.

Section ListSpace.
Context {F : Type} (f0 f1 : F) (fadd fmul fsub : F -> F -> F) (fopp : F -> F)
  (fdiv : F -> F -> F) (finv : F -> F) (fltb : F -> F -> bool)
  (OF : ordered_field f0 f1 fadd fmul fsub fopp fdiv finv fltb).
Notation K := (@cplx F).
Notation c0 := (c0 f0). Notation c1 := (c1 f0 f1). Notation cof := (cof f0).
Notation cadd := (cadd fadd). Notation cmul := (cmul fadd fmul fsub). Notation copp := (copp fopp).
Notation csub := (csub fsub). Notation cconj := (cconj fopp).
Notation csum := (csum f0 fadd).
Let FT := of_field _ _ _ _ _ _ _ _ _ OF.
Add Field FFdli : FT.
Let CR := cring f0 f1 fadd fmul fsub fopp fdiv finv fltb OF.
Add Ring CRdli : CR.

Definition ladd (v w : list K) : list K := map (fun p => cadd (fst p) (snd p)) (combine v w).
Definition lscale (c : K) (v : list K) : list K := map (cmul c) v.
Definition ldot (v w : list K) : K := csum (length v) (fun i => cmul (cconj (nth i v c0)) (nth i w c0)).
Definition lapply (n : nat) (M : nat -> nat -> K) (v : list K) : list K :=
  map (fun i => csum n (fun j => cmul (M i j) (nth j v c0))) (seq 0 n).

Lemma ladd_nth v w i : length v = length w -> nth i (ladd v w) c0 = cadd (nth i v c0) (nth i w c0).
Proof.
  intros H. unfold ladd.
  replace c0 with (cadd (fst (c0, c0)) (snd (c0, c0))) at 1 by (cbn [fst snd]; ring).
  rewrite (map_nth (fun p => cadd (fst p) (snd p))). rewrite combine_nth by assumption. reflexivity.
Qed.

Lemma lscale_nth c v i : nth i (lscale c v) c0 = cmul c (nth i v c0).
Proof.
  unfold lscale. replace c0 with (cmul c c0) at 1 by ring. now rewrite map_nth.
Qed.

Lemma lapply_nth n M v i : i < n -> nth i (lapply n M v) c0 = csum n (fun j => cmul (M i j) (nth j v c0)).
Proof.
  intros H. unfold lapply.
  rewrite (nth_indep _ c0 ((fun i => csum n (fun j => cmul (M i j) (nth j v c0))) 0)) by now rewrite map_length, seq_length.
  rewrite (map_nth (fun i => csum n (fun j => cmul (M i j) (nth j v c0)))). now rewrite seq_nth.
Qed.

Lemma list_space n : inner_space f0 fadd fmul fsub fopp fltb (fun v : list K => length v = n) ladd lscale ldot.
Proof.
  constructor.
  - intros v w Hv Hw. unfold ladd. rewrite map_length, combine_length. lia.
  - intros c v Hv. unfold lscale. now rewrite map_length.
  - intros u v w Hu Hv Hw. unfold ldot. rewrite <- (csum_add f0 f1 fadd fmul fsub fopp fdiv finv fltb OF).
    apply csum_ext. intros k Hk. rewrite ladd_nth by congruence. ring.
  - intros c u v Hu Hv. unfold ldot. rewrite <- (csum_scale f0 f1 fadd fmul fsub fopp fdiv finv fltb OF).
    apply csum_ext. intros k Hk. rewrite lscale_nth. ring.
  - intros u v Hu Hv. unfold ldot. rewrite (csum_conj f0 f1 fadd fmul fsub fopp fdiv finv fltb OF). rewrite Hu, Hv.
    apply csum_ext. intros k Hk. rewrite (conj_mul f0 f1 fadd fmul fsub fopp fdiv finv fltb OF).
    rewrite (conj_conj f0 f1 fadd fmul fsub fopp fdiv finv fltb OF). ring.
  - intros v Hv. unfold ldot.
    rewrite (csum_ext f0 fadd _ _ (fun i => cof (abs2 fadd fmul (nth i v c0)))) by (intros; apply (abs2_conj f0 f1 fadd fmul fsub fopp fdiv finv fltb OF)).
    rewrite (csum_of f0 f1 fadd fmul fsub fopp fdiv finv fltb OF). unfold DavSpec.cof. cbn [fst].
    replace f0 with (fsum f0 fadd (length v) (fun _ => f0)) at 2.
    + apply (fsum_le f0 f1 fadd fmul fsub fopp fdiv finv fltb OF). intros k _. apply (abs2_nonneg f0 f1 fadd fmul fsub fopp fdiv finv fltb OF).
    + clear Hv. induction (length v) as [|m IH]; cbn [fsum]; [reflexivity|]. rewrite IH. ring.
Qed.

Lemma matrix_hermitian n M : (forall i j, i < n -> j < n -> M j i = cconj (M i j)) ->
  hermitian fadd fmul fsub (fun v : list K => length v = n) ladd lscale ldot (lapply n M).
Proof.
  intros HM. constructor.
  - intros v _. unfold lapply. now rewrite map_length, seq_length.
  - intros u v w Hu Hv Hw. unfold ldot. rewrite <- (csum_add f0 f1 fadd fmul fsub fopp fdiv finv fltb OF).
    apply csum_ext. intros k Hk. rewrite !lapply_nth by lia.
    rewrite (csum_ext f0 fadd _ _ (fun j => cadd (cmul (M k j) (nth j v c0)) (cmul (M k j) (nth j w c0))))
      by (intros; rewrite ladd_nth by congruence; ring).
    rewrite (csum_add f0 f1 fadd fmul fsub fopp fdiv finv fltb OF). ring.
  - intros c u v Hu Hv. unfold ldot. rewrite <- (csum_scale f0 f1 fadd fmul fsub fopp fdiv finv fltb OF).
    apply csum_ext. intros k Hk. rewrite !lapply_nth by lia.
    rewrite (csum_ext f0 fadd _ _ (fun j => cmul c (cmul (M k j) (nth j v c0)))) by (intros; rewrite lscale_nth; ring).
    rewrite (csum_scale f0 f1 fadd fmul fsub fopp fdiv finv fltb OF). ring.
  - intros u v Hu Hv. unfold ldot. rewrite Hu. unfold lapply at 2. rewrite map_length, seq_length.
    rewrite (csum_ext f0 fadd n _ (fun i => csum n (fun j => cmul (cmul (cconj (nth i u c0)) (M i j)) (nth j v c0)))).
    2:{ intros k Hk. rewrite lapply_nth by assumption. rewrite <- (csum_scale f0 f1 fadd fmul fsub fopp fdiv finv fltb OF). apply csum_ext. intros; ring. }
    rewrite (csum_swap f0 f1 fadd fmul fsub fopp fdiv finv fltb OF). apply csum_ext. intros j Hj.
    rewrite lapply_nth by assumption. rewrite (csum_conj f0 f1 fadd fmul fsub fopp fdiv finv fltb OF).
    rewrite <- (csum_scale_r f0 f1 fadd fmul fsub fopp fdiv finv fltb OF).
    apply csum_ext. intros i Hi. rewrite (conj_mul f0 f1 fadd fmul fsub fopp fdiv finv fltb OF).
    rewrite (HM j i) by assumption. rewrite (HM i j), (conj_conj f0 f1 fadd fmul fsub fopp fdiv finv fltb OF) by assumption. ring.
Qed.

End ListSpace.
