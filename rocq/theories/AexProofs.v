(** Proofs about AexModel.v. *)
From Coq Require Import List Arith Bool ZArith Lia Ring Field.
From Verif Require Import Util BigSum DavSpec DavProofs GmSpec GmModel PadeSpec PadeModel PadeProofs AexSpec AexModel.
Import ListNotations.
Local Open Scope outcome_scope.

Section Aex.
Context {F : Type} (f0 f1 : F) (fadd fmul fsub : F -> F -> F) (fopp : F -> F) (fdiv : F -> F -> F) (finv : F -> F)
  (fltb : F -> F -> bool) (OF : ordered_field f0 f1 fadd fmul fsub fopp fdiv finv fltb)
  (fsqrt : F -> outcome F) (SQ : sqrt_ok f0 fmul fltb fsqrt).
Context {T : Type} (t0 t1 : T) (tadd tmul tsub : T -> T -> T) (topp : T -> T) (tdiv : T -> T -> T) (tinv : T -> T).
Context (FT : field_theory t0 t1 tadd tmul tsub topp tdiv tinv eq).
Context (tconj : T -> T) (emb : F -> T) (re : T -> F) (NU : numbers f0 f1 fadd fmul t0 t1 tadd tmul tconj emb re).
Context (tabs : T -> F) (tlog : F -> Z) (gesv : nat -> @mat T -> @mat T -> outcome (@mat T)) (debug : bool).
Context {V : Type} (vadd : V -> V -> V) (vscale : T -> V -> V) (dot : V -> V -> T) (H : V -> V).
Context (SP : space f0 fltb t0 tadd tmul tconj emb vadd vscale dot) (LI : linear vadd vscale dot H).
Add Field FTaex : FT.
Let FF := of_field _ _ _ _ _ _ _ _ _ OF.
Add Field FFaex : FF.
Let RT := F_R FT.
Notation "x + y" := (tadd x y). Notation "x * y" := (tmul x y).
Notation bsum := (bsum t0 tadd).
Notation comb := (comb t0 vadd vscale). Notation krylov := (krylov t0 vadd vscale).
Notation mpoly := (mpoly t0 t1 tadd tmul). Notation mmul := (mmul t0 tadd tmul). Notation mpow := (mpow t0 t1 tadd tmul).
Notation vsub := (vsub t1 topp vadd vscale). Notation vnorm := (vnorm fsqrt re dot).
Let b_ext := bsum_ext t0 tadd.
Let b_zero := bsum_zero t0 t1 tadd tmul tsub topp RT.
Let b_add := bsum_add t0 t1 tadd tmul tsub topp RT.
Let b_mul_l := bsum_mul_l t0 t1 tadd tmul tsub topp RT.
Let b_mul_r := bsum_mul_r t0 t1 tadd tmul tsub topp RT.
Let b_swap := bsum_swap t0 t1 tadd tmul tsub topp RT.
Let b_split := bsum_split t0 t1 tadd tmul tsub topp RT.

(** ** Inner products of the operations *)
Lemma dot_scale c u v : dot u (vscale c v) = c * dot u v. Proof. apply (sp_scale _ _ _ _ _ _ _ _ _ _ SP). Qed.
Lemma dot_add u v w : dot u (vadd v w) = dot u v + dot u w. Proof. apply (sp_add _ _ _ _ _ _ _ _ _ _ SP). Qed.
Lemma dot_sub u v w : dot u (vsub v w) = dot u v + topp (dot u w).
Proof. unfold GmSpec.vsub. rewrite dot_add, dot_scale. ring. Qed.
Lemma dot_conj u v : dot v u = tconj (dot u v). Proof. apply (sp_conj _ _ _ _ _ _ _ _ _ _ SP). Qed.
Let CJ := nu_conj _ _ _ _ _ _ _ _ _ _ _ NU.
Lemma conj_emb r : tconj (emb r) = emb r.
Proof. apply (nu_real _ _ _ _ _ _ _ _ _ _ _ NU). eexists; reflexivity. Qed.
Lemma dot_scale_l c u v : dot (vscale c u) v = tconj c * dot u v.
Proof. rewrite dot_conj, dot_scale, (cj_mul _ _ _ _ CJ), <- dot_conj. reflexivity. Qed.
Lemma dot_add_l u v w : dot (vadd u v) w = dot u w + dot v w.
Proof. rewrite dot_conj, dot_add, (cj_add _ _ _ _ CJ), <- !dot_conj. reflexivity. Qed.
Lemma dot_comb g y u : forall n, dot g (comb n y u) = bsum n (fun i => y i * dot g (u i)).
Proof. induction n as [|n IH]; cbn [AexSpec.comb BigSum.bsum]; [rewrite dot_scale; ring|]. now rewrite dot_add, dot_scale, IH. Qed.
Lemma dot_assemble g vs lc nrm : forall n, dot g (assemble tmul emb vadd vscale (S n) vs lc nrm) = bsum (S n) (fun i => lc i * (emb nrm * dot g (vs i))).
Proof.
  induction n as [|n IH]; [cbn [assemble BigSum.bsum]; rewrite dot_scale; ring|].
  change (assemble tmul emb vadd vscale (S (S n)) vs lc nrm) with (vadd (assemble tmul emb vadd vscale (S n) vs lc nrm) (vscale (emb nrm * lc (S n)) (vs (S n)))).
  rewrite dot_add, dot_scale, IH. change (bsum (S (S n)) (fun i => lc i * (emb nrm * dot g (vs i)))) with
    (bsum (S n) (fun i => lc i * (emb nrm * dot g (vs i))) + lc (S n) * (emb nrm * dot g (vs (S n)))). ring.
Qed.
Lemma H_ext v w : veq dot v w -> forall g, dot g (H v) = dot g (H w).
Proof. intros E g. exact (li_ext _ _ _ _ LI v w E g). Qed.
Lemma H_scale c v g : dot g (H (vscale c v)) = c * dot g (H v).
Proof. rewrite (li_scale _ _ _ _ LI c v g). apply dot_scale. Qed.
Lemma H_add v w g : dot g (H (vadd v w)) = dot g (H v) + dot g (H w).
Proof. rewrite (li_add _ _ _ _ LI v w g). apply dot_add. Qed.
Lemma H_comb g y u : forall n, dot g (H (comb n y u)) = bsum n (fun i => y i * dot g (H (u i))).
Proof. induction n as [|n IH]; cbn [AexSpec.comb BigSum.bsum]; [rewrite H_scale; ring|]. now rewrite H_add, H_scale, IH. Qed.
Lemma comb_ext n y y' u : (forall i, i < n -> y i = y' i) -> veq dot (comb n y u) (comb n y' u).
Proof. intros E g. rewrite !dot_comb. apply b_ext. intros i Hi. now rewrite E. Qed.
Lemma bsum_cut : forall k d f, d <= k -> (forall l, d <= l -> l < k -> f l = t0) -> bsum k f = bsum d f.
Proof.
  intros k d f Hd Hf. replace k with (d + (k - d))%nat by lia. rewrite b_split.
  rewrite (b_zero (k - d)%nat (fun i => f (d + i)%nat)) by (intros; apply Hf; lia). ring.
Qed.

(** ** Polynomials of a small matrix whose first columns are those of H *)
Section Small.
Context (k s d : nat) (M : @mat T) (u : nat -> V).
Context (Hs : 1 <= s) (Hsk : s <= k) (Hd : d <= s).
Context (rel : forall i g, i < d -> dot g (H (u i)) = bsum s (fun j => M j i * dot g (u j))).
Context (hess : forall i j, i < k -> j < k -> j + 1 < i -> M i j = t0).
Lemma poly_left x c i : i < k -> mpoly k (x :: c) M i 0 = x * (if i =? 0 then t1 else t0) + bsum k (fun l => M i l * mpoly k c M l 0).
Proof.
  intros Hi. cbn [PadeSpec.mpoly]. unfold madd, mscale, mone. f_equal.
  symmetry. exact (poly_A t0 t1 tadd tmul tsub topp tdiv tinv FT k c M i 0 Hi ltac:(lia)).
Qed.
Lemma support c : forall i, i < k -> length c <= i -> mpoly k c M i 0 = t0.
Proof.
  induction c as [|x c IH]; intros i Hi Hl; [reflexivity|]. cbn [length] in Hl. rewrite poly_left by assumption.
  destruct (Nat.eqb_spec i 0) as [E|E]; [lia|]. rewrite b_zero; [ring|]. intros l Hl'.
  destruct (le_lt_dec (length c) l) as [L|L]; [rewrite IH by assumption; ring|]. rewrite hess by lia. ring.
Qed.
Lemma small_poly c : length c <= S d -> forall g, dot g (comb s (fun i => mpoly k c M i 0) u) = dot g (krylov H (u 0) c).
Proof.
  induction c as [|x c IH]; intros Hl g; [cbn [GmSpec.krylov]; rewrite dot_comb, dot_scale; rewrite b_zero; [ring|intros; cbn; ring]|].
  cbn [length] in Hl. cbn [GmSpec.krylov]. rewrite dot_add, dot_scale.
  rewrite <- (H_ext _ _ (IH ltac:(lia)) g), H_comb, dot_comb.
  rewrite (b_ext s _ (fun i => (if i =? 0 then t1 else t0) * (x * dot g (u 0)) + bsum k (fun l => mpoly k c M l 0 * (M i l * dot g (u i))))).
  2:{ intros i Hi. rewrite poly_left by lia. rewrite (b_ext k (fun l => mpoly k c M l 0 * (M i l * dot g (u i))) (fun l => M i l * mpoly k c M l 0 * dot g (u i))) by (intros; ring).
      rewrite b_mul_r. destruct (Nat.eqb_spec i 0) as [->|E]; ring. }
  rewrite b_add. f_equal.
  - rewrite b_mul_r. destruct s as [|s']; [lia|]. rewrite (bsum_shift t0 t1 tadd tmul tsub topp tdiv tinv FT), b_zero by reflexivity. cbn [Nat.eqb]. ring.
  - rewrite b_swap.
    rewrite (bsum_cut k d) by (lia || (intros l L1 L2; apply b_zero; intros; rewrite support by lia; ring)).
    rewrite (bsum_cut s d (fun i => mpoly k c M i 0 * dot g (H (u i)))) by (lia || (intros l L1 L2; rewrite support by lia; ring)).
    apply b_ext. intros l Hl'. rewrite b_mul_l, <- rel by assumption. reflexivity.
Qed.
End Small.

(** A matrix that H is on the span of u. *)
Section Closed.
Context (m : nat) (M : @mat T) (u : nat -> V) (z : T).
Context (rel : forall i g, i < m -> dot g (H (u i)) = bsum m (fun j => M j i * dot g (u j))).
Lemma closed_poly c : forall y g,
  dot g (krylov (fun v => vscale z (H v)) (comb m y u) c) = dot g (comb m (fun i => bsum m (fun l => mpoly m c (mscale tmul z M) i l * y l)) u).
Proof.
  induction c as [|x c IH]; intros y g; cbn [GmSpec.krylov].
  - transitivity t0; [rewrite dot_scale; ring|]. symmetry. rewrite dot_comb. apply b_zero. intros i Hi. rewrite b_zero; [ring|]. intros; cbn; ring.
  - rewrite dot_add, !dot_scale. rewrite (H_ext _ _ (IH y) g), H_comb, !dot_comb.
    set (A := mscale tmul z M) in *. set (P := mpoly m c A).
    rewrite (b_ext m (fun i => bsum m (fun l => mpoly m (x :: c) A i l * y l) * dot g (u i))
      (fun i => x * (y i * dot g (u i)) + z * bsum m (fun j => bsum m (fun l => P j l * y l) * (M i j * dot g (u i))))).
    + rewrite b_add, !b_mul_l. f_equal. f_equal. rewrite b_swap. apply b_ext. intros j Hj. rewrite b_mul_l, <- rel by assumption. reflexivity.
    + intros i Hi. rewrite (b_ext m _ (fun l => x * (delta t0 t1 i l * y l) + mmul m A P i l * y l)).
      2:{ intros l Hl. cbn [PadeSpec.mpoly]. unfold madd at 1. pose proof (poly_A t0 t1 tadd tmul tsub topp tdiv tinv FT m c A i l Hi Hl) as E. fold P in E |- *. rewrite <- E.
          set (q := mmul m A P i l). unfold mscale, mone, delta. destruct (i =? l); ring. }
      rewrite b_add, b_mul_l, (bsum_delta t0 t1 tadd tmul tsub topp RT) by assumption.
      transitivity (x * (y i * dot g (u i)) + bsum m (fun l => mmul m A P i l * y l) * dot g (u i)); [ring|]. f_equal.
      rewrite <- b_mul_l. unfold PadeSpec.mmul.
      rewrite (b_ext m (fun l => bsum m (fun k => A i k * P k l) * y l) (fun l => bsum m (fun k => A i k * (P k l * y l)))).
      2:{ intros l Hl. rewrite <- b_mul_r. apply b_ext. intros; ring. }
      rewrite b_swap, <- b_mul_r. apply b_ext. intros j Hj. rewrite b_mul_l. unfold A, mscale. ring.
Qed.
End Closed.

(** ** The Lanczos sequence *)
Record inv (nrm : F) (phi : V) (iter : nat) (B : nat -> nat -> F) (vs : nat -> V) (v0 v1 : V) (beta : F) : Prop := {
  in_1 : v1 = vs iter;
  in_0 : forall i, iter = S i -> v0 = vs i /\ beta = B iter i;
  in_far : forall i j, j + 1 < i -> B i j = f0;
  in_new : forall i, iter <= i -> B i i = f0 /\ B (S i) i = f0;
  in_sym : forall i j, B i j = B j i;
  in_rel : forall i g, i < iter -> dot g (H (vs i)) = bsum (S iter) (fun j => emb (B j i) * dot g (vs j));
  in_start : vs 0 = vscale (emb (finv nrm)) phi }.
Notation upd2 := (@upd2 F).
Definition resid (iter : nat) (v0 v1 : V) (beta : F) : V :=
  let w := vsub (H v1) (vscale (emb (re (dot (H v1) v1))) v1) in if 0 <? iter then vsub w (vscale (emb beta) v0) else w.
Lemma upd2_at M i j x : upd2 M i j x i j = x. Proof. unfold AexModel.upd2. now rewrite !Nat.eqb_refl. Qed.
Lemma upd2_else M i j x a b : a <> i \/ b <> j -> upd2 M i j x a b = M a b.
Proof. intros E. unfold AexModel.upd2. destruct (Nat.eqb_spec a i), (Nat.eqb_spec b j); cbn [andb]; try reflexivity. lia. Qed.
Lemma emb0 : emb f0 = t0. Proof. apply (nu_0 _ _ _ _ _ _ _ _ _ _ _ NU). Qed.
Lemma column_eq nrm phi iter B vs v0 v1 beta : inv nrm phi iter B vs v0 v1 beta ->
  forall g, dot g (H v1) = bsum (S iter) (fun j => emb (upd2 B iter iter (re (dot (H v1) v1)) j iter) * dot g (vs j)) + dot g (resid iter v0 v1 beta).
Proof.
  intros I g. cbn [BigSum.bsum]. rewrite upd2_at. unfold resid. set (al := re (dot (H v1) v1)).
  rewrite <- (in_1 _ _ _ _ _ _ _ _ I). destruct iter as [|it].
  - cbn [BigSum.bsum Nat.ltb Nat.leb]. rewrite dot_sub, dot_scale. ring.
  - destruct (in_0 _ _ _ _ _ _ _ _ I it eq_refl) as [E0 Eb]. change (0 <? S it) with true. cbv iota.
    cbn [BigSum.bsum]. rewrite (b_zero it).
    + rewrite upd2_else by lia. rewrite (in_sym _ _ _ _ _ _ _ _ I it (S it)), <- Eb, <- E0. rewrite !dot_sub, !dot_scale. ring.
    + intros j Hj. rewrite upd2_else by lia. rewrite (in_sym _ _ _ _ _ _ _ _ I j (S it)), (in_far _ _ _ _ _ _ _ _ I) by lia. rewrite emb0. ring.
Qed.
Lemma inv_init nrm phi : inv nrm phi 0 (fun _ _ => f0) (fun _ => vscale (emb (finv nrm)) phi) phi (vscale (emb (finv nrm)) phi) f0.
Proof. split; intros; try reflexivity; try lia. split; reflexivity. Qed.
Lemma is0 x : fis0 f0 fltb x = false -> x <> f0.
Proof. intros E ->. unfold fis0 in E. rewrite (of_irrefl _ _ _ _ _ _ _ _ _ OF) in E. discriminate. Qed.
Lemma emb_inv b : b <> f0 -> emb b * emb (finv b) = t1.
Proof. intros N. rewrite <- (nu_mul _ _ _ _ _ _ _ _ _ _ _ NU). replace (fmul b (finv b)) with f1 by (field; assumption). apply (nu_1 _ _ _ _ _ _ _ _ _ _ _ NU). Qed.
Lemma inv_step nrm phi iter B vs v0 v1 beta b : inv nrm phi iter B vs v0 v1 beta -> b <> f0 ->
  inv nrm phi (S iter) (upd2 (upd2 (upd2 B iter iter (re (dot (H v1) v1))) (iter + 1) iter b) iter (iter + 1) b)
    (upd vs (iter + 1) (vscale (emb (finv b)) (resid iter v0 v1 beta))) v1 (vscale (emb (finv b)) (resid iter v0 v1 beta)) b.
Proof.
  intros I Nb. rewrite Nat.add_1_r. split.
  - unfold upd. now rewrite Nat.eqb_refl.
  - intros i E. injection E as ->. split.
    + unfold upd. destruct (Nat.eqb_spec i (S i)); [lia|]. exact (in_1 _ _ _ _ _ _ _ _ I).
    + rewrite upd2_else by lia. now rewrite upd2_at.
  - intros i j L. rewrite !upd2_else by lia. apply (in_far _ _ _ _ _ _ _ _ I); lia.
  - intros i L. rewrite !upd2_else by lia. apply (in_new _ _ _ _ _ _ _ _ I); lia.
  - intros i j. pose proof (in_sym _ _ _ _ _ _ _ _ I i j) as E. unfold AexModel.upd2.
    destruct (Nat.eqb_spec i iter), (Nat.eqb_spec j iter), (Nat.eqb_spec i (S iter)), (Nat.eqb_spec j (S iter)); cbn [andb]; try lia; congruence.
  - intros i g L. destruct (Nat.eq_dec i iter) as [->|N].
    + unfold upd at 1. destruct (Nat.eqb_spec iter (S iter)); [lia|]. rewrite <- (in_1 _ _ _ _ _ _ _ _ I).
      rewrite (column_eq nrm phi iter B vs v0 v1 beta I g).
      change (bsum (S (S iter)) ?f) with (bsum (S iter) f + f (S iter)). f_equal.
      * apply b_ext. intros j Hj. unfold upd. destruct (Nat.eqb_spec j (S iter)); [lia|].
        f_equal. f_equal. rewrite (upd2_else _ iter (S iter)) by lia. rewrite (upd2_else _ (S iter) iter) by lia. reflexivity.
      * unfold upd. rewrite Nat.eqb_refl. rewrite (upd2_else _ iter (S iter)) by lia. rewrite upd2_at, dot_scale.
        transitivity (emb b * emb (finv b) * dot g (resid iter v0 v1 beta)); [rewrite emb_inv by assumption; ring|ring].
    + unfold upd at 1. destruct (Nat.eqb_spec i (S iter)); [lia|].
      rewrite (in_rel _ _ _ _ _ _ _ _ I i g) by lia.
      change (bsum (S (S iter)) ?f) with (bsum (S iter) f + f (S iter)). cbv beta.
      rewrite (upd2_else _ iter (S iter) b (S iter)) by lia. rewrite (upd2_else _ (S iter) iter) by lia. rewrite (upd2_else _ iter iter) by lia.
      rewrite (in_far _ _ _ _ _ _ _ _ I (S iter) i) by lia. rewrite emb0.
      transitivity (bsum (S iter) (fun j => emb (B j i) * dot g (vs j)) + t0); [ring|]. f_equal; [|ring].
      apply b_ext. intros j Hj. unfold upd. destruct (Nat.eqb_spec j (S iter)); [lia|]. rewrite !upd2_else by lia. reflexivity.
  - unfold upd. cbn [Nat.eqb]. exact (in_start _ _ _ _ _ _ _ _ I).
Qed.

Lemma norm_sq v b : vnorm v = Ok b -> dot v v = emb (fmul b b) /\ fltb b f0 = false.
Proof.
  intros E. unfold GmModel.vnorm in E. apply SQ in E. destruct E as [E P]. split; [|assumption]. rewrite E.
  destruct (sp_pos _ _ _ _ _ _ _ _ _ _ SP v) as (p & Ep & _). rewrite Ep. now rewrite (nu_re _ _ _ _ _ _ _ _ _ _ _ NU).
Qed.
Lemma self_real : self_adjoint dot H -> forall v, emb (re (dot (H v) v)) = dot v (H v).
Proof.
  intros SA v. rewrite (SA v v). assert (E : tconj (dot (H v) v) = dot (H v) v).
  { rewrite <- dot_conj. now rewrite SA. }
  apply (nu_real _ _ _ _ _ _ _ _ _ _ _ NU) in E. destruct E as [r E]. rewrite E. now rewrite (nu_re _ _ _ _ _ _ _ _ _ _ _ NU).
Qed.
Notation orth n v := (orthonormal t0 t1 dot n v).
Lemma bsum_pick n i f : i < n -> (forall j, j < n -> j <> i -> f j = t0) -> bsum n f = f i.
Proof.
  intros Hi Hf. rewrite (b_ext n f (fun j => delta t0 t1 i j * f j)).
  - exact (bsum_delta t0 t1 tadd tmul tsub topp RT n i f Hi).
  - intros j Hj. unfold delta. destruct (Nat.eqb_spec i j) as [->|N]; [ring|]. rewrite (Hf j Hj) by lia. ring.
Qed.
Lemma resid_orth nrm phi iter B vs v0 v1 beta : self_adjoint dot H -> inv nrm phi iter B vs v0 v1 beta -> orth (S iter) vs ->
  forall j, j < S iter -> dot (vs j) (resid iter v0 v1 beta) = t0.
Proof.
  intros SA I ON j Hj. pose proof (column_eq nrm phi iter B vs v0 v1 beta I (vs j)) as E.
  rewrite (bsum_pick (S iter) j) in E by (assumption || (intros l Hl N; rewrite (ON j l Hj Hl); destruct (Nat.eqb_spec j l); [lia|ring])).
  rewrite (ON j j Hj Hj), Nat.eqb_refl in E.
  assert (G : dot (vs j) (H v1) = emb (upd2 B iter iter (re (dot (H v1) v1)) j iter)).
  { destruct (Nat.eq_dec j iter) as [->|N].
    - rewrite upd2_at. rewrite (in_1 _ _ _ _ _ _ _ _ I). symmetry. apply self_real, SA.
    - rewrite upd2_else by lia. rewrite SA, dot_conj. rewrite (in_1 _ _ _ _ _ _ _ _ I).
      rewrite (in_rel _ _ _ _ _ _ _ _ I j) by lia.
      rewrite (bsum_pick (S iter) iter) by (lia || (intros l Hl N'; rewrite (ON iter l ltac:(lia) Hl); destruct (Nat.eqb_spec iter l); [lia|ring])).
      rewrite (ON iter iter) by lia. rewrite Nat.eqb_refl. rewrite (in_sym _ _ _ _ _ _ _ _ I j iter).
      replace (emb (B iter j) * t1) with (emb (B iter j)) by ring. apply conj_emb. }
  rewrite G in E. set (a := emb (upd2 B iter iter (re (dot (H v1) v1)) j iter)) in *. set (r := dot (vs j) (resid iter v0 v1 beta)) in *.
  transitivity (a * t1 + r + topp a); [ring|]. rewrite <- E. ring.
Qed.
Lemma orth_step nrm phi iter B vs v0 v1 beta b : self_adjoint dot H -> inv nrm phi iter B vs v0 v1 beta -> orth (S iter) vs ->
  vnorm (resid iter v0 v1 beta) = Ok b -> b <> f0 ->
  orth (S (S iter)) (upd vs (iter + 1) (vscale (emb (finv b)) (resid iter v0 v1 beta))).
Proof.
  intros SA I ON EN Nb. pose proof (resid_orth _ _ _ _ _ _ _ _ SA I ON) as RO. destruct (norm_sq _ _ EN) as [NS _].
  set (w := resid iter v0 v1 beta) in *. intros j k Hj Hk. rewrite Nat.add_1_r. unfold upd.
  destruct (Nat.eqb_spec j (S iter)) as [->|Nj], (Nat.eqb_spec k (S iter)) as [->|Nk].
  - rewrite Nat.eqb_refl, dot_scale, dot_scale_l, conj_emb, NS, (nu_mul _ _ _ _ _ _ _ _ _ _ _ NU).
    transitivity ((emb b * emb (finv b)) * (emb b * emb (finv b))); [ring|]. rewrite emb_inv by assumption. ring.
  - destruct (Nat.eqb_spec (S iter) k) as [E|_]; [lia|]. rewrite dot_conj, dot_scale, RO by lia.
    replace (emb (finv b) * t0) with t0 by ring. apply (conj_0 t0 t1 tadd tmul tsub topp tdiv tinv FT tconj CJ).
  - destruct (Nat.eqb_spec j (S iter)) as [E|_]; [lia|]. rewrite dot_scale, RO by lia. ring.
  - apply ON; lia.
Qed.

(** ** The whole run *)
Notation expMatrix := (expMatrix f0 fadd fltb t0 t1 tadd tmul tsub topp tinv tabs tlog gesv debug).
Notation lanczos := (lanczos f0 f1 fadd fmul fsub fopp finv fltb fsqrt t0 t1 tadd tmul tsub topp tinv emb re tabs tlog gesv debug vadd vscale dot H).
Notation applyExp := (applyExp f0 f1 fadd fmul fsub fopp finv fltb fsqrt t0 t1 tadd tmul tsub topp tinv emb re tabs tlog gesv debug vadd vscale dot H).
Notation estimate := (estimate f0 f1 fadd fmul fsub finv fltb).
Notation assemble := (assemble tmul emb vadd vscale).
Definition fabsv (b : F) : F := if fltb b f0 then fopp b else b.
Definition done (tau : T) (tol beta_tol : F) (phi : V) (nrm : F) (start last : nat) (res : V) (e : exit F) : Prop :=
  match e with
  | Unchanged => res = phi /\ (last = start \/ start = 0 /\ last = 1)
  | Exhausted m b => exists it B vs v0 v1 beta X, m = S it /\ S it <= last /\ inv nrm phi it B vs v0 v1 beta /\
      (self_adjoint dot H -> orth (S it) vs) /\ vnorm (resid it v0 v1 beta) = Ok b /\ fltb (fabsv b) beta_tol = true /\
      expMatrix m m (fun i j => emb (upd2 B it it (re (dot (H v1) v1)) i j)) tau 6 = Ok X /\
      res = assemble m vs (fun i => X i 0) nrm
  | Stopped m => exists it B vs v0 v1 beta X av, m = S it /\ 1 <= it /\ S it <= last /\ inv nrm phi (S it) B vs v0 v1 beta /\
      (self_adjoint dot H -> orth (S (S it)) vs) /\
      expMatrix (S (S m)) (S (S m)) (fun i j => emb (upd2 (upd2 B it m f0) (S m) m f1 i j)) tau 6 = Ok X /\
      res = assemble (S m) vs (fun i => X i 0) nrm /\ vnorm (H (vs it)) = Ok av /\
      (S it < last -> fltb (estimate (tabs (emb nrm * X m 0)) (tabs (emb nrm * (X (S m) 0 * emb av)))) tol = true)
  end.
Lemma run tau tol beta_tol phi nrm : forall left iter B vs v0 v1 beta res e,
  inv nrm phi iter B vs v0 v1 beta -> (self_adjoint dot H -> orth (S iter) vs) ->
  lanczos tau tol beta_tol phi nrm left iter B vs v0 v1 beta = Ok (res, e) -> done tau tol beta_tol phi nrm iter (iter + left)%nat res e.
Proof.
  induction left as [|left IH]; intros iter B vs v0 v1 beta res e I ON E; cbn [AexModel.lanczos] in E.
  - injection E as <- <-. split; [reflexivity|]. left. lia.
  - destruct (vnorm (H v1)) as [av| |] eqn:EA; cbn [obind] in E; try discriminate E. fold (resid iter v0 v1 beta) in E.
    destruct (vnorm (resid iter v0 v1 beta)) as [b| |] eqn:EN; cbn [obind] in E; try discriminate E. fold (fabsv b) in E.
    destruct (fltb (fabsv b) beta_tol) eqn:EB.
    + destruct (expMatrix _ _ _ _ _) as [X| |] eqn:EX in E; cbn [obind] in E; try discriminate E. injection E as <- <-.
      rewrite Nat.add_1_r in EX |- *.
      exists iter, B, vs, v0, v1, beta, X. split; [reflexivity|]. split; [lia|]. split; [exact I|]. split; [exact ON|].
      split; [exact EN|]. split; [exact EB|]. split; [exact EX|reflexivity].
    + destruct (fis0 f0 fltb b) eqn:E0; [discriminate E|]. apply is0 in E0.
      pose proof (inv_step _ _ _ _ _ _ _ _ b I E0) as I'. 
      assert (ON' : self_adjoint dot H -> orth (S (S iter)) (upd vs (iter + 1) (vscale (emb (finv b)) (resid iter v0 v1 beta)))).
      { intros SA. eapply orth_step; eauto. }
      destruct (Nat.ltb_spec 0 iter) as [L|L].
      * destruct (expMatrix _ _ _ _ _) as [X| |] eqn:EX in E; cbn [obind] in E; try discriminate E.
        destruct (_ || _) eqn:EE in E.
        -- injection E as <- <-. rewrite !(Nat.add_1_r iter) in *. replace (S iter - 1) with iter in EX by lia. replace (S iter + 2)%nat with (S (S (S iter))) in EX by lia.
           rewrite !(Nat.add_1_r (S iter)) in *.
           exists iter. do 5 eexists. exists X, av. split; [reflexivity|]. split; [lia|]. split; [lia|]. split; [exact I'|].
           split; [exact ON'|]. split; [exact EX|]. split; [reflexivity|].
           split; [unfold upd; destruct (Nat.eqb_spec iter (S iter)); [lia|]; now rewrite <- (in_1 _ _ _ _ _ _ _ _ I)|].
           intros Ll. apply orb_true_iff in EE. destruct EE as [EE|EE]; [|apply Nat.eqb_eq in EE; lia].
           exact EE.
        -- apply orb_false_iff in EE. destruct EE as [_ EE]. apply Nat.eqb_neq in EE.
           apply IH in E; [|exact I'|exact ON']. destruct e; cbn [done] in E |- *.
           ++ destruct E as [E1 [E2|E2]]; [|lia]. lia.
           ++ replace (S iter + left)%nat with (iter + S left)%nat in E by lia. exact E.
           ++ replace (S iter + left)%nat with (iter + S left)%nat in E by lia. exact E.
      * apply IH in E; [|exact I'|exact ON']. replace (S iter + left)%nat with (iter + S left)%nat in E by lia. destruct e; cbn [done] in E |- *.
        ++ destruct E as [E1 [E2|E2]]; [|lia]. split; [assumption|]. right. lia.
        ++ exact E.
        ++ exact E.
Qed.
Lemma run_apply phi tau tol beta_tol max_iter res e : applyExp phi tau tol beta_tol max_iter = Ok (res, e) ->
  exists nrm, vnorm phi = Ok nrm /\ nrm <> f0 /\ done tau tol beta_tol phi nrm 0 max_iter res e.
Proof.
  unfold AexModel.applyExp. intros E. destruct (vnorm phi) as [nrm| |] eqn:EN; cbn [obind] in E; try discriminate E.
  destruct (fis0 f0 fltb nrm) eqn:E0; [discriminate E|]. apply is0 in E0. exists nrm. split; [reflexivity|]. split; [assumption|].
  apply run in E; [exact E|apply inv_init|].
  intros _ j k Hj Hk. replace j with 0 by lia. replace k with 0 by lia. cbn [Nat.eqb].
  destruct (norm_sq _ _ EN) as [NS _]. rewrite dot_scale, dot_scale_l, conj_emb, NS, (nu_mul _ _ _ _ _ _ _ _ _ _ _ NU).
  transitivity ((emb nrm * emb (finv nrm)) * (emb nrm * emb (finv nrm))); [ring|]. rewrite emb_inv by assumption. ring.
Qed.
(** The scaled Lanczos vectors. *)
Definition us (nrm : F) (vs : nat -> V) : nat -> V := fun i => vscale (emb nrm) (vs i).
Lemma us_0 nrm phi it B vs v0 v1 beta : nrm <> f0 -> inv nrm phi it B vs v0 v1 beta -> veq dot (us nrm vs 0) phi.
Proof.
  intros N I g. unfold us. rewrite (in_start _ _ _ _ _ _ _ _ I), !dot_scale.
  transitivity (emb nrm * emb (finv nrm) * dot g phi); [ring|]. rewrite emb_inv by assumption. ring.
Qed.
Lemma us_assemble nrm vs lc n g : dot g (assemble (S n) vs lc nrm) = dot g (comb (S n) lc (us nrm vs)).
Proof. rewrite dot_assemble, dot_comb. apply b_ext. intros i Hi. unfold us. now rewrite dot_scale. Qed.
Lemma us_orth nrm phi vs n : vnorm phi = Ok nrm -> orth n vs ->
  forall i j, i < n -> j < n -> dot (us nrm vs i) (us nrm vs j) = if i =? j then dot phi phi else t0.
Proof.
  intros EN ON i j Hi Hj. unfold us. rewrite dot_scale, dot_scale_l, conj_emb, (ON i j Hi Hj). destruct (norm_sq _ _ EN) as [-> _].
  rewrite (nu_mul _ _ _ _ _ _ _ _ _ _ _ NU). destruct (i =? j); ring.
Qed.
Lemma veq_self v w : veq dot v w -> dot v v = dot w w.
Proof. intros E. rewrite (E v), (sp_conj _ _ _ _ _ _ _ _ _ _ SP w v), (E w). symmetry. apply (sp_conj _ _ _ _ _ _ _ _ _ _ SP). Qed.
Lemma us_image nrm phi vs i : vnorm phi = Ok nrm -> dot (H (us nrm vs i)) (H (us nrm vs i)) = dot phi phi * dot (H (vs i)) (H (vs i)).
Proof.
  intros EN. unfold us. rewrite (veq_self (H (vscale (emb nrm) (vs i))) (vscale (emb nrm) (H (vs i)))).
  - rewrite dot_scale, dot_scale_l, conj_emb. destruct (norm_sq _ _ EN) as [-> _]. rewrite (nu_mul _ _ _ _ _ _ _ _ _ _ _ NU). ring.
  - intros g. now rewrite H_scale, dot_scale.
Qed.
Lemma krylov_ext v w c : veq dot v w -> veq dot (krylov H v c) (krylov H w c).
Proof.
  intros E. induction c as [|x c IH]; intros g; cbn [GmSpec.krylov].
  - rewrite !dot_scale. now rewrite E.
  - rewrite !dot_add, !dot_scale, E. f_equal. now apply H_ext.
Qed.
Lemma exhausted_poly nrm phi it B vs v0 v1 beta c : nrm <> f0 -> inv nrm phi it B vs v0 v1 beta -> length c <= S it ->
  let M := fun i j => emb (upd2 B it it (re (dot (H v1) v1)) i j) in
  veq dot (comb (S it) (fun i => mpoly (S it) c M i 0) (us nrm vs)) (krylov H phi c).
Proof.
  intros N I Hl M g. rewrite <- (krylov_ext _ _ c (us_0 _ _ _ _ _ _ _ _ N I) g).
  apply (small_poly (S it) (S it) it M (us nrm vs)); try lia.
  - intros i g' Hi. unfold us. rewrite H_scale, (in_rel _ _ _ _ _ _ _ _ I i g' Hi), <- b_mul_l. apply b_ext. intros j Hj.
    rewrite dot_scale. unfold M. rewrite upd2_else by lia. ring.
  - intros i j Hi Hj L. unfold M. rewrite upd2_else by lia. rewrite (in_far _ _ _ _ _ _ _ _ I) by lia. apply emb0.
Qed.
Lemma stopped_poly nrm phi it B vs v0 v1 beta c : nrm <> f0 -> inv nrm phi (S it) B vs v0 v1 beta -> length c <= S (S it) ->
  let M := fun i j => emb (upd2 (upd2 B it (S it) f0) (S (S it)) (S it) f1 i j) in
  veq dot (comb (S (S it)) (fun i => mpoly (S (S (S it))) c M i 0) (us nrm vs)) (krylov H phi c).
Proof.
  intros N I Hl M g. rewrite <- (krylov_ext _ _ c (us_0 _ _ _ _ _ _ _ _ N I) g).
  apply (small_poly (S (S (S it))) (S (S it)) (S it) M (us nrm vs)); try lia.
  - intros i g' Hi. unfold us. rewrite H_scale, (in_rel _ _ _ _ _ _ _ _ I i g' Hi), <- b_mul_l. apply b_ext. intros j Hj.
    rewrite dot_scale. unfold M. rewrite !upd2_else by lia. ring.
  - intros i j Hi Hj L. unfold M. rewrite !upd2_else by lia. rewrite (in_far _ _ _ _ _ _ _ _ I) by lia. apply emb0.
Qed.
(** The exhausted case with a zero residual. *)
Lemma zero_resid v : vnorm v = Ok f0 -> forall g, dot g v = t0.
Proof.
  intros E. destruct (norm_sq _ _ E) as [NS _]. apply (sp_def _ _ _ _ _ _ _ _ _ _ SP). rewrite NS.
  replace (fmul f0 f0) with f0 by ring. apply emb0.
Qed.
Lemma exhausted_rel nrm phi it B vs v0 v1 beta : inv nrm phi it B vs v0 v1 beta -> vnorm (resid it v0 v1 beta) = Ok f0 ->
  let M := fun i j => emb (upd2 B it it (re (dot (H v1) v1)) i j) in
  forall i g, i < S it -> dot g (H (us nrm vs i)) = bsum (S it) (fun j => M j i * dot g (us nrm vs j)).
Proof.
  intros I E M i g Hi. unfold us. rewrite H_scale.
  transitivity (emb nrm * bsum (S it) (fun j => M j i * dot g (vs j))).
  2:{ rewrite <- b_mul_l. apply b_ext. intros j Hj. rewrite dot_scale. ring. }
  f_equal. destruct (Nat.eq_dec i it) as [->|N].
  - rewrite <- (in_1 _ _ _ _ _ _ _ _ I), (column_eq _ _ _ _ _ _ _ _ I g), (zero_resid _ E g). unfold M.
    transitivity (bsum (S it) (fun j => emb (upd2 B it it (re (dot (H v1) v1)) j it) * dot g (vs j)) + t0); [reflexivity|ring].
  - rewrite (in_rel _ _ _ _ _ _ _ _ I i g) by lia. apply b_ext. intros j Hj. unfold M. now rewrite upd2_else by lia.
Qed.
Lemma exhausted_pade m M u tau z X Y nu de n phi :
  (forall i g, i < m -> dot g (H (u i)) = bsum m (fun j => M j i * dot g (u j))) -> 1 <= m -> veq dot (u 0) phi ->
  meq m (mmul m (mpoly m de (mscale tmul z (mscale tmul tau M))) Y) (mpoly m nu (mscale tmul z (mscale tmul tau M))) ->
  meq m X (mpow m Y n) ->
  rational_power t0 vadd vscale dot H (z * tau) nu de n phi (comb m (fun i => X i 0) u).
Proof.
  intros REL Hm H0 HY HX. exists (fun k => comb m (fun i => mpow m Y k i 0) u). split; [|split].
  - intros g. rewrite <- (H0 g), dot_comb. cbn [PadeSpec.mpow]. unfold mone.
    rewrite (bsum_pick m 0) by (lia || (intros j Hj Nj; destruct (Nat.eqb_spec j 0); [lia|ring])). cbn [Nat.eqb]. ring.
  - apply comb_ext. intros i Hi. symmetry. apply HX; lia.
  - intros k Hk g. rewrite !(closed_poly m M u (z * tau) REL). apply comb_ext. intros i Hi. clear g.
    set (A := mscale tmul (z * tau) M).
    assert (EA : meq m A (mscale tmul z (mscale tmul tau M))) by (intros a b _ _; unfold A, mscale; ring).
    assert (HY' : meq m (mmul m (mpoly m de A) Y) (mpoly m nu A)).
    { intros a b Ha Hb. rewrite (mpoly_ext t0 t1 tadd tmul m nu A _ EA a b Ha Hb), <- (HY a b Ha Hb).
      apply (mmul_proper t0 tadd tmul m _ _ (mpoly_ext t0 t1 tadd tmul m de A _ EA) Y Y (fun _ _ _ _ => eq_refl)); assumption. }
    change (bsum m (fun l => mpoly m de A i l * mpow m Y (S k) l 0)) with (mmul m (mpoly m de A) (mpow m Y (1 + k)%nat) i 0).
    change (bsum m (fun l => mpoly m nu A i l * mpow m Y k l 0)) with (mmul m (mpoly m nu A) (mpow m Y k) i 0).
    revert i Hi. assert (G : meq m (mmul m (mpoly m de A) (mpow m Y (1 + k)%nat)) (mmul m (mpoly m nu A) (mpow m Y k))).
    { intros a b Ha Hb. rewrite <- (mmul_proper t0 tadd tmul m _ _ HY' (mpow m Y k) (mpow m Y k) (fun _ _ _ _ => eq_refl) a b Ha Hb).
      rewrite (mmul_assoc t0 t1 tadd tmul tsub topp tdiv tinv FT m _ _ _ a b Ha Hb).
      apply (mmul_proper t0 tadd tmul m (mpoly m de A) (mpoly m de A) (fun _ _ _ _ => eq_refl)); [|assumption..].
      intros c d Hc Hd. rewrite (mpow_add t0 t1 tadd tmul tsub topp tdiv tinv FT m Y 1 k c d Hc Hd).
      apply (mmul_proper t0 tadd tmul m); [|exact (fun _ _ _ _ => eq_refl)|assumption..].
      cbn [PadeSpec.mpow]. apply (mmul_one_l t0 t1 tadd tmul tsub topp tdiv tinv FT). }
    intros i Hi. apply G; lia.
Qed.
Lemma comb_norm m X u p : 1 <= m -> (forall i j, i < m -> j < m -> dot (u i) (u j) = if i =? j then p else t0) ->
  meq m (mmul m (madj tconj X) X) (mone t0 t1) ->
  dot (comb m (fun i => X i 0) u) (comb m (fun i => X i 0) u) = p.
Proof.
  intros Hm ON U. rewrite dot_comb.
  rewrite (b_ext m _ (fun i => (tconj (X i 0) * X i 0) * p)).
  - rewrite b_mul_r. pose proof (U 0 0 ltac:(lia) ltac:(lia)) as E. unfold PadeSpec.mmul, madj, mone in E. cbn [Nat.eqb] in E. rewrite E. ring.
  - intros i Hi. rewrite (dot_conj (u i)), dot_comb.
    rewrite (bsum_pick m i) by (assumption || (intros j Hj N; rewrite (ON i j Hi Hj); destruct (Nat.eqb_spec i j); [lia|ring])).
    rewrite (cj_mul _ _ _ _ CJ), <- dot_conj, (ON i i Hi Hi), Nat.eqb_refl. ring.
Qed.
End Aex.
